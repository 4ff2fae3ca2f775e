(** * Evaluation of polynomial objects over the reals *)
From Coq Require Import Reals List Lia Lra Arith Bool.
From Verif Require Import Num RSum Cheb Tensor PolySpec TransformModel PolyModel.
Import ListNotations.
Local Open Scope R_scope.

(** value of a 1-D coefficient list in the basis [phi] *)
Definition eval1 (phi : nat -> R -> R) (c : list R) (x : R) : R := sumn (length c) (fun i => nth i c 0 * phi i x).
(** value of a tensor in the tensor-product basis *)
Definition evalT (phi : nat -> R -> R) (t : tensor R) (x : list R) : R := sumidx (shp t) (fun idx => tget t idx * basis phi idx x).
Definition pw (i : nat) (v : R) : R := v ^ i.

Lemma eval1_cons phi a c x : eval1 phi (a :: c) x = a * phi O x + eval1 (fun i => phi (S i)) c x.
Proof. unfold eval1. cbn [length]. rewrite sumn_S_l. reflexivity. Qed.
Lemma eval1_scal phi psi c x k : (forall i, psi i x = k * phi i x) -> eval1 psi c x = k * eval1 phi c x.
Proof. intros H. unfold eval1. rewrite <- sumn_scal. apply sumn_ext. intros i _. rewrite H. ring. Qed.

Lemma polyval_cons x a c : c <> [] -> @polyval R R_num x (a :: c) = a + @polyval R R_num x c * x.
Proof.
  intros H. unfold polyval. cbn [rev]. destruct (rev c) as [|d r] eqn:E.
  - exfalso. apply H. rewrite <- (rev_involutive c), E. reflexivity.
  - cbn [app]. rewrite fold_left_app. reflexivity.
Qed.
Lemma polyval_R x c : @polyval R R_num x c = eval1 pw c x.
Proof.
  induction c as [|a c IH]; [reflexivity|]. destruct c as [|b c].
  - unfold polyval, eval1. cbn. unfold pw. simpl. lra.
  - rewrite polyval_cons by discriminate. rewrite IH, (eval1_cons pw a). unfold pw at 2. simpl (x ^ 0).
    rewrite (eval1_scal pw (fun i => pw (S i)) (b :: c) x x); [ring|]. intros i. reflexivity.
Qed.

(** Clenshaw's recurrence as a recursion from the low end *)
Fixpoint clen (x : R) (c : list R) : R * R :=
  match c with
  | [] => (0, 0)
  | a :: r => let '(c0, c1) := clen x r in (a - c1, c0 + c1 * (2 * x))
  end.
Lemma clen_T x c : forall k, fst (clen x c) * chebT k x + snd (clen x c) * chebT (S k) x = sumn (length c) (fun i => nth i c 0 * chebT (k + i) x).
Proof.
  induction c as [|a c IH]; intros k; [cbn; ring|].
  cbn [length clen]. rewrite sumn_S_l. cbn [nth]. rewrite Nat.add_0_r.
  rewrite (sumn_ext _ (fun i => nth i c 0 * chebT (k + S i) x) (fun i => nth i c 0 * chebT (S k + i) x)) by (intros; do 2 f_equal; lia).
  rewrite <- (IH (S k)). destruct (clen x c) as [c0 c1]. cbn [fst snd]. rewrite (chebT_SS k). ring.
Qed.
Lemma clen_fold x c : forall r s, clen x r = s ->
  fold_left (fun c ci => let '(c0, c1) := c in (ci - c1, c0 + c1 * (2 * x))) c s = clen x (rev c ++ r).
Proof.
  induction c as [|a c IH]; intros r s E; [exact (eq_sym E)|].
  cbn [fold_left rev]. rewrite <- app_assoc. apply (IH ([a] ++ r)). cbn [app clen]. rewrite E. destruct s. reflexivity.
Qed.
Lemma chebval_R x c : @chebval R R_num x c = eval1 chebT c x.
Proof.
  assert (H : @chebval R R_num x c = fst (clen x c) + snd (clen x c) * x).
  { rewrite <- (rev_involutive c). unfold chebval. rewrite rev_involutive. destruct (rev c) as [|a [|b [|d r]]].
    - cbn. ring.
    - cbn. ring.
    - cbn. ring.
    - cbv zeta. rewrite n2_R. pose proof (clen_fold x (d :: r) [b; a] (b, a)) as F. cbn [rev] in F |- *.
      assert (K : clen x [b; a] = (b, a)) by (cbn; f_equal; ring). specialize (F K).
      change (@nsub R R_num) with Rminus. change (@nadd R R_num) with Rplus. change (@nmul R R_num) with Rmult.
      rewrite F. rewrite <- !app_assoc. cbn [app]. destruct (clen x (rev r ++ [d; b; a])). reflexivity. }
  rewrite H. unfold eval1. rewrite (sumn_ext _ _ (fun i => nth i c 0 * chebT (0 + i) x)) by (intros; reflexivity).
  rewrite <- (clen_T x c 0). rewrite chebT_0, chebT_1. ring.
Qed.

(** ** One point *)
Definition evalsBasis (ev : R -> list R -> R) (phi : nat -> R -> R) : Prop := forall x c, ev x c = eval1 phi c x.

Lemma fibre0_nth (t : tensor R) i r : (i < hd 0%nat (shp t))%nat -> nth i (@fibre R R_num t 0 (0%nat :: r)) 0 = tget t (i :: r).
Proof.
  intros H. change 0 with (@n0 R R_num). rewrite fibre_nth; [reflexivity|]. destruct (shp t); auto.
Qed.
Lemma wf_evalAxis0 ev x (t : tensor R) : wf t -> wf (@evalAxis0 R R_num ev x t).
Proof. intros [_ H]. apply wf_tbuild. destruct (shp t); cbn; auto. inversion H; auto. Qed.

Lemma evalPoint_eval ev phi : evalsBasis ev phi -> forall x (t : tensor R), wf t -> length x = ndim t ->
  shp (@evalPoint R R_num ev t x) = [] /\ wf (@evalPoint R R_num ev t x) /\ tget (@evalPoint R R_num ev t x) [] = evalT phi t x.
Proof.
  intros HE. induction x as [|x0 xs IH]; intros t W L; unfold ndim in L; cbn [length] in L.
  - destruct (shp t) eqn:E; [|discriminate]. cbn [evalPoint]. repeat split; try apply W; auto. unfold evalT. rewrite E. cbn. ring.
  - destruct (shp t) as [|n s] eqn:E; [discriminate|]. cbn [evalPoint].
    assert (Es : shp (@evalAxis0 R R_num ev x0 t) = s) by (unfold evalAxis0; rewrite shp_tbuild, E; reflexivity).
    destruct (IH (evalAxis0 ev x0 t) (wf_evalAxis0 ev x0 t W)) as (A & B & C).
    { unfold ndim. rewrite Es. cbn in L. lia. }
    repeat split; try apply B; auto. rewrite C. unfold evalT. rewrite Es, E. cbn [sumidx].
    rewrite <- sumidx_sumn. apply sumidx_ext. intros r Hr. unfold evalAxis0. rewrite tget_tbuild by (rewrite E; exact Hr).
    rewrite HE. unfold eval1. rewrite fibre_length, E. cbn [nth]. rewrite <- sumn_scal_r. apply sumn_ext. intros i Hi.
    rewrite fibre0_nth by (rewrite E; exact Hi). cbn [basis]. ring.
Qed.
Lemma evalAt_eval ev phi x (t : tensor R) : evalsBasis ev phi -> wf t -> length x = ndim t -> @evalAt R R_num ev t x = evalT phi t x.
Proof.
  intros HE W L. destruct (evalPoint_eval ev phi HE x t W L) as (A & B & C). unfold evalAt. rewrite <- C.
  rewrite tconst_tget. unfold ndim. rewrite A. reflexivity.
Qed.

(** ** Grids *)
(** the grid point with the given indices *)
Fixpoint gridPoint (cols : list (list R)) (ii : list nat) : list R :=
  match cols, ii with
  | xs :: cols', i :: ii' => nth i xs 0 :: gridPoint cols' ii'
  | _, _ => []
  end.
Lemma last_app1 {A} (l : list A) a d : last (l ++ [a]) d = a.
Proof. induction l as [|b l IH]; auto. cbn [app]. destruct (l ++ [a]) eqn:E; [destruct l; discriminate|]. rewrite <- IH. reflexivity. Qed.
Lemma sumidx_const_mul s F c : sumidx s (fun r => F r * c) = sumidx s F * c.
Proof. rewrite Rmult_comm, <- sumidx_scal. apply sumidx_ext. intros; ring. Qed.
Lemma inrange_app s1 s2 i1 i2 : inrange s1 i1 -> inrange s2 i2 -> inrange (s1 ++ s2) (i1 ++ i2).
Proof. intros. apply Forall2_app; auto. Qed.

Lemma gridEval_gen ev phi : evalsBasis ev phi -> forall cols s e (t : tensor R), length s = length cols ->
  shp t = s ++ e -> Forall (fun n => (1 <= n)%nat) s -> Forall (fun n => (1 <= n)%nat) e -> Forall (fun c => c <> []) cols ->
  shp (@gridEval R R_num ev t cols) = e ++ map (@length R) cols /\
  forall je ii, inrange e je -> inrange (map (@length R) cols) ii ->
    tget (@gridEval R R_num ev t cols) (je ++ ii) = sumidx s (fun idx => tget t (idx ++ je) * basis phi idx (gridPoint cols ii)).
Proof.
  intros HE. induction cols as [|xs cols IH]; intros s e t L Sh Ps Pe Pc.
  - destruct s; [|discriminate]. cbn [gridEval map]. rewrite app_nil_r. split; [exact Sh|]. intros je ii Hj Hi. inversion Hi. subst.
    rewrite app_nil_r. cbn. ring.
  - destruct s as [|n s]; [discriminate|]. cbn [gridEval]. set (t' := gridAxis0 ev xs t).
    assert (Sh' : shp t' = s ++ (e ++ [length xs])) by (unfold t', gridAxis0; rewrite shp_tbuild, Sh; cbn [app tl]; rewrite <- app_assoc; reflexivity).
    apply Forall_cons_iff in Ps. destruct Ps as [Pn Ps]. apply Forall_cons_iff in Pc. destruct Pc as [Px Pc].
    destruct (IH s (e ++ [length xs]) t' ltac:(cbn in L; lia) Sh' Ps) as [Q1 Q2]; auto.
    { apply Forall_app. split; auto. constructor; auto. destruct xs; [congruence|cbn; lia]. }
    split; [rewrite Q1, <- app_assoc; reflexivity|]. intros je ii Hj Hi. inversion Hi as [|i0 ? ii' ? Hi0 Hii' E1 E2]. subst.
    change (je ++ i0 :: ii') with (je ++ [i0] ++ ii'). rewrite app_assoc. rewrite Q2; auto.
    2:{ apply inrange_app; auto. repeat constructor. exact Hi0. }
    cbn [sumidx gridPoint]. rewrite <- sumidx_sumn. apply sumidx_ext. intros r Hr.
    unfold t', gridAxis0. rewrite tget_tbuild.
    2:{ rewrite Sh. cbn [app tl]. rewrite <- app_assoc. apply inrange_app; auto. apply inrange_app; auto. repeat constructor. exact Hi0. }
    rewrite app_assoc, last_app1, removelast_last. rewrite HE. unfold eval1. rewrite fibre_length, Sh. cbn [app nth]. rewrite <- sumn_scal_r.
    apply sumn_ext. intros i Hi'. rewrite fibre0_nth by (rewrite Sh; exact Hi'). cbn [basis]. rnum. ring.
Qed.
Lemma gridEval_eval ev phi cols (t : tensor R) : evalsBasis ev phi -> wf t -> length cols = ndim t -> Forall (fun c => c <> []) cols ->
  shp (@gridEval R R_num ev t cols) = map (@length R) cols /\
  forall ii, inrange (map (@length R) cols) ii -> tget (@gridEval R R_num ev t cols) ii = evalT phi t (gridPoint cols ii).
Proof.
  intros HE [_ W] L Pc. destruct (gridEval_gen ev phi HE cols (shp t) [] t) as [A B]; auto; [rewrite app_nil_r; auto|].
  split; auto. intros ii Hi. rewrite <- (app_nil_l ii) at 1. rewrite B; auto; [|constructor].
  unfold evalT. apply sumidx_ext. intros. rewrite app_nil_r. reflexivity.
Qed.
