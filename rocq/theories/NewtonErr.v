(** * newton_polish: the arguments it does not take (C89) *)
From Coq Require Import List Arith Bool Reals Lia Lra.
From Verif Require Import Num Tensor PolySpec PolyModel NewtonModel NewtonProps NewtonMore.
Import ListNotations.
Local Open Scope R_scope.

Lemma value_width p x v : @valueAt R R_num p x = NOk v -> ndim (otensor p) = length x.
Proof.
  unfold valueAt. assert (G : forall ev t, match @polyCall R R_num ev t (PVec x) with Val [v'] => NOk v' | _ => NValueError end = NOk v -> ndim t = length x).
  { intros ev t. unfold polyCall, normPoints. destruct (Nat.ltb_spec 1 (ndim t)).
    - destruct (Nat.eqb_spec (length x) (ndim t)); [auto|discriminate].
    - destruct (Nat.eqb_spec 1 (ndim t)) as [E|]; [|discriminate]. rewrite <- E. destruct x as [|a [|b x]]; cbn; try discriminate. reflexivity. }
  destruct p as [t|t]; apply G.
Qed.
Lemma value_error p x : @valueAt R R_num p x <> NLinAlg.
Proof. unfold valueAt. destruct p as [t|t]; destruct polyCall as [[|? [|? ?]]|]; discriminate. Qed.
Lemma grad_error d p x : @gradRow R R_num d p x <> NLinAlg.
Proof. unfold gradRow. destruct p as [t|t]; destruct grad as [[out ?]|]; try discriminate; destruct Nat.eqb; try discriminate; destruct out as [|? [|? ?]]; discriminate. Qed.
Lemma collect_error {A B} (f : A -> nres B) l : (forall a, f a <> NLinAlg) -> collect f l <> NLinAlg.
Proof. intros H. induction l as [|a l IH]; cbn; [discriminate|]. assert (Ha := H a). destruct (f a); cbn; try discriminate; [|congruence]. destruct (collect f l); cbn; congruence. Qed.
Lemma collect_all {A B} (f : A -> nres B) l r : collect f l = NOk r -> forall a, In a l -> exists b, f a = NOk b.
Proof. revert r. induction l as [|a l IH]; cbn; intros r E b Hb; [contradiction|]. destruct (f a) eqn:F; cbn in E; try discriminate. destruct (collect f l) eqn:G; cbn in E; try discriminate. destruct Hb as [<-|Hb]; eauto. Qed.
Lemma delta_width solve polys dim x p : In p polys -> ndim (otensor p) <> length x -> @newtonDelta R R_num solve polys dim x = NValueError.
Proof.
  intros Hp N. unfold newtonDelta. assert (H1 := collect_error (fun p => @gradRow R R_num dim p x) polys ltac:(intros; apply grad_error)).
  assert (H2 := collect_error (fun p => @valueAt R R_num p x) polys ltac:(intros; apply value_error)).
  destruct (collect (fun p => gradRow dim p x) polys); cbn [nbind]; [|reflexivity|congruence].
  destruct (collect (fun p => valueAt p x) polys) as [v| |] eqn:E; cbn [nbind]; [|reflexivity|congruence].
  exfalso. destruct (collect_all _ _ _ E p Hp) as (b & Eb). apply value_width in Eb. auto.
Qed.

(** C89: no polynomials, or a polynomial whose number of variables is not the length of the point, is a ValueError; as many coordinates as
    variables but another number of polynomials is a LinAlgError. *)
Theorem C89_rejected_arguments : forall solve polys root niter tol, (1 <= niter)%nat ->
  (polys = [] -> newton_polish solve euclid polys root niter tol = NValueError) /\
  ((exists p, In p polys /\ ndim (otensor p) <> length root) -> newton_polish solve euclid polys root niter tol = NValueError) /\
  (polys <> [] -> (1 <= length root)%nat -> (forall p, In p polys -> wf (otensor p) /\ ndim (otensor p) = length root) -> length polys <> length root ->
     newton_polish solve euclid polys root niter tol = NLinAlg).
Proof.
  intros solve polys root niter tol Hn. destruct niter as [|k]; [lia|]. split; [|split].
  - intros ->. reflexivity.
  - intros (p & Hp & N). destruct polys as [|q l] eqn:E; [contradiction|]. rewrite <- E in *. assert (NE : polys <> []) by (rewrite E; discriminate). clear E q l.
    unfold newton_polish. destruct polys as [|q l] eqn:E; [congruence|]. rewrite <- E in *. cbn [newtonLoop]. rewrite (delta_width solve polys _ root p Hp N). reflexivity.
  - intros NE L1 H L. unfold newton_polish. destruct polys as [|q l] eqn:E; [congruence|]. rewrite <- E in *. clear NE.
    assert (M : fold_left Nat.max (map (fun p => ndim (otensor p)) polys) 0%nat = length root).
    { assert (Hq := proj2 (H q ltac:(rewrite E; left; auto))). assert (G : forall l m, (forall p, In p l -> ndim (otensor p) = length root) -> (m <= length root)%nat -> l <> [] \/ m = length root -> fold_left Nat.max (map (fun p => ndim (@otensor R p)) l) m = length root).
      { induction l0 as [|a l0 IH]; intros m Ha Hm [F|F]; cbn; try congruence; apply IH; try (intros; apply Ha; right; auto); rewrite (Ha a) by (left; auto); [lia|right; lia|lia|right; lia]. }
      apply G; [intros p Hp; apply H; auto|lia|left; rewrite E; discriminate]. }
    cbn [newtonLoop]. rewrite M. unfold newtonDelta.
    destruct (collect_ok (fun p => @gradRow R R_num (length root) p root) (fun _ _ => True) polys) as (J & EJ & _).
    { intros p Hp. destruct (H p Hp) as [W N]. destruct (grad_row p root (length root) W N L1 eq_refl) as (out & E1 & _). eauto. }
    destruct (collect_ok (fun p => @valueAt R R_num p root) (fun _ _ => True) polys) as (v & EV & _).
    { intros p Hp. destruct (H p Hp) as [W N]. rewrite (value_ok p root (length root) W N L1 eq_refl). eauto. }
    rewrite EJ, EV. cbn [nbind]. apply Nat.eqb_neq in L. rewrite L. reflexivity.
Qed.
Print Assumptions C89_rejected_arguments.
Example C89_rejected_case : newton_polish exactSolve euclid [sq1] [1; 2] 100 (1 / 100000) = NValueError /\ newton_polish exactSolve euclid [sq1; sq1] [1] 100 (1 / 100000) = NLinAlg.
Proof.
  split.
  - apply C89_rejected_arguments; [lia|]. exists sq1. split; [left; auto|]. cbn. lia.
  - destruct (C89_rejected_arguments exactSolve [sq1; sq1] [1] 100 (1 / 100000) ltac:(lia)) as (_ & _ & H). apply H; [discriminate|cbn; lia| |cbn; lia].
    intros p [<-|[<-|[]]]; (split; [repeat constructor|reflexivity]).
Qed.
