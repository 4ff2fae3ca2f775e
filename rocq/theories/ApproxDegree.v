(** * Degree selection: what the tests decide, and when the doubling loop ends (over R) *)
From Coq Require Import Reals List Lia Lra Arith ZArith Bool.
From Verif Require Import Num Tensor RSum Cheb PolySpec LinearModel SolverModel CombinedModel CombinedSpec ApproxModel ApproxDct ApproxInterp ApproxError.
From Verif Require PolyModel PolyArith.
Import ListNotations.
Local Open Scope R_scope.

(** x**(1/k) for x >= 0 as numpy computes it: 1/0 = inf, 0**(negative) = inf *)
Definition rootR (x : R) (k : Z) : option R :=
  if Z.eq_dec k 0 then (if Rlt_dec x 1 then Some 0 else if Req_EM_T x 1 then Some 1 else None)
  else if Req_EM_T x 0 then (if Z_lt_dec 0 k then Some 0 else None)
  else Some (Rpower x (1 / IZR k)).

(** ** maxima *)
Lemma nmaxl_ge l : forall x y, (y = x \/ In y l) -> y <= @nmaxl R R_num x l.
Proof.
  unfold nmaxl. induction l as [|z l IH]; intros x y H; simpl.
  - destruct H as [->|[]]; lra.
  - rewrite nmax_Rmax. destruct H as [->|[->|H]].
    + eapply Rle_trans; [apply (Rmax_l x z)|apply IH; auto].
    + eapply Rle_trans; [apply (Rmax_r x y)|apply IH; auto].
    + apply IH; auto.
Qed.
Lemma nmaxl_in l : forall x, @nmaxl R R_num x l = x \/ In (@nmaxl R R_num x l) l.
Proof.
  unfold nmaxl. induction l as [|z l IH]; intros x; simpl; auto.
  rewrite nmax_Rmax. destruct (IH (Rmax x z)) as [E|E]; [|auto].
  unfold Rmax in *. destruct (Rle_dec x z); rewrite E; auto.
Qed.
Lemma maxAbs_lt (l : list R) tol : l <> [] -> (maxAbs l < tol <-> forall v, In v l -> Rabs v < tol).
Proof.
  intros Hl. unfold maxAbs. rnum. destruct l as [|x l]; [contradiction|]. cbn [map]. split.
  - intros H v Hv. apply Rle_lt_trans with (@nmaxl R R_num (Rabs x) (map Rabs l)); auto.
    apply nmaxl_ge. destruct Hv as [->|Hv]; [auto|right; apply in_map; auto].
  - intros H. destruct (nmaxl_in (map Rabs l) (Rabs x)) as [E|E].
    + change (@nmaxl R R_num (Rabs x) (map Rabs l) < tol). rewrite E. apply H. left; auto.
    + apply in_map_iff in E. destruct E as (v & E & Hv). change (@nmaxl R R_num (Rabs x) (map Rabs l) < tol). rewrite <- E. apply H. right; auto.
Qed.
Lemma maxAbs_ge (l : list R) v : In v l -> Rabs v <= maxAbs l.
Proof.
  intros H. destruct (Rle_dec (Rabs v) (maxAbs l)); auto. exfalso.
  assert (l <> []) by (intros ->; destruct H).
  pose proof (proj1 (maxAbs_lt l (Rabs v) H0) ltac:(lra) v H). lra.
Qed.
Lemma maxl_ge (l : list R) v : In v l -> v <= maxl l.
Proof. destruct l as [|x l]; [intros []|]. intros [->|H]; apply nmaxl_ge; auto. Qed.
Lemma maxl_in (l : list R) : l <> [] -> In (maxl l) l.
Proof. destruct l as [|x l]; [contradiction|]. intros _. simpl. destruct (nmaxl_in l x) as [E|E]; auto. Qed.

(** ** the tests *)
Lemma in_skipn {A} (v d : A) l : forall k, In v (skipn k l) <-> exists i, (k <= i < length l)%nat /\ nth i l d = v.
Proof.
  induction l as [|x l IH]; intros k.
  - rewrite skipn_nil. split; [intros []|intros (i & H & _); simpl in H; lia].
  - destruct k as [|k]; simpl skipn.
    + split.
      * intros H. destruct (In_nth _ _ d H) as (i & Hi & E). exists i. split; [lia|auto].
      * intros (i & Hi & <-). apply nth_In. lia.
    + rewrite IH. split; intros (i & Hi & E).
      * exists (S i). split; [simpl; lia|auto].
      * destruct i as [|i]; [lia|]. exists i. simpl in *. split; [lia|auto].
Qed.
Lemma started_iff l tol : @startedConverging R R_num l tol = true <-> forall i, (length l - 5 <= i < length l)%nat -> nth i l 0 < tol.
Proof.
  unfold startedConverging. rewrite forallb_forall. split.
  - intros H i Hi. specialize (H (nth i l 0)). rewrite (in_skipn (nth i l 0) 0) in H. apply Rltb_true. apply H. eauto.
  - intros H v Hv. rewrite (in_skipn v 0) in Hv. destruct Hv as (i & Hi & <-). apply Rltb_true. auto.
Qed.
Lemma inrangeb_iff s idx : PolyModel.inrangeb s idx = true <-> inrange s idx.
Proof.
  revert idx; induction s as [|n s IH]; intros [|i idx]; simpl; split; intros H; try discriminate; try (inversion H; fail); try constructor.
  - apply andb_true_iff in H. destruct H as [H _]. apply Nat.ltb_lt; auto.
  - apply IH. apply andb_true_iff in H. tauto.
  - inversion H; subst. apply andb_true_iff. split; [apply Nat.ltb_lt; auto|apply IH; auto].
Qed.
(** coefficient of the zero-padded tensor *)
Definition coefOr0 (t : tensor R) (idx : list nat) : R := if PolyModel.inrangeb (shp t) idx then tget t idx else 0.
Lemma indices_nonempty s : Forall (fun n => (1 <= n)%nat) s -> indices s <> [].
Proof.
  intros H E. pose proof (length_indices s) as L. rewrite E in L. simpl in L.
  assert (0 < prodn s)%nat; [|lia]. clear - H. induction H; [unfold prodn; simpl; lia|rewrite prodn_cons; nia].
Qed.
Lemma converged_iff (c c2 : tensor R) tol : Forall (fun n => (1 <= n)%nat) (shp c2) ->
  (hasConverged c c2 tol = true <-> forall idx, inrange (shp c2) idx -> Rabs (tget c2 idx - coefOr0 c idx) < tol).
Proof.
  intros Hs. unfold hasConverged. unfold nltb at 1, R_num at 1. rewrite Rltb_true, maxAbs_lt.
  2:{ cbn [dat tbuild]. intros E. apply map_eq_nil in E. revert E. apply indices_nonempty; auto. }
  cbn [dat tbuild]. split.
  - intros H idx Hi. unfold coefOr0.
    specialize (H (if PolyModel.inrangeb (shp c) idx then tget c2 idx - tget c idx else tget c2 idx)).
    destruct (PolyModel.inrangeb (shp c) idx) eqn:E.
    + apply H. apply in_map_iff. exists idx. rewrite E. split; auto. apply in_indices; auto.
    + rewrite Rminus_0_r. apply H. apply in_map_iff. exists idx. rewrite E. split; auto. apply in_indices; auto.
  - intros H v Hv. apply in_map_iff in Hv. destruct Hv as (idx & <- & Hi). apply in_indices in Hi. specialize (H idx Hi). unfold coefOr0 in H.
    destruct (PolyModel.inrangeb (shp c) idx); auto. rewrite Rminus_0_r in H. auto.
Qed.

(** ** argmax *)
Lemma argmax_spec (l : list R) : l <> [] -> (argmax l < length l)%nat /\ (forall i, (i < length l)%nat -> nth i l 0 <= nth (argmax l) l 0) /\
  (forall i, (i < argmax l)%nat -> nth i l 0 < nth (argmax l) l 0).
Proof.
  intros Hl. unfold argmax. rnum.
  assert (A : forall m, (m < length l)%nat -> let st := fold_left (fun st i => let '(best, pos) := st in if nltb best (nth i l 0) then (nth i l 0, i) else st) (seq 1 m) (nth 0 l 0, 0%nat) in
     fst st = nth (snd st) l 0 /\ (snd st <= m)%nat /\ (forall i, (i <= m)%nat -> nth i l 0 <= fst st) /\ (forall i, (i < snd st)%nat -> nth i l 0 < fst st)).
  { induction m as [|m IH]; intros Hm.
    - simpl. repeat split; auto; intros i Hi; [|lia]. assert (i = 0%nat) by lia. subst. lra.
    - rewrite seq_S, fold_left_app. cbn [fold_left]. specialize (IH ltac:(lia)). cbv zeta in IH. cbn [Nat.add].
      destruct (fold_left _ (seq 1 m) _) as [best pos]. cbn [fst snd] in IH. destruct IH as (E & P & B & F).
      change (nltb best (nth (S m) l 0)) with (Rltb best (nth (S m) l 0)). destruct (Rltb best (nth (S m) l 0)) eqn:L.
      + apply Rltb_true in L. cbn [fst snd]. repeat split; auto.
        * intros i Hi. destruct (Nat.eq_dec i (S m)) as [->|]; [lra|]. specialize (B i ltac:(lia)). lra.
        * intros i Hi. specialize (B i ltac:(lia)). lra.
      + apply Rltb_false in L. cbn [fst snd]. repeat split; auto.
        intros i Hi. destruct (Nat.eq_dec i (S m)) as [->|]; [lra|]. apply B. lia. }
  assert (0 < length l)%nat by (destruct l; [contradiction|simpl; lia]).
  specialize (A (length l - 1)%nat ltac:(lia)). cbv zeta in A. destruct (fold_left _ _ _) as [best pos]. cbn [fst snd] in *.
  destruct A as (E & P & B & F). subst best. repeat split; [lia| |auto]. intros i Hi. apply B. lia.
Qed.

(** ** getFinalDegree *)
Lemma rev_filter_last (P : nat -> bool) n : match rev (filter P (seq 0 n)) with
  | [] => forall i, (i < n)%nat -> P i = false
  | i :: _ => (i < n)%nat /\ P i = true /\ forall j, (i < j < n)%nat -> P j = false end.
Proof.
  induction n as [|n IH]; [simpl; lia|]. rewrite seq_S, filter_app, rev_app_distr. cbn [filter]. rewrite Nat.add_0_l.
  destruct (P n) eqn:E; cbn [rev app].
  - repeat split; auto. intros j Hj. lia.
  - destruct (rev (filter P (seq 0 n))) as [|i r].
    + intros i Hi. destruct (Nat.eq_dec i n) as [->|]; auto. apply IH. lia.
    + destruct IH as (A & B & C). repeat split; auto. intros j Hj. destruct (Nat.eq_dec j n) as [->|]; auto. apply C. lia.
Qed.
Lemma macheps_R : @macheps R R_num = / 4503599627370496.
Proof. unfold macheps. rewrite nlit_R. field. Qed.

Section Final.
  Variables (coeff : list R) (tol : R).
  Hypothesis Hc : coeff <> [].
  Let out := getFinalDegree rootR coeff tol.
  Let deg := fst (fst out). Let eps := snd (fst out). Let rho := snd out.

  Lemma final_eps : eps = 2 * Rmax (/ 4503599627370496) (maxl (skipn (Nat.div (3 * (length coeff - 1)) 4) coeff)).
  Proof.
    unfold eps, out, getFinalDegree. cbn [fst snd]. rewrite nmax_Rmax, macheps_R. rnum. rewrite n2_R.
    assert (0 < 2 * Rmax (/ 4503599627370496) (maxl (skipn (3 * (length coeff - 1) / 4) coeff))).
    { pose proof (Rmax_l (/ 4503599627370496) (maxl (skipn (3 * (length coeff - 1) / 4) coeff))).
      assert (0 < / 4503599627370496) by (apply Rinv_0_lt_compat; lra). lra. }
    destruct (Reqb _ _) eqn:E; auto. apply Reqb_true in E. lra.
  Qed.
  Lemma eps_pos : 0 < eps.
  Proof.
    rewrite final_eps. pose proof (Rmax_l (/ 4503599627370496) (maxl (skipn (3 * (length coeff - 1) / 4) coeff))).
    assert (0 < / 4503599627370496) by (apply Rinv_0_lt_compat; lra). lra.
  Qed.
  Lemma eps_tail i : (Nat.div (3 * (length coeff - 1)) 4 <= i < length coeff)%nat -> 2 * nth i coeff 0 <= eps.
  Proof.
    intros Hi. rewrite final_eps. apply Rmult_le_compat_l; [lra|]. eapply Rle_trans; [|apply Rmax_r].
    apply maxl_ge. apply (in_skipn _ 0). eauto.
  Qed.
  Lemma eps_attained : eps = 2 * / 4503599627370496 \/ exists i, (Nat.div (3 * (length coeff - 1)) 4 <= i < length coeff)%nat /\ eps = 2 * nth i coeff 0.
  Proof.
    rewrite final_eps. unfold Rmax. destruct (Rle_dec _ _); [right|left; reflexivity].
    assert (N : skipn (3 * (length coeff - 1) / 4) coeff <> []).
    { intros E. apply (f_equal (@length R)) in E. rewrite skipn_length in E. change (length (@nil R)) with 0%nat in E.
      assert (0 < length coeff)%nat by (destruct coeff; [contradiction|simpl; lia]).
      pose proof (Nat.div_mod (3 * (length coeff - 1)) 4 ltac:(lia)). lia. }
    pose proof (maxl_in _ N) as I. apply (in_skipn _ 0) in I. destruct I as (i & Hi & E). exists i. split; auto. rewrite E. reflexivity.
  Qed.
  Let big (i : nat) : bool := Rltb eps (nth i coeff 0).
  Lemma deg_form : deg = if forallb (fun c => Rltb c tol) (tl coeff) then 0%nat else match rev (filter big (seq 0 (length coeff))) with [] => 1%nat | i :: _ => Nat.max 1 i end.
  Proof.
    unfold deg, out, getFinalDegree. cbn [fst snd].
    assert (E : filter (fun i => ngtb (nth i coeff n0) (nmul n2 (nmax macheps (maxl (skipn (3 * (length coeff - 1) / 4) coeff))))) (seq 0 (length coeff)) = filter big (seq 0 (length coeff))).
    { apply filter_ext. intros i. unfold big. rewrite final_eps, nmax_Rmax, macheps_R. rnum. rewrite n2_R. reflexivity. }
    rewrite E. reflexivity.
  Qed.
  Lemma tl_all : forallb (fun c => Rltb c tol) (tl coeff) = true <-> forall i, (1 <= i < length coeff)%nat -> nth i coeff 0 < tol.
  Proof.
    destruct coeff as [|c0 r]; [contradiction|]. cbn [tl]. rewrite forallb_forall. split.
    - intros H i Hi. destruct i as [|i]; [lia|]. simpl. apply Rltb_true, H, nth_In. simpl in Hi. lia.
    - intros H v Hv. destruct (In_nth _ _ 0 Hv) as (i & Hi & <-). apply Rltb_true. apply (H (S i)). simpl. lia.
  Qed.
  Lemma deg_zero : deg = 0%nat <-> forall i, (1 <= i < length coeff)%nat -> nth i coeff 0 < tol.
  Proof.
    rewrite deg_form, <- tl_all. destruct (forallb _ _); split; intros; auto; try discriminate.
    destruct (rev _); [discriminate|lia].
  Qed.
  Lemma deg_lt : (deg < length coeff)%nat.
  Proof.
    assert (0 < length coeff)%nat by (destruct coeff; [contradiction|simpl; lia]).
    rewrite deg_form. pose proof tl_all as TA. destruct (forallb _ _); [auto|].
    assert (1 < length coeff)%nat.
    { destruct (Nat.le_gt_cases (length coeff) 1); auto. exfalso. assert (false = true); [|discriminate]. apply TA. intros. lia. }
    pose proof (rev_filter_last big (length coeff)) as RF. destruct (rev _) as [|i r]; lia.
  Qed.
  Lemma deg_above i : deg <> 0%nat -> (deg < i < length coeff)%nat -> nth i coeff 0 <= eps.
  Proof.
    intros Hd Hi. rewrite deg_form in Hd, Hi. destruct (forallb _ _); [congruence|].
    pose proof (rev_filter_last big (length coeff)) as RF. apply Rltb_false. fold (big i).
    destruct (rev _) as [|j r]; [apply RF; lia|]. apply RF. lia.
  Qed.
  Lemma deg_big : (2 <= deg)%nat -> eps < nth deg coeff 0.
  Proof.
    intros Hd. rewrite deg_form in *. destruct (forallb _ _); [lia|].
    pose proof (rev_filter_last big (length coeff)) as RF. destruct (rev _) as [|j r]; [lia|].
    destruct RF as (A & B & C). replace (Nat.max 1 j) with j in * by lia. apply Rltb_true. exact B.
  Qed.
  (** the rate: geometric decay from the largest coefficient down to eps, deg - maxSpot + 1 steps later *)
  Lemma rho_decay : 0 < nth (argmax coeff) coeff 0 -> (argmax coeff <= deg)%nat ->
    exists r, rho = Some r /\ 0 < r /\ eps * r ^ (deg - argmax coeff + 1) = nth (argmax coeff) coeff 0.
  Proof.
    intros Hp Hd. pose proof eps_pos as He.
    assert (R1 : rho = rootR (nth (argmax coeff) coeff 0 / eps) (Z.of_nat deg - Z.of_nat (argmax coeff) + 1)) by reflexivity.
    set (x := nth (argmax coeff) coeff 0 / eps) in *.
    assert (Hx : 0 < x) by (apply Rdiv_lt_0_compat; auto).
    set (k := (deg - argmax coeff + 1)%nat).
    assert (Hk : (Z.of_nat deg - Z.of_nat (argmax coeff) + 1)%Z = Z.of_nat k) by (unfold k; lia).
    rewrite Hk in R1. unfold rootR in R1. destruct (Z.eq_dec (Z.of_nat k) 0); [unfold k in *; lia|].
    destruct (Req_EM_T x 0); [lra|]. exists (Rpower x (1 / IZR (Z.of_nat k))). split; [auto|]. split; [apply exp_pos|].
    rewrite <- Rpower_pow by apply exp_pos. rewrite Rpower_mult.
    rewrite <- INR_IZR_INZ. replace (1 / INR k * INR k) with 1 by (field; apply not_0_INR; unfold k; lia).
    rewrite Rpower_1 by auto. unfold x. field. lra.
  Qed.
End Final.

(** ** checkConstantInDimension *)
(** f does not depend on coordinate cur *)
Definition indepOf (f : list R -> R) (cur : nat) : Prop := forall x v, f (upd x cur v) = f x.
Lemma isClose_self x rel : 0 <= rel -> @isCloseTol R R_num x x rel 0 = true.
Proof. intros H. unfold isCloseTol. rnum. apply Rleb_true. rewrite Rminus_diag_eq by auto. rewrite Rabs_R0. pose proof (Rabs_pos x). nra. Qed.
Lemma isClose_zero x rel : @isCloseTol R R_num x 0 rel 0 = true <-> x = 0.
Proof.
  unfold isCloseTol. rnum. rewrite Rminus_0_r, Rabs_R0. split; intros H.
  - apply Rleb_true in H. pose proof (Rabs_pos x). destruct (Req_dec x 0); auto. apply Rabs_pos_lt in H1. lra.
  - apply Rleb_true. subst. rewrite Rabs_R0. lra.
Qed.
Lemma constAlong_indep f x a b cur steps rel : 0 <= rel -> indepOf (callAt f) cur -> callAt f x <> 0 -> @constAlong R R_num f x a b cur steps rel 0 = true.
Proof.
  intros Hr Hi Hx. unfold constAlong. rnum. destruct (isCloseTol (callAt f x) 0 rel 0) eqn:E; [apply isClose_zero in E; contradiction|].
  apply forallb_forall. intros v _. rewrite Hi. apply isClose_self; auto.
Qed.
Lemma check_zero_probe f a b cur rel : callAt f (zip3 transformPt (probe1 (length a)) a b) = 0 -> @checkConstantInDimension R R_num f a b cur rel 0 = false.
Proof.
  intros H. unfold checkConstantInDimension, constAlong. rewrite H. rnum.
  rewrite (proj2 (isClose_zero 0 rel) eq_refl). reflexivity.
Qed.
