(** * Whole-system transform: every axis, with the charged error *)
From Coq Require Import Reals List Lia Lra Arith Bool ZArith QArith Qreals.
From Verif Require Import Num Tensor RSum Cheb PolySpec TransformModel TransformProofs TransformExactProofs TransformNDProofs Transfer.
Import ListNotations.
Local Open Scope R_scope.

(** the affine map x |-> (alpha_i x_i + beta_i)_i *)
Definition affine (ab : list (R * R)) (x : list R) : list R :=
  map (fun p => fst (fst p) * snd p + snd (fst p)) (combine ab x).

(** sizes for which the dropped entries are covered by the charged error *)
Definition covered (exact : bool) (N : nat) : Prop :=
  if exact then INR N <= 1000000000000000 else (N <= 7)%nat.

Lemma covered_le exact N M : (M <= N)%nat -> covered exact N -> covered exact M.
Proof.
  intros H. destruct exact; simpl; [|lia]. intros. apply Rle_trans with (INR N); auto. apply le_INR; auto.
Qed.

Definition macheps : R := / 4503599627370496.

Lemma covered_drop exact N : (1 <= N)%nat -> covered exact N -> drop exact N <= INR N * macheps.
Proof.
  intros H1 H. unfold macheps. destruct exact; simpl in H |- *.
  - unfold tau32. rewrite nlit_R.
    assert (HN : 1 <= INR N) by (apply (le_INR 1); auto).
    assert (INR (N - 1) <= INR N) by (apply le_INR; lia). assert (INR (N - 2) <= INR N) by (apply le_INR; lia).
    pose proof (pos_INR (N - 1)). pose proof (pos_INR (N - 2)).
    assert (INR (N - 1) * INR (N - 2) <= INR N * INR N) by (apply Rmult_le_compat; auto).
    assert (INR N * INR N <= 1000000000000000 * INR N) by (apply Rmult_le_compat_r; lra).
    set (u := INR (N - 1) * INR (N - 2)) in *.
    apply Rle_trans with (1 / 100000000000000000000000000000000 * (2500000000000000 * INR N)).
    + apply Rmult_le_compat_l; lra.
    + lra.
  - unfold tau16. rewrite nlit_R.
    do 8 (destruct N as [|N]; [simpl; lra|]). lia.
Qed.

Lemma getTransformationError_R (t : tensor R) d : wf t ->
  @getTransformationError R R_num t d = INR (nth d (shp t) 0%nat) * macheps * sumabs t.
Proof.
  intros H. unfold getTransformationError. rnum. rewrite nofnat_R, nlit_R, tsumabs_R by auto.
  unfold macheps, Rdiv. rewrite Rmult_1_l. reflexivity.
Qed.
Lemma sumabs_nonneg t : 0 <= sumabs t.
Proof. rewrite sumabs_sumidx. apply sumidx_nonneg. intros; apply Rabs_pos. Qed.
Lemma getTransformationError_nonneg (t : tensor R) d : wf t -> 0 <= @getTransformationError R R_num t d.
Proof.
  intros H. rewrite getTransformationError_R by auto. unfold macheps.
  apply Rmult_le_pos; [apply Rmult_le_pos; [apply pos_INR | lra] | apply sumabs_nonneg].
Qed.

(** every axis size is covered *)
Definition all_covered (exact : bool) (t : tensor R) : Prop := Forall (covered exact) (shp t).

(** apply (alpha,beta) pairs to coordinates dim, dim+1, ... *)
Fixpoint aff_from (dim : nat) (ab : list (R * R)) (x : list R) : list R :=
  match ab with
  | [] => x
  | (a, b) :: ab' => upd (aff_from (S dim) ab' x) dim (a * nth dim x 0 + b)
  end.
Lemma aff_from_length ab : forall dim x, length (aff_from dim ab x) = length x.
Proof. induction ab as [|[a b] ab IH]; intros; simpl; auto. rewrite upd_length. auto. Qed.
Lemma aff_from_nth_lt ab : forall dim x j, (j < dim)%nat -> nth j (aff_from dim ab x) 0 = nth j x 0.
Proof. induction ab as [|[a b] ab IH]; intros; simpl; auto. rewrite nth_upd_neq by lia. apply IH; lia. Qed.

Lemma aff_from_cons ab : forall dim v x, aff_from (S dim) ab (v :: x) = v :: aff_from dim ab x.
Proof. induction ab as [|[a b] ab IH]; intros; simpl; auto. rewrite IH. reflexivity. Qed.
Lemma aff_from_0 ab : forall x, length ab = length x -> aff_from 0 ab x = affine ab x.
Proof.
  induction ab as [|[a b] ab IH]; intros [|v x] H; simpl in *; try lia; auto.
  rewrite aff_from_cons. simpl. unfold affine in *. simpl. f_equal. apply IH; lia.
Qed.

Definition inner (p : R * R) : Prop := Rabs (fst p) + Rabs (snd p) <= 1.
Lemma inner_pt a b x : inner (a, b) -> -1 <= x <= 1 -> -1 <= a * x + b <= 1.
Proof.
  unfold inner; simpl. intros H Hx. assert (Rabs (a * x + b) <= 1).
  { eapply Rle_trans; [apply Rabs_triang|]. rewrite Rabs_mult.
    assert (Rabs x <= 1) by (apply Rabs_le; lra). pose proof (Rabs_pos a). pose proof (Rabs_pos x). nra. }
  revert H0; unfold Rabs; destruct Rcase_abs; intros; lra.
Qed.

Lemma transformND_covered exact d (t : tensor R) alpha beta : wf t -> (d < ndim t)%nat -> all_covered exact t ->
  let t' := @transformND R R_num t d alpha beta exact in
  wf t' /\ ndim t' = ndim t /\ all_covered exact t' /\
  forall x, in_cube (ndim t) x -> inner (alpha, beta) ->
   Rabs (cheb_eval t' x - cheb_eval t (upd x d (alpha * nth d x 0 + beta))) <= @getTransformationError R R_num t d.
Proof.
  intros Hw Hd Hc t'. destruct (transformND_shape exact d t alpha beta Hw Hd) as (Hw' & k & Hk & Hs).
  fold t' in Hw', Hs. split; auto. split; [|split].
  - unfold ndim. rewrite Hs, upd_length. auto.
  - unfold all_covered in *. rewrite Hs. apply Forall_upd; auto.
    apply covered_le with (nth d (shp t) 0%nat); [lia|]. apply (proj1 (Forall_nth _ (shp t)) Hc d 0%nat). auto.
  - intros x Hx Hin. eapply Rle_trans.
    + apply transformND_bound; auto. apply inner_pt; auto. apply (cube_nth x d (ndim t)); auto.
    + rewrite getTransformationError_R by auto. apply Rmult_le_compat_r; [apply sumabs_nonneg|].
      apply covered_drop; [apply axis_pos; auto|].
      apply (proj1 (Forall_nth _ (shp t)) Hc d 0%nat). auto.
Qed.

Lemma cube_aff ab : forall dim x n, Forall inner ab -> in_cube n x -> in_cube n (aff_from dim ab x).
Proof.
  induction ab as [|[a b] ab IH]; intros dim x n Hin Hx; simpl; auto. inversion Hin; subst.
  apply cube_upd; auto. destruct (Nat.lt_ge_cases dim n).
  - apply inner_pt; auto. apply (cube_nth x dim n); auto.
  - rewrite nth_overflow by (destruct Hx; lia). apply inner_pt; auto. lra.
Qed.

(** the polynomial changes by at most what the error grows *)
Lemma transformCheb_from_bound exact ab : forall dim (t : tensor R) err,
  wf t -> (dim + length ab <= ndim t)%nat -> all_covered exact t ->
  let r := @transformCheb_from R R_num dim t ab err exact in
  wf (fst r) /\ ndim (fst r) = ndim t /\ all_covered exact (fst r) /\ err <= snd r /\
  (Forall inner ab -> forall x, in_cube (ndim t) x ->
   Rabs (cheb_eval (fst r) x - cheb_eval t (aff_from dim ab x)) <= snd r - err).
Proof.
  induction ab as [|[a b] ab IH]; intros dim t err Hw Hd Hc; cbn [transformCheb_from]; cbv zeta.
  - cbn [fst snd]. repeat split; auto; try apply Hw; try lra. intros _ x Hx. simpl. rewrite Rminus_diag_eq, Rabs_R0; lra.
  - simpl length in Hd. destruct (transformND_covered exact dim t a b Hw ltac:(lia) Hc) as (Hw1 & Hn1 & Hc1 & HB).
    set (t' := transformND t dim a b exact) in *.
    specialize (IH (S dim) t' (err + getTransformationError t dim)%num Hw1 ltac:(lia) Hc1). cbv zeta in IH.
    set (r := transformCheb_from (S dim) t' ab (err + getTransformationError t dim)%num exact) in *.
    destruct IH as (I1 & I2 & I3 & I4 & I5). rnum. rewrite Hn1 in *.
    pose proof (getTransformationError_nonneg t dim Hw).
    split; [exact I1|]. split; [exact I2|]. split; [exact I3|]. split; [lra|].
    intros Hin x Hx. inversion Hin as [|? ? Hin1 Hin2]; subst. cbn [aff_from].
    specialize (I5 Hin2 x Hx).
    assert (Hx' : in_cube (ndim t) (aff_from (S dim) ab x)) by (apply cube_aff; auto).
    specialize (HB _ Hx' Hin1). rewrite aff_from_nth_lt in HB by lia.
    match goal with |- Rabs (?u - ?w) <= _ => 
      replace (u - w) with ((u - cheb_eval t' (aff_from (S dim) ab x)) + (cheb_eval t' (aff_from (S dim) ab x) - w)) by ring end.
    eapply Rle_trans; [apply Rabs_triang|]. lra.
Qed.

Theorem transformCheb_bound exact (t : tensor R) ab err : wf t -> length ab = ndim t -> all_covered exact t ->
  let r := @transformCheb R R_num t ab err exact in
  wf (fst r) /\ ndim (fst r) = ndim t /\ all_covered exact (fst r) /\ err <= snd r /\
  (Forall inner ab -> forall x, in_cube (ndim t) x ->
   Rabs (cheb_eval (fst r) x - cheb_eval t (affine ab x)) <= snd r - err).
Proof.
  intros Hw Hl Hc. unfold transformCheb. rewrite firstn_all2 by lia.
  pose proof (transformCheb_from_bound exact ab 0 t err Hw ltac:(lia) Hc) as H. cbv zeta in *.
  destruct H as (I1 & I2 & I3 & I4 & I5). repeat (split; [assumption|]).
  intros Hin x Hx. rewrite <- aff_from_0 by (destruct Hx; lia). auto.
Qed.

(** ** Exact composition when no axis is shortened (no range hypotheses) *)
Lemma transformND_wf exact d (t : tensor R) alpha beta : wf t -> (d < ndim t)%nat ->
  wf (@transformND R R_num t d alpha beta exact) /\ ndim (@transformND R R_num t d alpha beta exact) = ndim t.
Proof.
  intros Hw Hd. destruct (transformND_shape exact d t alpha beta Hw Hd) as (Hw' & k & Hk & Hs). split; auto.
  unfold ndim. rewrite Hs, upd_length. auto.
Qed.
Lemma transformCheb_from_sizes exact ab : forall dim (t : tensor R) err, wf t -> (dim + length ab <= ndim t)%nat ->
  ndim (fst (@transformCheb_from R R_num dim t ab err exact)) = ndim t /\
  forall j, (nth j (shp (fst (@transformCheb_from R R_num dim t ab err exact))) 0 <= nth j (shp t) 0)%nat.
Proof.
  induction ab as [|[a b] ab IH]; intros dim t err Hw Hd; cbn [transformCheb_from]; cbv zeta; cbn [fst]; auto.
  simpl in Hd. destruct (transformND_shape exact dim t a b Hw ltac:(lia)) as (Hw' & k & Hk & Hs).
  assert (Hn : ndim (transformND t dim a b exact) = ndim t) by (unfold ndim; rewrite Hs, upd_length; auto).
  specialize (IH (S dim) (transformND t dim a b exact) (err + getTransformationError t dim)%num Hw' ltac:(lia)).
  destruct IH as [I1 I2]. split; [congruence|]. intros j. eapply Nat.le_trans; [apply I2|]. rewrite Hs.
  destruct (Nat.eq_dec j dim).
  - subst. unfold ndim in Hd. rewrite nth_upd_eq by lia. lia.
  - rewrite nth_upd_neq by auto. auto.
Qed.
Lemma transformCheb_from_exact exact ab : forall dim (t : tensor R) err,
  wf t -> (dim + length ab <= ndim t)%nat ->
  shp (fst (@transformCheb_from R R_num dim t ab err exact)) = shp t ->
  forall x, length x = ndim t ->
   cheb_eval (fst (@transformCheb_from R R_num dim t ab err exact)) x = cheb_eval t (aff_from dim ab x).
Proof.
  induction ab as [|[a b] ab IH]; intros dim t err Hw Hd; cbn [transformCheb_from]; cbv zeta; cbn [fst]; auto.
  simpl length in Hd. intros Hs x Hx.
  destruct (transformND_shape exact dim t a b Hw ltac:(lia)) as (Hw' & k & Hk & Hs').
  assert (Hn : ndim (transformND t dim a b exact) = ndim t) by (unfold ndim; rewrite Hs', upd_length; auto).
  pose proof (transformCheb_from_sizes exact ab (S dim) (transformND t dim a b exact) (err + getTransformationError t dim)%num Hw' ltac:(lia)) as [_ Hsz].
  assert (Hfull : shp (transformND t dim a b exact) = shp t).
  { rewrite Hs'. specialize (Hsz dim). rewrite Hs in Hsz. rewrite Hs' in Hsz. unfold ndim in Hd.
    rewrite nth_upd_eq in Hsz by lia. replace k with (nth dim (shp t) 0%nat) by lia. apply upd_nth. }
  rewrite IH; auto; try lia; try congruence.
  cbn [aff_from].
  rewrite transformND_exact; auto; try lia; [|rewrite aff_from_length; auto].
  rewrite aff_from_nth_lt by lia. reflexivity.
Qed.
Theorem transformCheb_exact exact (t : tensor R) ab err : wf t -> length ab = ndim t ->
  shp (fst (@transformCheb R R_num t ab err exact)) = shp t ->
  forall x, length x = ndim t ->
   cheb_eval (fst (@transformCheb R R_num t ab err exact)) x = cheb_eval t (affine ab x).
Proof.
  intros Hw Hl Hs x Hx. unfold transformCheb in *. rewrite firstn_all2 in * by lia.
  rewrite transformCheb_from_exact by (auto; lia). rewrite aff_from_0 by lia. reflexivity.
Qed.

(** ** getTransformationError is not a bound in general *)
Lemma chebT_at1 n : chebT n 1 = 1.
Proof. induction n as [| |n I0 I1] using nat_ind2; [reflexivity|reflexivity|]. rewrite chebT_SS, I0, I1. ring. Qed.
Lemma cheb1_at1 c : cheb1 c 1 = Rsum c.
Proof. unfold cheb1. rewrite Rsum_nth. apply sumn_ext. intros. rewrite chebT_at1. ring. Qed.

(** rational check at x = 1, carried over to the reals *)
Lemma transform1D_gap (c : list Q) (al be : Q) :
  Qeq_bool (al + be) 1 = true ->
  negb (Qle_bool (Qabs.Qabs (@nsum Q Q_num (@transform1D Q Q_num c al be) - @nsum Q Q_num c))
          (@nofnat Q Q_num (length c) * (1 # 4503599627370496) * @nsumabs Q Q_num c))%Q = true ->
  @getTransformationError R R_num (mkT [length c] (map Q2R c)) 0
    < Rabs (cheb1 (@transform1D R R_num (map Q2R c) (Q2R al) (Q2R be)) 1 - cheb1 (map Q2R c) (Q2R al * 1 + Q2R be)).
Proof.
  intros E H. rewrite Q2R_ltb in H. apply Rltb_true in H.
  rewrite !Q2R_mult, Q2R_ab, Q2R_minus, (h_sum (h:=Q2R)), (h_sum (h:=Q2R)), (h_transform1D (h:=Q2R)), (h_sumabs (h:=Q2R)), (h_nofnat (h:=Q2R)), !nsum_R, nofnat_R in H.
  apply Qeq_bool_eq in E. apply Qeq_eqR in E. rewrite Q2R_plus, RMicromega.Q2R_1 in E.
  replace (Q2R al * 1 + Q2R be) with 1 by lra. rewrite !cheb1_at1.
  unfold getTransformationError, tsumabs. cbn [shp dat nth]. rnum. rewrite nofnat_R, nlit_R.
  assert (E4 : Q2R (1 # 4503599627370496) = 1 / 4503599627370496) by (unfold Q2R; cbn [Qnum Qden]; lra).
  rewrite E4 in H. exact H.
Qed.

Definition c13_c : list Q := repeat (0 # 1)%Q 40 ++ [(1 # 1)%Q].
Definition c13_al : Q := 1 # 4294967296.
Definition c13_be : Q := 4294967295 # 4294967296.

Lemma getTransformationError_not_bound :
  exists (c : list R) (alpha beta x : R), (2 <= length c)%nat /\ -1 <= x <= 1 /\ inner (alpha, beta) /\
    @getTransformationError R R_num (mkT [length c] c) 0
      < Rabs (cheb1 (@transform1D R R_num c alpha beta) x - cheb1 c (alpha * x + beta)).
Proof.
  exists (map Q2R c13_c), (Q2R c13_al), (Q2R c13_be), 1.
  split; [rewrite map_length; unfold c13_c; rewrite app_length, repeat_length; simpl; lia|]. split; [lra|]. split.
  { assert (Ha : Q2R c13_al = / 4294967296) by (unfold Q2R, c13_al; cbn [Qnum Qden]; lra).
    assert (Hb : Q2R c13_be = 4294967295 / 4294967296) by (unfold Q2R, c13_be; cbn [Qnum Qden]; lra).
    unfold inner; cbn [fst snd]. rewrite Ha, Hb, !Rabs_pos_eq by lra. lra. }
  rewrite map_length. apply transform1D_gap; vm_compute; reflexivity.
Qed.
