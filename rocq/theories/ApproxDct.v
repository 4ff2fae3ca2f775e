(** * Discrete orthogonality of the cosines at the Chebyshev grid *)
From Coq Require Import Reals List Lia Lra Arith ZArith Bool.
From Verif Require Import Num Tensor RSum Cheb.
Import ListNotations.
Local Open Scope R_scope.

(** cos(m pi / n) *)
Definition cosR (m n : nat) : R := cos (INR m * PI / INR n).
(** edge weight: 1/2 at positions 0 and n *)
Definition ew (n k : nat) : R := (if Nat.eqb k 0 then / 2 else 1) * (if Nat.eqb k n then / 2 else 1).

(** 2 sin(t/2) sum_{k=1}^{m} cos(k t) telescopes *)
Lemma cos_sum m t : 2 * sin (t / 2) * sumn m (fun k => cos (INR (S k) * t)) = sin ((INR m + / 2) * t) - sin (t / 2).
Proof.
  induction m.
  - simpl. replace ((0 + / 2) * t) with (t / 2) by field. ring.
  - cbn [sumn]. rewrite Rmult_plus_distr_l, IHm.
    replace ((INR (S m) + / 2) * t) with (INR (S m) * t + t / 2) by field.
    replace ((INR m + / 2) * t) with (INR (S m) * t - t / 2) by (rewrite S_INR; field).
    rewrite sin_plus, sin_minus. ring.
Qed.

Lemma sin_kpi k : sin (INR k * PI) = 0.
Proof.
  induction k; [simpl; rewrite Rmult_0_l; apply sin_0|].
  rewrite S_INR, Rmult_plus_distr_r, Rmult_1_l, neg_sin, IHk. ring.
Qed.
Lemma cos_kpi k : cos (INR k * PI) = if Nat.even k then 1 else -1.
Proof.
  induction k; [simpl; rewrite Rmult_0_l; apply cos_0|].
  rewrite S_INR, Rmult_plus_distr_r, Rmult_1_l, neg_cos, IHk, Nat.even_succ, <- Nat.negb_even.
  destruct (Nat.even k); simpl; ring.
Qed.

(** weighted sum over 0..n *)
Definition wsum (n : nat) (f : nat -> R) : R := sumn (S n) (fun k => ew n k * f k).
Lemma wsum_form n f : (1 <= n)%nat -> wsum n f = f 0%nat / 2 + sumn (n - 1) (fun k => f (S k)) + f n / 2.
Proof.
  intros Hn. unfold wsum. destruct n as [|n]; [lia|].
  change (sumn (S (S n)) ?F) with (sumn (S n) F + F (S n)). rewrite sumn_S_l.
  replace (S n - 1)%nat with n by lia.
  rewrite (sumn_ext n _ (fun k => f (S k))).
  2:{ intros k Hk. unfold ew. cbn [Nat.eqb]. destruct (Nat.eqb_spec k n); [lia|]. ring. }
  unfold ew. cbn [Nat.eqb]. rewrite Nat.eqb_refl. field.
Qed.

(** sum'' cos(k t) for t = m pi / n *)
Lemma wsum_cos0 n m : (1 <= n)%nat -> (0 < m < 2 * n)%nat -> wsum n (fun k => cosR (k * m) n) = 0.
Proof.
  intros Hn Hm. rewrite wsum_form by auto.
  assert (HnR : INR n <> 0) by (apply not_0_INR; lia).
  set (t := INR m * PI / INR n).
  assert (Ht : forall k, cosR (k * m) n = cos (INR k * t)).
  { intros k. unfold cosR, t. f_equal. rewrite mult_INR. field; auto. }
  rewrite (sumn_ext (n - 1) _ (fun k => cos (INR (S k) * t))) by (intros; apply Ht).
  rewrite !Ht.
  assert (Hs : sin (t / 2) <> 0).
  { apply Rgt_not_eq, sin_gt_0.
    - unfold t. apply Rdiv_lt_0_compat; [|lra]. apply Rdiv_lt_0_compat; [|apply lt_0_INR; lia].
      apply Rmult_lt_0_compat; [apply lt_0_INR; lia|apply PI_RGT_0].
    - unfold t. apply Rmult_lt_reg_r with (2 * INR n). { apply Rmult_lt_0_compat; [lra|apply lt_0_INR; lia]. }
      replace (INR m * PI / INR n / 2 * (2 * INR n)) with (INR m * PI) by (field; auto).
      replace (PI * (2 * INR n)) with (INR (2 * n) * PI) by (rewrite mult_INR; simpl; ring).
      apply Rmult_lt_compat_r; [apply PI_RGT_0|apply lt_INR; lia]. }
  apply Rmult_eq_reg_l with (2 * sin (t / 2)); [|lra].
  rewrite Rmult_0_r, !Rmult_plus_distr_l, cos_sum.
  change (INR 0) with 0. rewrite Rmult_0_l, cos_0.
  assert (Hnt : INR n * t = INR m * PI) by (unfold t; field; auto).
  replace ((INR (n - 1) + / 2) * t) with (INR n * t - t / 2) by (rewrite minus_INR by lia; simpl; field).
  rewrite Hnt, sin_minus, sin_kpi. field.
Qed.
Lemma wsum_ext n f g : (forall k, (k <= n)%nat -> f k = g k) -> wsum n f = wsum n g.
Proof. intros H. apply sumn_ext. intros k Hk. rewrite H by lia. reflexivity. Qed.
Lemma wsum_one n : (1 <= n)%nat -> wsum n (fun _ => 1) = INR n.
Proof. intros H. rewrite wsum_form by auto. rewrite sumn_const, minus_INR by lia. simpl. field. Qed.
Lemma wsum_plus n f g : wsum n (fun k => f k + g k) = wsum n f + wsum n g.
Proof. unfold wsum. rewrite <- sumn_plus. apply sumn_ext. intros. ring. Qed.
Lemma wsum_scal n c f : wsum n (fun k => c * f k) = c * wsum n f.
Proof. unfold wsum. rewrite <- sumn_scal. apply sumn_ext. intros. ring. Qed.

Lemma cosR_0 n : cosR 0 n = 1.
Proof. unfold cosR. change (INR 0) with 0. unfold Rdiv. rewrite !Rmult_0_l. apply cos_0. Qed.
(** product to sum *)
Lemma cosR_mul n i j k : (1 <= n)%nat -> (i <= j)%nat ->
  cosR (k * i) n * cosR (k * j) n = / 2 * cosR (k * (j - i)) n + / 2 * cosR (k * (j + i)) n.
Proof.
  intros Hn Hij. assert (HnR : INR n <> 0) by (apply not_0_INR; lia).
  unfold cosR.
  set (u := INR (k * i) * PI / INR n). set (v := INR (k * j) * PI / INR n).
  replace (INR (k * (j - i)) * PI / INR n) with (v - u).
  2:{ unfold u, v. rewrite !mult_INR, minus_INR by lia. field; auto. }
  replace (INR (k * (j + i)) * PI / INR n) with (v + u).
  2:{ unfold u, v. rewrite !mult_INR, plus_INR. field; auto. }
  rewrite cos_plus, cos_minus. field.
Qed.
(** cos at multiples of a full period *)
Lemma cosR_2n n k : (1 <= n)%nat -> cosR (k * (2 * n)) n = 1.
Proof.
  intros Hn. assert (HnR : INR n <> 0) by (apply not_0_INR; lia). unfold cosR.
  replace (INR (k * (2 * n)) * PI / INR n) with (INR (k * 2) * PI) by (rewrite !mult_INR; simpl; field; auto).
  rewrite cos_kpi, Nat.even_mul. rewrite orb_true_r. reflexivity.
Qed.

(** the orthogonality relation *)
Lemma dct_orth_le n i j : (1 <= n)%nat -> (i <= j <= n)%nat ->
  2 * ew n i / INR n * wsum n (fun k => cosR (k * i) n * cosR (k * j) n) = if Nat.eqb i j then 1 else 0.
Proof.
  intros Hn Hij. assert (HnR : INR n <> 0) by (apply not_0_INR; lia).
  rewrite (wsum_ext n _ (fun k => / 2 * cosR (k * (j - i)) n + / 2 * cosR (k * (j + i)) n)) by (intros; apply cosR_mul; lia).
  rewrite wsum_plus, !wsum_scal.
  destruct (Nat.eqb_spec i j) as [<-|Hne].
  - rewrite Nat.sub_diag. rewrite (wsum_ext n (fun k => cosR (k * 0) n) (fun _ => 1)) by (intros; rewrite Nat.mul_0_r; apply cosR_0).
    rewrite wsum_one by auto.
    destruct (Nat.eq_dec i 0) as [->|Hi0].
    + cbn [Nat.add]. rewrite (wsum_ext n (fun k => cosR (k * 0) n) (fun _ => 1)) by (intros; rewrite Nat.mul_0_r; apply cosR_0).
      rewrite wsum_one by auto. unfold ew. cbn [Nat.eqb]. destruct n; [lia|]. cbn [Nat.eqb]. field; auto.
    + destruct (Nat.eq_dec i n) as [->|Hin].
      * rewrite (wsum_ext n (fun k => cosR (k * (n + n)) n) (fun _ => 1)).
        2:{ intros. replace (n + n)%nat with (2 * n)%nat by lia. apply cosR_2n; auto. }
        rewrite wsum_one by auto. unfold ew. rewrite Nat.eqb_refl. destruct (Nat.eqb_spec n 0); [lia|]. field; auto.
      * rewrite wsum_cos0 by lia. unfold ew. destruct (Nat.eqb_spec i 0), (Nat.eqb_spec i n); try lia. field; auto.
  - rewrite !wsum_cos0 by lia. field; auto.
Qed.
Lemma ew_sym_sum n i j : wsum n (fun k => cosR (k * i) n * cosR (k * j) n) = wsum n (fun k => cosR (k * j) n * cosR (k * i) n).
Proof. apply wsum_ext. intros. ring. Qed.
Lemma dct_orth n i j : (1 <= n)%nat -> (i <= n)%nat -> (j <= n)%nat ->
  2 * ew n i / INR n * wsum n (fun k => cosR (k * i) n * cosR (k * j) n) = if Nat.eqb i j then 1 else 0.
Proof.
  intros Hn Hi Hj. destruct (Nat.le_ge_cases i j) as [H|H]; [apply dct_orth_le; lia|].
  destruct (Nat.eqb_spec i j) as [->|Hne].
  - pose proof (dct_orth_le n j j Hn). rewrite Nat.eqb_refl in H0. apply H0. lia.
  - rewrite ew_sym_sum. pose proof (dct_orth_le n j i Hn ltac:(lia)).
    destruct (Nat.eqb_spec j i); [lia|].
    assert (HnR : INR n <> 0) by (apply not_0_INR; lia).
    assert (Hw : forall q, ew n q <> 0).
    { intros q. unfold ew. destruct (Nat.eqb q 0), (Nat.eqb q n); lra. }
    assert (E : wsum n (fun k => cosR (k * j) n * cosR (k * i) n) = 0).
    { apply Rmult_eq_reg_l with (2 * ew n j / INR n); [rewrite H0; ring|].
      unfold Rdiv. apply Rmult_integral_contrapositive. split.
      - specialize (Hw j). lra.
      - apply Rinv_neq_0_compat; auto. }
    rewrite E. ring.
Qed.

(** ** The 1-D interpolation matrix: coefficient k from value j *)
Definition imat (n k j : nat) : R := 2 * ew n k * ew n j / INR n * cosR (k * j) n.
(** the Chebyshev polynomials at the nodes *)
Lemma chebT_node m j n : chebT m (cosR j n) = cosR (m * j) n.
Proof. unfold cosR. rewrite chebT_cos. f_equal. rewrite mult_INR. unfold Rdiv. ring. Qed.
(** interpolation *)
Lemma imat_interp n i j : (1 <= n)%nat -> (i <= n)%nat -> (j <= n)%nat ->
  sumn (S n) (fun k => chebT k (cosR i n) * imat n k j) = if Nat.eqb i j then 1 else 0.
Proof.
  intros Hn Hi Hj. rewrite Nat.eqb_sym, <- (dct_orth n j i) by auto.
  unfold wsum. rewrite <- sumn_scal. apply sumn_ext. intros k Hk.
  rewrite chebT_node. unfold imat, Rdiv. ring.
Qed.
(** position at which T_m appears on the grid *)
Definition alias (n m : nat) : nat := let r := Nat.modulo m (2 * n) in if Nat.leb r n then r else (2 * n - r)%nat.
Lemma alias_le n m : (1 <= n)%nat -> (alias n m <= n)%nat.
Proof. intros Hn. unfold alias. pose proof (Nat.mod_upper_bound m (2 * n) ltac:(lia)). destruct (Nat.leb_spec (m mod (2 * n)) n); lia. Qed.
Lemma alias_small n m : (1 <= n)%nat -> (m <= n)%nat -> alias n m = m.
Proof. intros Hn Hm. unfold alias. rewrite Nat.mod_small by lia. destruct (Nat.leb_spec m n); lia. Qed.
Lemma cosR_period n q r j : (1 <= n)%nat -> cosR ((2 * n * q + r) * j) n = cosR (r * j) n.
Proof.
  intros Hn. assert (HnR : INR n <> 0) by (apply not_0_INR; lia). unfold cosR.
  replace (INR ((2 * n * q + r) * j) * PI / INR n) with (INR (r * j) * PI / INR n + 2 * INR (q * j) * PI).
  - apply cos_period.
  - rewrite !mult_INR, plus_INR, !mult_INR. simpl (INR 2). field; auto.
Qed.
Lemma cosR_refl n r j : (1 <= n)%nat -> (r <= 2 * n)%nat -> cosR ((2 * n - r) * j) n = cosR (r * j) n.
Proof.
  intros Hn Hr. assert (HnR : INR n <> 0) by (apply not_0_INR; lia). unfold cosR.
  rewrite <- (cos_neg (INR (r * j) * PI / INR n)).
  rewrite <- (cos_period (- (INR (r * j) * PI / INR n)) j). f_equal.
  rewrite !mult_INR, minus_INR, mult_INR by auto. simpl (INR 2). field; auto.
Qed.
Lemma cosR_alias n m j : (1 <= n)%nat -> cosR (m * j) n = cosR (alias n m * j) n.
Proof.
  intros Hn. unfold alias. pose proof (Nat.div_mod m (2 * n) ltac:(lia)) as E.
  pose proof (Nat.mod_upper_bound m (2 * n) ltac:(lia)).
  rewrite E at 1. rewrite cosR_period by auto.
  destruct (Nat.leb_spec (m mod (2 * n)) n); auto. rewrite cosR_refl by lia. reflexivity.
Qed.
(** reproduction, with aliasing *)
Lemma imat_alias n k m : (1 <= n)%nat -> (k <= n)%nat ->
  sumn (S n) (fun j => imat n k j * chebT m (cosR j n)) = if Nat.eqb k (alias n m) then 1 else 0.
Proof.
  intros Hn Hk. rewrite <- (dct_orth n k (alias n m)); auto using alias_le.
  unfold wsum. rewrite <- sumn_scal. apply sumn_ext. intros j Hj.
  rewrite chebT_node, cosR_alias by auto. unfold imat, Rdiv.
  rewrite (Nat.mul_comm k j), (Nat.mul_comm (alias n m) j). ring.
Qed.
