(** * Properties of row_linear_dependencies (C93) *)
From Coq Require Import List Arith Bool Reals Lia Lra Permutation.
From Verif Require Import Num RSum DepModel.
Import ListNotations.
Local Open Scope R_scope.

(** ** Specification *)
Definition kron (i j : nat) : R := if Nat.eqb i j then 1 else 0.
(** the contract of the pivoted QR decomposition of an h x w matrix: A[:, P] = Q R with Q orthogonal, R upper triangular and in every step
    the column of greatest remaining length chosen *)
Definition pivotedQR (h w : nat) (A : rmat) (d : rmat * rmat * list nat) : Prop :=
  let '(Q, R, P) := d in
  Permutation P (seq 0 w) /\
  (forall i j, (i < h)%nat -> (j < h)%nat -> sumn h (fun k => Q k i * Q k j) = kron i j) /\
  (forall i j, (i < h)%nat -> (j < h)%nat -> sumn h (fun k => Q i k * Q j k) = kron i j) /\
  (forall i j, (i < h)%nat -> (j < i)%nat -> (j < w)%nat -> R i j = 0) /\
  (forall i j, (i < h)%nat -> (j < w)%nat -> A i (nth j P 0%nat) = sumn h (fun k => Q i k * R k j)) /\
  (forall k j, (k < h)%nat -> (k <= j)%nat -> (j < w)%nat -> sumn (h - k) (fun i => R (k + i)%nat j * R (k + i)%nat j) <= R k k * R k k).
(** the combination of the rows in l with coefficients c, at column j *)
Definition combination (A : rmat) (c : nat -> R) (l : list nat) (j : nat) : R := Rsum (map (fun i => c i * A i j) l).
Definition rowsIndependent (w : nat) (A : rmat) (l : list nat) : Prop :=
  forall c, (forall j, (j < w)%nat -> combination A c l j = 0) -> forall i, In i l -> c i = 0.
Definition inRowSpan (w : nat) (A : rmat) (l : list nat) (r : nat) : Prop := exists c, forall j, (j < w)%nat -> A r j = combination A c l j.
(** no entry of the diagonal is so small that it is taken for zero without being zero *)
Definition clearRank (h w : nat) (D : rmat) (accuracy : R) : Prop :=
  0 <= accuracy /\ forall k, (k < h)%nat -> (k < w)%nat -> D k k = 0 \/ accuracy < Rabs (D k k).

(** ** Sums *)
Lemma Rsum_map_perm {A} (f : A -> R) l l' : Permutation l l' -> Rsum (map f l) = Rsum (map f l').
Proof. unfold Rsum. induction 1; cbn [map fold_right]; [reflexivity|congruence|ring|congruence]. Qed.
Lemma sumn_perm n P f : Permutation P (seq 0 n) -> sumn n (fun j => f (nth j P 0%nat)) = sumn n f.
Proof.
  intros HP. rewrite <- (Rsum_map_seq f n), <- (Rsum_map_perm f P _ HP), Rsum_nth. rewrite map_length, (Permutation_length HP), seq_length.
  apply sumn_ext. intros i Hi. rewrite nth_indep with (d' := f 0%nat) by (rewrite map_length, (Permutation_length HP), seq_length; auto). rewrite map_nth. reflexivity.
Qed.
Lemma kron_sum n i (f : nat -> R) : (i < n)%nat -> sumn n (fun j => kron i j * f j) = f i.
Proof.
  intros Hi. rewrite (sumn_single n i); auto.
  - unfold kron. rewrite Nat.eqb_refl. ring.
  - intros j Hj Nj. unfold kron. apply Nat.eqb_neq in Nj. rewrite Nat.eqb_sym, Nj. ring.
Qed.
Lemma kron_sum_r n i (f : nat -> R) : (i < n)%nat -> sumn n (fun j => f j * kron j i) = f i.
Proof. intros Hi. rewrite <- (kron_sum n i f Hi). apply sumn_ext. intros j Hj. unfold kron. rewrite Nat.eqb_sym. ring. Qed.
Lemma sumn_sq_zero n f : sumn n (fun i => f i * f i) <= 0 -> forall i, (i < n)%nat -> f i = 0.
Proof.
  intros H i Hi. assert (N : 0 <= sumn i (fun i => f i * f i)) by (apply sumn_nonneg; intros; apply Rle_0_sqr).
  replace n with (i + S (n - i - 1))%nat in H by lia. rewrite sumn_split, sumn_S_l in H. rewrite Nat.add_0_r in H.
  assert (N2 : 0 <= sumn (n - i - 1) (fun j => f (i + S j)%nat * f (i + S j)%nat)) by (apply sumn_nonneg; intros; apply Rle_0_sqr).
  assert (N3 := Rle_0_sqr (f i)). unfold Rsqr in N3. assert (f i * f i = 0) by lra. apply Rmult_integral in H0. tauto.
Qed.

(** ** Triangular systems s R = b *)
Lemma tri_unique m R s : (forall k, (k < m)%nat -> R k k <> 0) -> (forall i j, (i < m)%nat -> (j < i)%nat -> R i j = 0) ->
  (forall j, (j < m)%nat -> sumn m (fun k => s k * R k j) = 0) -> forall k, (k < m)%nat -> s k = 0.
Proof.
  intros HD HT HS k. induction k as [k IH] using lt_wf_ind. intros Hk. specialize (HS k Hk).
  rewrite (sumn_single m k) in HS; auto.
  - apply Rmult_integral in HS. destruct HS as [H|H]; auto. exfalso. apply (HD k Hk H).
  - intros i Hi Ni. destruct (lt_dec i k) as [L|L]; [rewrite (IH i L Hi); ring|]. rewrite (HT i k) by lia. ring.
Qed.
Lemma tri_solve m R b : (forall k, (k < m)%nat -> R k k <> 0) -> (forall i j, (i < m)%nat -> (j < i)%nat -> R i j = 0) ->
  exists s, forall j, (j < m)%nat -> sumn m (fun k => s k * R k j) = b j.
Proof.
  intros HD HT. induction m as [|m IH]; [exists (fun _ => 0); intros; lia|].
  destruct IH as (s & Hs); [intros; apply HD; lia|intros; apply HT; lia|].
  exists (fun k => if Nat.eqb k m then (b m - sumn m (fun k => s k * R k m)) / R m m else s k). intros j Hj. cbn [sumn]. rewrite Nat.eqb_refl.
  rewrite (sumn_ext m _ (fun k => s k * R k j)) by (intros k Hk; replace (Nat.eqb k m) with false by (symmetry; apply Nat.eqb_neq; lia); reflexivity).
  destruct (Nat.eq_dec j m) as [->|N]; [field; apply HD; lia|]. rewrite Hs by lia. rewrite (HT m j) by lia. ring.
Qed.

Lemma filter_len {A} (f : A -> bool) l : (length (filter f l) <= length l)%nat.
Proof. induction l as [|a l IH]; cbn; auto. destruct (f a); cbn; lia. Qed.
Lemma prefix_filter (f : nat -> bool) n : (forall k, (S k < n)%nat -> f (S k) = true -> f k = true) ->
  forall k, (k < n)%nat -> f k = true <-> (k < length (filter f (seq 0 n)))%nat.
Proof.
  revert f. induction n as [|n IH]; intros f Hf k Hk; [lia|]. cbn [seq filter]. rewrite <- seq_shift.
  assert (E : length (filter f (map S (seq 0 n))) = length (filter (fun k => f (S k)) (seq 0 n))).
  { generalize (seq 0 n). intros l. induction l as [|a l IHl]; cbn; auto. destruct (f (S a)); cbn; auto. }
  specialize (IH (fun k => f (S k)) ltac:(intros; apply (Hf (S k0)); [lia|auto])).
  destruct (f 0%nat) eqn:F0.
  - cbn [length]. rewrite E. destruct k as [|k]; [split; auto; lia|]. rewrite (IH k) by lia. lia.
  - assert (AF : forall k, (k < S n)%nat -> f k = false).
    { induction k0 as [|k0 IHk]; auto. intros L. destruct (f (S k0)) eqn:FS; auto. rewrite Hf in IHk by auto. specialize (IHk ltac:(lia)). discriminate. }
    rewrite E. rewrite AF by auto. split; [discriminate|]. intros L. exfalso.
    assert (Z : filter (fun k => f (S k)) (seq 0 n) = []).
    { destruct (filter (fun k => f (S k)) (seq 0 n)) as [|a l] eqn:G; auto. assert (I : In a (a :: l)) by (left; auto). rewrite <- G in I. apply filter_In in I. destruct I as [I1 I2]. apply in_seq in I1. rewrite AF in I2 by lia. discriminate. }
    rewrite Z in L. cbn in L. lia.
Qed.

Section QR.
  Variables (h w : nat) (A Q R : rmat) (P : list nat).
  Hypothesis HQR : pivotedQR h w A (Q, R, P).
  Let HP := proj1 HQR.
  Lemma qr_QtQ : forall i j, (i < h)%nat -> (j < h)%nat -> sumn h (fun k => Q k i * Q k j) = kron i j. Proof. apply HQR. Qed.
  Lemma qr_QQt : forall i j, (i < h)%nat -> (j < h)%nat -> sumn h (fun k => Q i k * Q j k) = kron i j. Proof. apply HQR. Qed.
  Lemma qr_tri : forall i j, (i < h)%nat -> (j < i)%nat -> (j < w)%nat -> R i j = 0. Proof. apply HQR. Qed.
  Lemma qr_fac : forall i j, (i < h)%nat -> (j < w)%nat -> A i (nth j P 0%nat) = sumn h (fun k => Q i k * R k j). Proof. apply HQR. Qed.
  Lemma qr_piv : forall k j, (k < h)%nat -> (k <= j)%nat -> (j < w)%nat -> sumn (h - k) (fun i => R (k + i)%nat j * R (k + i)%nat j) <= R k k * R k k. Proof. apply HQR. Qed.
  (** a zero on the diagonal: everything below and to the right vanishes *)
  Lemma qr_zero k i j : (k < h)%nat -> R k k = 0 -> (k <= i < h)%nat -> (k <= j < w)%nat -> R i j = 0.
  Proof.
    intros Hk Z Hi Hj. assert (H := qr_piv k j Hk (proj1 Hj) (proj2 Hj)). rewrite Z, Rmult_0_l in H. assert (E := sumn_sq_zero _ (fun i => R (k + i)%nat j) H (i - k)%nat ltac:(lia)). cbn in E. replace (k + (i - k))%nat with i in E by lia. exact E.
  Qed.
  (** the diagonal does not increase *)
  Lemma qr_dec k : (S k < h)%nat -> (S k < w)%nat -> Rabs (R (S k) (S k)) <= Rabs (R k k).
  Proof.
    intros H1 H2. assert (H := qr_piv k (S k) ltac:(lia) ltac:(lia) H2). replace (h - k)%nat with (S (S (h - k - 2))) in H by lia. rewrite !sumn_S_l in H.
    replace (k + 0)%nat with k in H by lia. replace (k + 1)%nat with (S k) in H by lia.
    assert (N : 0 <= sumn (h - k - 2) (fun i => R (k + S (S i))%nat (S k) * R (k + S (S i))%nat (S k))) by (apply sumn_nonneg; intros; apply Rle_0_sqr).
    assert (N2 := Rle_0_sqr (R k (S k))). apply Rsqr_le_abs_0. unfold Rsqr in *. lra.
  Qed.
  (** Q^T A = R *)
  Lemma qr_left i j : (i < h)%nat -> (j < w)%nat -> sumn h (fun a => Q a i * A a (nth j P 0%nat)) = R i j.
  Proof.
    intros Hi Hj. rewrite (sumn_ext h _ (fun a => sumn h (fun k => Q a i * Q a k * R k j))) by (intros a Ha; rewrite qr_fac by auto; rewrite <- sumn_scal; apply sumn_ext; intros; ring).
    rewrite sumn_swap. rewrite (sumn_ext h _ (fun k => kron i k * R k j)) by (intros k Hk; rewrite sumn_scal_r, qr_QtQ by auto; reflexivity). apply (kron_sum h i (fun k => R k j)). auto.
  Qed.
  Lemma nth_P j : (j < w)%nat -> exists j', (j' < w)%nat /\ nth j' P 0%nat = j.
  Proof. intros Hj. assert (I : In j P) by (apply (Permutation_in _ (Permutation_sym HP)); apply in_seq; lia). destruct (In_nth P j 0%nat I) as (j' & L & E). rewrite (Permutation_length HP), seq_length in L. eauto. Qed.
  Lemma P_nth j : (j < w)%nat -> (nth j P 0%nat < w)%nat.
  Proof. intros Hj. assert (I : In (nth j P 0%nat) P) by (apply nth_In; rewrite (Permutation_length HP), seq_length; auto). apply (Permutation_in _ HP) in I. apply in_seq in I. lia. Qed.
End QR.

(** ** The rank *)
Section Rank.
  Variables (acc : R) (h w : nat) (A Q R : rmat) (P : list nat).
  Hypothesis HQR : pivotedQR h w A (Q, R, P).
  Hypothesis HC : clearRank h w R acc.
  Let r := length (filter (fun k => Rltb acc (Rabs (R k k))) (seq 0 (Nat.min h w))).
  Lemma rank_diag k : (k < h)%nat -> (k < w)%nat -> (k < r)%nat <-> R k k <> 0.
  Proof.
    intros Hh Hw. destruct HC as [A0 HC']. unfold r. rewrite <- (prefix_filter (fun k => Rltb acc (Rabs (R k k))) (Nat.min h w)); [| |lia].
    - split.
      + intros T Z. apply Rltb_true in T. rewrite Z, Rabs_R0 in T. lra.
      + intros N. apply Rltb_true. destruct (HC' k Hh Hw); tauto.
    - intros i Hi T. apply Rltb_true in T. apply Rltb_true. assert (D := qr_dec h w A Q R P HQR i ltac:(lia) ltac:(lia)). lra.
  Qed.
  Lemma rank_le : (r <= Nat.min h w)%nat.
  Proof. unfold r. transitivity (length (seq 0 (Nat.min h w))); [|rewrite seq_length; lia]. apply filter_len. Qed.
  Lemma rank_rows i j : (r <= i < h)%nat -> (j < w)%nat -> R i j = 0.
  Proof.
    intros Hi Hj. destruct (lt_dec j i) as [L|L]; [apply (qr_tri h w A Q R P HQR); auto; lia|].
    apply (qr_zero h w A Q R P HQR i i j); try lia. destruct (Req_dec (R i i) 0) as [E|N]; auto. exfalso. apply rank_diag in N; lia.
  Qed.
  (** the combinations of rows that vanish are the combinations of the last columns of Q *)
  Lemma rank_null c : (forall j, (j < w)%nat -> sumn h (fun a => c a * A a j) = 0) ->
    exists t, forall a, (a < h)%nat -> c a = sumn (h - r) (fun i => t i * Q a (r + i)%nat).
  Proof.
    intros H. set (t := fun k => sumn h (fun a => c a * Q a k)).
    assert (RL := rank_le).
    assert (T : forall k, (k < r)%nat -> t k = 0).
    { apply (tri_unique r R t).
      - intros k Hk. apply rank_diag; lia.
      - intros i j Hi Hj. apply (qr_tri h w A Q R P HQR); lia.
      - intros j Hj. rewrite <- (H (nth j P 0%nat)) by (apply (P_nth h w A Q R P HQR); lia).
        rewrite (sumn_ext h (fun a => c a * A a _) (fun a => sumn h (fun k => c a * Q a k * R k j))) by (intros a Ha; rewrite (qr_fac h w A Q R P HQR) by lia; rewrite <- sumn_scal; apply sumn_ext; intros; ring).
        rewrite sumn_swap. rewrite (sumn_ext h _ (fun k => t k * R k j)) by (intros k Hk; rewrite sumn_scal_r; reflexivity).
        symmetry. replace h with (r + (h - r))%nat by lia. rewrite sumn_split. rewrite (sumn_zero (h - r)); [ring|]. intros i Hi. rewrite (rank_rows (r + i)%nat j) by lia. ring. }
    exists (fun i => t (r + i)%nat). intros a Ha.
    assert (E : c a = sumn h (fun k => t k * Q a k)).
    { unfold t. rewrite (sumn_ext h _ (fun k => sumn h (fun b => c b * (Q b k * Q a k)))) by (intros k Hk; rewrite <- sumn_scal_r; apply sumn_ext; intros; ring).
      rewrite sumn_swap. rewrite (sumn_ext h _ (fun b => c b * kron b a)) by (intros b Hb; rewrite sumn_scal, (qr_QQt h w A Q R P HQR) by auto; reflexivity). rewrite (kron_sum_r h a c); auto. }
    rewrite E. replace h with (r + (h - r))%nat at 1 by lia. rewrite sumn_split. rewrite (sumn_zero r); [ring|]. intros k Hk. rewrite T by auto. ring.
  Qed.
  Lemma rank_null_back t j : (j < w)%nat -> sumn h (fun a => sumn (h - r) (fun i => t i * Q a (r + i)%nat) * A a j) = 0.
  Proof.
    intros Hj. destruct (nth_P h w A Q R P HQR j Hj) as (j' & Hj' & <-).
    rewrite (sumn_ext h _ (fun a => sumn (h - r) (fun i => t i * (Q a (r + i)%nat * A a (nth j' P 0%nat))))) by (intros a Ha; rewrite <- sumn_scal_r; apply sumn_ext; intros; ring).
    rewrite sumn_swap. apply sumn_zero. intros i Hi. assert (RL := rank_le). rewrite sumn_scal, (qr_left h w A Q R P HQR) by lia. rewrite rank_rows by lia. ring.
  Qed.
  (** the second decomposition: of the last columns of Q, transposed *)
  Variables (Q1 R1 : rmat) (P1 : list nat).
  Let m := (h - r)%nat.
  Let QM : rmat := fun i j => Q j (h - m + i)%nat.
  Hypothesis HQ1 : pivotedQR m h QM (Q1, R1, P1).
  Lemma second_diag k : (k < m)%nat -> R1 k k <> 0.
  Proof.
    intros Hk Z. assert (RL := rank_le).
    (* row k of R1 vanishes *)
    assert (ZR : forall j, (j < h)%nat -> R1 k j = 0).
    { intros j Hj. destruct (lt_dec j k) as [L|L]; [apply (qr_tri m h QM Q1 R1 P1 HQ1); auto|]. apply (qr_zero m h QM Q1 R1 P1 HQ1 k k j); auto; unfold m in *; lia. }
    (* so column k of Q1 is orthogonal to the columns of QM *)
    assert (ZC : forall a, (a < h)%nat -> sumn m (fun i => Q1 i k * QM i a) = 0).
    { intros a Ha. destruct (nth_P m h QM Q1 R1 P1 HQ1 a Ha) as (j & Hj & <-). rewrite (qr_left m h QM Q1 R1 P1 HQ1) by auto. apply ZR; auto. }
    assert (N : sumn m (fun i => Q1 i k * Q1 i k) = 0).
    { rewrite (sumn_ext m _ (fun i => sumn h (fun a => Q1 i k * (QM i a * sumn m (fun l => Q1 l k * QM l a))))).
      - apply sumn_zero. intros i Hi. apply sumn_zero. intros a Ha. rewrite ZC by auto. ring.
      - intros i Hi. rewrite sumn_scal. f_equal.
        rewrite (sumn_ext h _ (fun a => sumn m (fun l => Q1 l k * (Q a (h - m + l)%nat * Q a (h - m + i)%nat)))) by (intros a Ha; rewrite <- sumn_scal; apply sumn_ext; intros l Hl; unfold QM; ring).
        rewrite sumn_swap. rewrite (sumn_ext m _ (fun l => Q1 l k * kron l i)).
        + rewrite (kron_sum_r m i (fun l => Q1 l k)); auto.
        + intros l Hl. rewrite sumn_scal, (qr_QtQ h w A Q R P HQR) by (unfold m in *; lia). f_equal. unfold kron. destruct (Nat.eqb l i) eqn:E.
          * apply Nat.eqb_eq in E. subst l. rewrite Nat.eqb_refl. reflexivity.
          * apply Nat.eqb_neq in E. replace (Nat.eqb (h - m + l) (h - m + i)) with false; [reflexivity|]. symmetry. apply Nat.eqb_neq. lia. }
    rewrite (qr_QtQ m h QM Q1 R1 P1 HQ1) in N by auto. unfold kron in N. rewrite Nat.eqb_refl in N. lra.
  Qed.
  Let dep := firstn m P1.
  Let ind := skipn m P1.
  Lemma part : Permutation (ind ++ dep) (seq 0 h).
  Proof. transitivity (dep ++ ind); [apply Permutation_app_comm|]. unfold dep, ind. rewrite firstn_skipn. apply HQ1. Qed.
  Lemma P1_len : length P1 = h.
  Proof. rewrite (Permutation_length (proj1 HQ1)), seq_length. reflexivity. Qed.
  Lemma dep_nth j : (j < m)%nat -> nth j dep 0%nat = nth j P1 0%nat.
  Proof. intros Hj. unfold dep. rewrite <- (firstn_skipn m P1) at 2. rewrite app_nth1; auto. rewrite firstn_length, P1_len. unfold m in *. lia. Qed.
  Lemma dep_len : length dep = m.
  Proof. unfold dep. rewrite firstn_length, P1_len. unfold m. lia. Qed.
  Lemma whole f : sumn h f = Rsum (map f ind) + Rsum (map f dep).
  Proof. rewrite <- Rsum_map_seq, <- (Rsum_map_perm f _ _ part), map_app, Rsum_app. reflexivity. Qed.
  (** coefficients t whose combination of the rows of QM has given values at the dependent rows *)
  Lemma at_dep t j : (j < m)%nat -> sumn m (fun i => t i * QM i (nth j dep 0%nat)) = sumn m (fun k => sumn m (fun i => t i * Q1 i k) * R1 k j).
  Proof.
    intros Hj. rewrite dep_nth by auto. rewrite (sumn_ext m _ (fun i => sumn m (fun k => t i * Q1 i k * R1 k j))).
    - rewrite sumn_swap. apply sumn_ext. intros k Hk. rewrite sumn_scal_r. reflexivity.
    - intros i Hi. rewrite (qr_fac m h QM Q1 R1 P1 HQ1) by (unfold m in *; lia). rewrite <- sumn_scal. apply sumn_ext. intros; ring.
  Qed.
  Lemma R1_tri i j : (i < m)%nat -> (j < i)%nat -> R1 i j = 0.
  Proof. intros Hi Hj. apply (qr_tri m h QM Q1 R1 P1 HQ1); auto. unfold m in *. lia. Qed.
  Lemma solve_dep b : exists t, forall j, (j < m)%nat -> sumn m (fun i => t i * QM i (nth j dep 0%nat)) = b j.
  Proof.
    destruct (tri_solve m R1 b second_diag R1_tri) as (s & Hs). exists (fun i => sumn m (fun k => Q1 i k * s k)). intros j Hj. rewrite at_dep by auto. rewrite <- Hs by auto.
    apply sumn_ext. intros k Hk. f_equal.
    rewrite (sumn_ext m _ (fun i => sumn m (fun l => s l * (Q1 i l * Q1 i k)))) by (intros i Hi; rewrite <- sumn_scal_r; apply sumn_ext; intros; ring).
    rewrite sumn_swap. rewrite (sumn_ext m _ (fun l => s l * kron l k)) by (intros l Hl; rewrite sumn_scal, (qr_QtQ m h QM Q1 R1 P1 HQ1) by auto; reflexivity). apply (kron_sum_r m k s). auto.
  Qed.
  Lemma QM_shift a i : QM i a = Q a (r + i)%nat.
  Proof. unfold QM, m. assert (RL := rank_le). replace (h - (h - r) + i)%nat with (r + i)%nat by lia. reflexivity. Qed.
  Lemma independent : rowsIndependent w A ind.
  Proof.
    intros c H. set (c' := fun i => if in_dec Nat.eq_dec i ind then c i else 0).
    assert (ND : NoDup (ind ++ dep)) by (apply (Permutation_NoDup (Permutation_sym part)), seq_NoDup).
    assert (DI : forall i, In i dep -> c' i = 0).
    { intros i Hi. unfold c'. destruct in_dec as [I|I]; auto. exfalso. clear - ND Hi I. induction ind as [|a l IH]; [contradiction|]. cbn in ND. inversion ND; subst. destruct I as [->|I]; [apply H1, in_or_app; auto|auto]. }
    assert (EI : forall i, In i ind -> c' i = c i) by (intros i Hi; unfold c'; destruct in_dec; tauto).
    destruct (rank_null c') as (t & Ht).
    { intros j Hj. rewrite whole. rewrite (Rsum_map_ext _ (fun i => c i * A i j) ind) by (intros i Hi; rewrite EI by auto; reflexivity). fold (combination A c ind j). rewrite H by auto.
      rewrite (Rsum_map_ext _ (fun i => 0 * A i j) dep) by (intros i Hi; rewrite DI by auto; reflexivity). rewrite Rsum_map_scal. ring. }
    assert (T0 : forall i, (i < m)%nat -> t i = 0).
    { (* t Q1 R1 = 0 *)
      assert (S0 : forall k, (k < m)%nat -> sumn m (fun i => t i * Q1 i k) = 0).
      { apply (tri_unique m R1); [apply second_diag|apply R1_tri|]. intros j Hj. rewrite <- at_dep by auto.
        assert (ID : In (nth j dep 0%nat) dep) by (apply nth_In; rewrite dep_len; auto).
        assert (LD : (nth j dep 0%nat < h)%nat) by (assert (I : In (nth j dep 0%nat) (seq 0 h)) by (apply (Permutation_in _ part), in_or_app; auto); apply in_seq in I; lia).
        rewrite <- (DI _ ID), Ht by auto. fold m. apply sumn_ext. intros i Hi. rewrite QM_shift. reflexivity. }
      intros i Hi. rewrite <- (kron_sum_r m i t Hi). rewrite (sumn_ext m _ (fun l => sumn m (fun k => t l * Q1 l k * Q1 i k))).
      - rewrite sumn_swap. apply sumn_zero. intros k Hk. rewrite sumn_scal_r, S0 by auto. ring.
      - intros l Hl. rewrite <- (qr_QQt m h QM Q1 R1 P1 HQ1 l i Hl Hi). rewrite <- sumn_scal. apply sumn_ext. intros; ring. }
    intros i Hi. rewrite <- (EI i Hi). assert (LI : (i < h)%nat) by (assert (I : In i (seq 0 h)) by (apply (Permutation_in _ part), in_or_app; auto); apply in_seq in I; lia).
    rewrite Ht by auto. fold m. apply sumn_zero. intros k Hk. rewrite T0 by auto. ring.
  Qed.
  Lemma spanned d : In d dep -> inRowSpan w A ind d.
  Proof.
    intros Hd. destruct (In_nth dep d 0%nat Hd) as (j0 & L & E). rewrite dep_len in L.
    destruct (solve_dep (kron j0)) as (t & Ht). exists (fun a => - sumn m (fun i => t i * QM i a)). intros j Hj.
    assert (Z := rank_null_back t j Hj). rewrite whole in Z. fold m in Z.
    assert (D : Rsum (map (fun a => sumn m (fun i => t i * Q a (r + i)%nat) * A a j) dep) = A d j).
    { rewrite Rsum_nth, map_length, dep_len. rewrite (sumn_ext m _ (fun l => kron j0 l * A (nth l dep 0%nat) j)).
      - rewrite (kron_sum m j0 (fun l => A (nth l dep 0%nat) j)) by auto. rewrite E. reflexivity.
      - intros l Hl. rewrite nth_indep with (d' := (fun a => sumn m (fun i => t i * Q a (r + i)%nat) * A a j) 0%nat) by (rewrite map_length, dep_len; auto).
        rewrite (map_nth (fun a => sumn m (fun i => t i * Q a (r + i)%nat) * A a j)). cbn beta. rewrite <- Ht by auto. f_equal. apply sumn_ext. intros i Hi. rewrite QM_shift. reflexivity. }
    rewrite D in Z. unfold combination. rewrite (Rsum_map_ext _ (fun a => -1 * (sumn m (fun i => t i * Q a (r + i)%nat) * A a j)) ind).
    - rewrite Rsum_map_scal. lra.
    - intros a Ha. rewrite (sumn_ext m (fun i => t i * QM i a) (fun i => t i * Q a (r + i)%nat)) by (intros i Hi; rewrite QM_shift; reflexivity). ring.
  Qed.
End Rank.

(** ** Theorems *)
(** the contract for the two calls: the matrix itself, and a matrix with orthonormal rows *)
Definition qrFor (qr : nat -> nat -> rmat -> rmat * rmat * list nat) (h w : nat) (A : rmat) : Prop :=
  pivotedQR h w A (qr h w A) /\
  forall m M, (1 <= m <= h)%nat -> (forall i j, (i < m)%nat -> (j < m)%nat -> sumn h (fun k => M i k * M j k) = kron i j) -> pivotedQR m h M (qr m h M).
Definition rFactor (d : rmat * rmat * list nat) : rmat := snd (fst d).
Lemma unfold_result qr h w A acc Q R P : qr h w A = (Q, R, P) -> pivotedQR h w A (Q, R, P) ->
  (forall m M, (1 <= m <= h)%nat -> (forall i j, (i < m)%nat -> (j < m)%nat -> sumn h (fun k => M i k * M j k) = kron i j) -> pivotedQR m h M (qr m h M)) ->
  let r := length (filter (fun k => Rltb acc (Rabs (R k k))) (seq 0 (Nat.min h w))) in
  (r = h /\ row_linear_dependencies qr h w A acc = (seq 0 h, [], None)) \/
  ((r < h)%nat /\ exists Q1 R1 P1, pivotedQR (h - r) h (fun i j => Q j (h - (h - r) + i)%nat) (Q1, R1, P1) /\ row_linear_dependencies qr h w A acc = (skipn (h - r) P1, firstn (h - r) P1, Some Q)).
Proof.
  intros E HQ H2 r. unfold row_linear_dependencies. rewrite E. fold r.
  assert (RL : (r <= Nat.min h w)%nat) by apply rank_le.
  destruct (Nat.eqb (h - r) 0) eqn:Z.
  - left. apply Nat.eqb_eq in Z. split; [lia|reflexivity].
  - right. apply Nat.eqb_neq in Z. split; [lia|]. assert (H := H2 (h - r)%nat (fun i j => Q j (h - (h - r) + i)%nat) ltac:(lia)).
    destruct (qr (h - r)%nat h (fun i j => Q j (h - (h - r) + i)%nat)) as [[Q1 R1] P1] eqn:E1. exists Q1, R1, P1. split; [|reflexivity]. apply H.
    intros i j Hi Hj. rewrite (qr_QtQ h w A Q R P HQ) by lia. unfold kron. destruct (Nat.eqb i j) eqn:F.
    + apply Nat.eqb_eq in F. subst. rewrite Nat.eqb_refl. reflexivity.
    + apply Nat.eqb_neq in F. replace (Nat.eqb (h - (h - r) + i) (h - (h - r) + j)) with false; [reflexivity|]. symmetry. apply Nat.eqb_neq. lia.
Qed.

(** C93: every row is in exactly one of the two lists ... *)
Theorem C93_every_row_once : forall qr h w A acc ind dep Q, qrFor qr h w A -> row_linear_dependencies qr h w A acc = (ind, dep, Q) ->
  Permutation (ind ++ dep) (seq 0 h).
Proof.
  intros qr h w A acc ind dep Q [H1 H2] E. destruct (qr h w A) as [[Q0 R0] P0] eqn:EQ.
  destruct (unfold_result qr h w A acc Q0 R0 P0 EQ H1 H2) as [[_ F]|(_ & Q1 & R1 & P1 & HP & F)]; rewrite F in E; injection E as <- <- <-.
  - rewrite app_nil_r. reflexivity.
  - eapply part; eauto.
Qed.
Print Assumptions C93_every_row_once.
(** ... the rows of the first are linearly independent, those of the second are combinations of the first; so the first has as many rows as the rank. *)
Theorem C93_independent_and_dependent_rows : forall qr h w A acc ind dep Q, qrFor qr h w A -> clearRank h w (rFactor (qr h w A)) acc ->
  row_linear_dependencies qr h w A acc = (ind, dep, Q) ->
  rowsIndependent w A ind /\ (forall d, In d dep -> inRowSpan w A ind d) /\ (Q = None <-> rowsIndependent w A (seq 0 h)).
Proof.
  intros qr h w A acc ind dep Q [H1 H2] HC E. destruct (qr h w A) as [[Q0 R0] P0] eqn:EQ. unfold rFactor in HC. cbn [fst snd] in HC.
  destruct (unfold_result qr h w A acc Q0 R0 P0 EQ H1 H2) as [[Er F]|(Lr & Q1 & R1 & P1 & HP & F)]; rewrite F in E; injection E as <- <- <-.
  - assert (I : rowsIndependent w A (seq 0 h)).
    { intros c Hc. destruct (rank_null acc h w A Q0 R0 P0 H1 HC c) as (t & Ht); [intros j Hj; rewrite <- Rsum_map_seq; apply Hc; auto|].
      intros i Hi. apply in_seq in Hi. rewrite Ht by lia. rewrite Er, Nat.sub_diag. reflexivity. }
    split; [exact I|]. split; [contradiction|]. split; auto.
  - assert (I := independent acc h w A Q0 R0 P0 H1 HC Q1 R1 P1 HP). assert (S := spanned acc h w A Q0 R0 P0 H1 HC Q1 R1 P1 HP).
    split; [exact I|]. split; [exact S|]. split; [discriminate|]. intros IA. exfalso.
    (* the first dependent row contradicts the independence of all rows *)
    set (r := length _) in *. assert (DL : length (firstn (h - r) P1) = (h - r)%nat) by (apply (dep_len acc h w Q0 R0 Q1 R1 P1 HP)).
    destruct (firstn (h - r) P1) as [|d dep'] eqn:D; [cbn in DL; lia|].
    destruct (S d ltac:(left; auto)) as (c & Hc). assert (PP : Permutation (skipn (h - r) P1 ++ d :: dep') (seq 0 h)) by (rewrite <- D; apply (part acc h w Q0 R0 Q1 R1 P1 HP)).
    assert (ND : NoDup (skipn (h - r) P1 ++ d :: dep')) by (apply (Permutation_NoDup (Permutation_sym PP)), seq_NoDup).
    assert (Nd : ~ In d (skipn (h - r) P1 ++ dep')) by (apply NoDup_remove_2 in ND; auto).
    set (g := fun i => if Nat.eq_dec i d then 1 else if in_dec Nat.eq_dec i dep' then 0 else - c i).
    assert (Z : g d = 0).
    { apply (IA g); [|apply (Permutation_in _ PP), in_or_app; right; left; auto]. intros j Hj. unfold combination. rewrite <- (Rsum_map_perm _ _ _ PP), map_app, Rsum_app. cbn [map].
      change (Rsum (map (fun i => g i * A i j) (skipn (h - r) P1)) + (g d * A d j + Rsum (map (fun i => g i * A i j) dep')) = 0). unfold g at 2. destruct (Nat.eq_dec d d) as [_|NN]; [|congruence].
      rewrite (Rsum_map_ext _ (fun i => -1 * (c i * A i j)) (skipn (h - r) P1)), Rsum_map_scal.
      - rewrite (Rsum_map_ext _ (fun i => 0 * A i j) dep').
        + rewrite Rsum_map_scal. rewrite Hc by auto. unfold combination. ring.
        + intros i Hi. unfold g. destruct (Nat.eq_dec i d) as [->|_]; [exfalso; apply Nd, in_or_app; auto|]. destruct in_dec; [ring|contradiction].
      - intros i Hi. unfold g. destruct (Nat.eq_dec i d) as [->|_]; [exfalso; apply Nd, in_or_app; auto|]. destruct in_dec as [I2|_]; [|ring]. exfalso.
        apply NoDup_remove_1 in ND. clear - ND Hi I2. induction (skipn (h - r) P1) as [|a l IH]; [contradiction|]. cbn in ND. inversion ND; subst. destruct Hi as [->|Hi]; [apply H1, in_or_app; auto|auto]. }
    unfold g in Z. destruct (Nat.eq_dec d d); [lra|congruence].
Qed.
Print Assumptions C93_independent_and_dependent_rows.

(** A row shorter than the accuracy is said to be removable although it is not: the one row (1e-11). *)
Definition tinyA : rmat := fun _ _ => / 10 ^ 11.
Definition tinyQR : nat -> nat -> rmat -> rmat * rmat * list nat := fun h w M => (fun _ _ => 1, M, seq 0 w).
Theorem C93_small_rows_refuted : qrFor tinyQR 1 1 tinyA /\
  exists Q, row_linear_dependencies tinyQR 1 1 tinyA (/ 10 ^ 10) = ([], [0%nat], Q) /\ ~ inRowSpan 1 tinyA [] 0%nat /\ rowsIndependent 1 tinyA [0%nat].
Proof.
  assert (G : forall M, pivotedQR 1 1 M (fun _ _ => 1, M, seq 0 1)).
  { intros M. cbn. split; [reflexivity|]. split; [|split; [|split; [|split]]].
    - intros i j Hi Hj. assert (i = 0%nat) by lia. assert (j = 0%nat) by lia. subst. cbn. unfold kron. cbn. ring.
    - intros i j Hi Hj. assert (i = 0%nat) by lia. assert (j = 0%nat) by lia. subst. cbn. unfold kron. cbn. ring.
    - intros; lia.
    - intros i j Hi Hj. assert (i = 0%nat) by lia. assert (j = 0%nat) by lia. subst. cbn. ring.
    - intros k j Hk Hl Hj. assert (k = 0%nat) by lia. assert (j = 0%nat) by lia. subst. cbn. lra. }
  split; [split; [apply G|]|].
  - intros m M Hm _. assert (m = 1%nat) by lia. subst. apply G.
  - exists (Some (fun _ _ => 1)). split; [|split].
    + unfold row_linear_dependencies, tinyQR, tinyA. cbn [Nat.min seq filter]. replace (Rltb (/ 10 ^ 10) (Rabs (/ 10 ^ 11))) with false; [reflexivity|].
      symmetry. apply Rltb_false. rewrite Rabs_pos_eq; lra.
    + intros (c & H). specialize (H 0%nat ltac:(lia)). unfold tinyA, combination in H. cbn in H. lra.
    + intros c H i [<-|[]]. specialize (H 0%nat ltac:(lia)). unfold tinyA, combination in H. cbn in H. lra.
Qed.
Print Assumptions C93_small_rows_refuted.

(** A concrete case: two equal rows (3, 4).  The first column of the decomposition is the longer one. *)
Definition exD : rmat := fun _ j => match j with O => 3 | _ => 4 end.
Definition exDqr : nat -> nat -> rmat -> rmat * rmat * list nat := fun h w M =>
  if Nat.eqb h 1 then
    if Rle_dec (M 0%nat 1%nat * M 0%nat 1%nat) (M 0%nat 0%nat * M 0%nat 0%nat) then (fun _ _ => 1, M, [0%nat; 1%nat])
    else (fun _ _ => 1, fun i j => M i (1 - j)%nat, [1%nat; 0%nat])
  else if Req_EM_T (M 0%nat 0%nat) 3 then
    (fun i j => match i, j with S O, S O => - / sqrt 2 | _, _ => / sqrt 2 end, fun i j => match i, j with O, O => 4 * sqrt 2 | O, S O => 3 * sqrt 2 | _, _ => 0 end, [1%nat; 0%nat])
  else (M, kron, [0%nat; 1%nat]).
Lemma two_cases i : (i < 2)%nat -> i = 0%nat \/ i = 1%nat.
Proof. lia. Qed.
Lemma half_sqrt : / sqrt 2 * / sqrt 2 = / 2.
Proof. rewrite <- Rinv_mult. f_equal. apply sqrt_sqrt. lra. Qed.
Example C93_contract_met : qrFor exDqr 2 2 exD.
Proof.
  assert (HS := half_sqrt). assert (S2 : sqrt 2 <> 0) by (apply Rgt_not_eq, sqrt_lt_R0; lra). assert (SS : sqrt 2 * sqrt 2 = 2) by (apply sqrt_sqrt; lra).
  split.
  - unfold exDqr, exD. cbn [Nat.eqb]. destruct Req_EM_T as [_|N]; [|congruence]. cbn [pivotedQR].
    split; [apply perm_swap|]. split; [|split; [|split; [|split]]].
    + intros i j Hi Hj. destruct (two_cases i Hi) as [-> | ->], (two_cases j Hj) as [-> | ->]; unfold kron; cbn; nra.
    + intros i j Hi Hj. destruct (two_cases i Hi) as [-> | ->], (two_cases j Hj) as [-> | ->]; unfold kron; cbn; nra.
    + intros i j Hi Hj Hw. destruct (two_cases i Hi) as [-> | ->]; [lia|]. destruct j; reflexivity.
    + intros i j Hi Hj. destruct (two_cases i Hi) as [-> | ->], (two_cases j Hj) as [-> | ->]; cbn; field; auto.
    + intros k j Hk Hl Hj. destruct (two_cases k Hk) as [-> | ->], (two_cases j Hj) as [-> | ->]; try lia; cbn; nra.
  - intros m M Hm HO. unfold exDqr. destruct (Nat.eqb m 1) eqn:E1.
    + apply Nat.eqb_eq in E1. subst m. assert (HU := HO 0%nat 0%nat ltac:(lia) ltac:(lia)). cbn in HU. unfold kron in HU. cbn in HU.
      destruct Rle_dec as [L|L]; cbn [pivotedQR].
      * split; [reflexivity|]. split; [|split; [|split; [|split]]].
        -- intros i j Hi Hj. replace i with 0%nat by lia. replace j with 0%nat by lia. cbn. unfold kron. cbn. ring.
        -- intros i j Hi Hj. replace i with 0%nat by lia. replace j with 0%nat by lia. cbn. unfold kron. cbn. ring.
        -- intros; lia.
        -- intros i j Hi Hj. replace i with 0%nat by lia. destruct (two_cases j Hj) as [-> | ->]; cbn; ring.
        -- intros k j Hk Hl Hj. replace k with 0%nat by lia. destruct (two_cases j Hj) as [-> | ->]; cbn; lra.
      * split; [apply perm_swap|]. split; [|split; [|split; [|split]]].
        -- intros i j Hi Hj. replace i with 0%nat by lia. replace j with 0%nat by lia. cbn. unfold kron. cbn. ring.
        -- intros i j Hi Hj. replace i with 0%nat by lia. replace j with 0%nat by lia. cbn. unfold kron. cbn. ring.
        -- intros; lia.
        -- intros i j Hi Hj. replace i with 0%nat by lia. destruct (two_cases j Hj) as [-> | ->]; cbn; ring.
        -- intros k j Hk Hl Hj. replace k with 0%nat by lia. destruct (two_cases j Hj) as [-> | ->]; cbn; lra.
    + apply Nat.eqb_neq in E1. assert (m = 2%nat) by lia. subst m.
      assert (A00 := HO 0%nat 0%nat ltac:(lia) ltac:(lia)). assert (A01 := HO 0%nat 1%nat ltac:(lia) ltac:(lia)). assert (A11 := HO 1%nat 1%nat ltac:(lia) ltac:(lia)). cbn in A00, A01, A11. unfold kron in A00, A01, A11. cbn in A00, A01, A11.
      destruct Req_EM_T as [F|_]; [exfalso; rewrite F in A00; nra|]. cbn [pivotedQR].
      (* the columns of an orthogonal matrix are orthonormal *)
      set (a := M 0%nat 0%nat) in *. set (b := M 0%nat 1%nat) in *. set (c := M 1%nat 0%nat) in *. set (d := M 1%nat 1%nat) in *.
      assert (D2 : (a * d - b * c) * (a * d - b * c) = 1) by (replace ((a * d - b * c) * (a * d - b * c)) with ((0 + a * a + b * b) * (0 + c * c + d * d) - (0 + a * c + b * d) * (0 + a * c + b * d)) by ring; rewrite A00, A01, A11; ring).
      assert (Ed : d = (a * d - b * c) * a) by (replace ((a * d - b * c) * a) with (d * (0 + a * a + b * b) - b * (0 + a * c + b * d)) by ring; rewrite A00, A01; ring).
      assert (Ec : c = - (a * d - b * c) * b) by (replace (- (a * d - b * c) * b) with (c * (0 + a * a + b * b) - a * (0 + a * c + b * d)) by ring; rewrite A00, A01; ring).
      set (u := a * d - b * c) in *.
      assert (C00 : 0 + a * a + c * c = 1) by (rewrite Ec; replace (0 + a * a + - u * b * (- u * b)) with (a * a + b * b * (u * u)) by ring; rewrite D2; lra).
      assert (C11 : 0 + b * b + d * d = 1) by (rewrite Ed; replace (0 + b * b + u * a * (u * a)) with (b * b + a * a * (u * u)) by ring; rewrite D2; lra).
      assert (C01 : 0 + a * b + c * d = 0) by (rewrite Ec, Ed; replace (0 + a * b + - u * b * (u * a)) with (a * b * (1 - u * u)) by ring; rewrite D2; ring).
      split; [reflexivity|]. split; [|split; [|split; [|split]]].
      * intros i j Hi Hj. destruct (two_cases i Hi) as [-> | ->], (two_cases j Hj) as [-> | ->]; unfold kron; cbn [sumn Nat.eqb]; fold a b c d; lra.
      * exact HO.
      * intros i j Hi Hj Hw. destruct (two_cases i Hi) as [-> | ->]; [lia|]. replace j with 0%nat by lia. reflexivity.
      * intros i j Hi Hj. destruct (two_cases j Hj) as [-> | ->]; cbn; unfold kron; cbn; ring.
      * intros k j Hk Hl Hj. destruct (two_cases k Hk) as [-> | ->], (two_cases j Hj) as [-> | ->]; try lia; cbn; unfold kron; cbn; lra.
Qed.
Example C93_rank_is_clear : clearRank 2 2 (rFactor (exDqr 2 2 exD)) (/ 10 ^ 10).
Proof.
  unfold exDqr, exD, rFactor. cbn [Nat.eqb]. destruct Req_EM_T as [_|N]; [|congruence]. cbn [fst snd]. split; [lra|]. intros k Hk _. destruct (two_cases k Hk) as [-> | ->]; [right|left; reflexivity].
  assert (1 <= sqrt 2) by (rewrite <- sqrt_1; apply sqrt_le_1; lra). rewrite Rabs_pos_eq; lra.
Qed.
(** one of the two rows is independent, the other dependent *)
Example C93_two_equal_rows : exists ind dep Q, row_linear_dependencies exDqr 2 2 exD (/ 10 ^ 10) = (ind, dep, Some Q) /\ length ind = 1%nat /\ length dep = 1%nat.
Proof.
  destruct (row_linear_dependencies exDqr 2 2 exD (/ 10 ^ 10)) as [[ind dep] Q] eqn:E.
  assert (P := C93_every_row_once _ _ _ _ _ _ _ _ C93_contract_met E).
  destruct (C93_independent_and_dependent_rows _ _ _ _ _ _ _ _ C93_contract_met C93_rank_is_clear E) as (I & S & N).
  assert (L := Permutation_length P). rewrite app_length in L. cbn in L.
  assert (NI : ~ rowsIndependent 2 exD (seq 0 2)).
  { intros F. specialize (F (fun i => match i with O => 1 | _ => -1 end)). assert (F0 : 1 = 0); [|lra]. apply F with (i := 0%nat); [|cbn; auto]. intros j Hj. unfold combination, exD. cbn. destruct j; lra. }
  destruct Q as [Q|]; [|exfalso; apply NI, N; auto]. exists ind, dep, Q. split; [reflexivity|].
  destruct ind as [|i0 [|i1 ind]]; cbn in *.
  - (* no independent row: the rows would vanish *)
    destruct dep as [|d0 dep]; [cbn in L; lia|]. destruct (S d0 ltac:(left; auto)) as (c & H). specialize (H 0%nat ltac:(lia)). unfold combination, exD in H. cbn in H. lra.
  - lia.
  - (* two independent rows: both rows, which are equal *)
    assert (ind = []) by (destruct ind; cbn in L; [auto|lia]). assert (dep = []) by (destruct dep; cbn in L; [auto|lia]). subst. exfalso. apply NI. intros c H i Hi. apply I.
    + intros j Hj. unfold combination. rewrite (Rsum_map_perm _ _ _ P). apply H; auto.
    + apply (Permutation_in _ (Permutation_sym P)). auto.
Qed.
