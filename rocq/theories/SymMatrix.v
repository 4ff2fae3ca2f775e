(** * The singular value decomposition of a matrix with its rows permuted and negated *)
From Coq Require Import List Arith Bool Lia ZArith Permutation Reals Lra.
From Verif Require Import Num RSum LinearModel LinearProofs SvdProofs.
From Verif Require DepProps.
From Coq Require Import List.
Import ListNotations.
Local Open Scope R_scope.

Notation mg := (@mget R R_num).
Lemma delta_refl i : delta i i = 1.
Proof. unfold delta. rewrite Nat.eqb_refl. reflexivity. Qed.

Lemma col_norm n (U : nat -> nat -> R) x : (forall i j, (i < n)%nat -> (j < n)%nat -> sumn n (fun k => U k i * U k j) = delta i j) ->
  sumn n (fun i => sumn n (fun j => U i j * x j) * sumn n (fun j => U i j * x j)) = sumn n (fun i => x i * x i).
Proof.
  intros H.
  rewrite (sumn_ext n _ (fun i => sumn n (fun j => sumn n (fun k => (U i j * U i k) * (x j * x k))))).
  2:{ intros i Hi. rewrite <- sumn_scal_r. apply sumn_ext. intros j Hj. rewrite <- sumn_scal. apply sumn_ext. intros; ring. }
  rewrite sumn_swap. apply sumn_ext. intros j Hj. rewrite sumn_swap.
  rewrite (sumn_ext n _ (fun k => delta j k * (x j * x k))).
  2:{ intros k Hk. rewrite sumn_scal_r. f_equal. apply (H j k); auto. }
  apply (sumn_delta n j (fun k => x j * x k)); auto.
Qed.
(** orthonormal columns: the rows are orthonormal too *)
Lemma rows_orth n (U : nat -> nat -> R) : (forall i j, (i < n)%nat -> (j < n)%nat -> sumn n (fun k => U k i * U k j) = delta i j) ->
  forall i j, (i < n)%nat -> (j < n)%nat -> sumn n (fun p => U i p * U j p) = delta i j.
Proof.
  intros HU. set (q := fun i => sumn n (fun p => U i p * U i p)). set (w := fun i j => sumn n (fun p => U i p * U j p)).
  assert (E : forall i, (i < n)%nat -> sumn n (fun j => (delta i j - w i j) * (delta i j - w i j)) = 1 - q i).
  { intros i Hi. assert (W : sumn n (fun j => w i j * w i j) = q i).
    { unfold w. rewrite (sumn_ext n _ (fun j => sumn n (fun p => U j p * U i p) * sumn n (fun p => U j p * U i p))).
      - apply (col_norm n U (fun p => U i p)); auto.
      - intros j Hj. rewrite (sumn_ext n (fun p => U i p * U j p) (fun p => U j p * U i p)) by (intros; ring). reflexivity. }
    transitivity (sumn n (fun j => delta i j * (delta i j - 2 * w i j)) + sumn n (fun j => w i j * w i j)); [rewrite <- sumn_plus; apply sumn_ext; intros; ring|].
    rewrite W, (sumn_delta n i (fun j => delta i j - 2 * w i j)) by auto. rewrite delta_refl. unfold w. fold (q i). ring. }
  assert (N : forall i, (i < n)%nat -> 0 <= 1 - q i) by (intros i Hi; rewrite <- E by auto; apply sumn_nonneg; intros; apply Rle_0_sqr).
  assert (T : sumn n (fun i => 1 - q i) = 0).
  { rewrite sumn_minus, sumn_const. unfold q. rewrite sumn_swap. rewrite (sumn_ext n (fun j => sumn n (fun i => U i j * U i j)) (fun _ => 1)); [rewrite sumn_const; ring|].
    intros p Hp. rewrite HU by auto. apply delta_refl. }
  intros i j Hi Hj. assert (Z : 1 - q i = 0).
  { apply Rle_antisym; [|auto]. rewrite <- T. apply (sumn_term n (fun i => 1 - q i)); auto. }
  pose proof (E i Hi) as Ei. rewrite Z in Ei. pose proof (sumsq_zero n (fun j => delta i j - w i j) Ei j Hj) as D. cbv beta in D. fold (w i j). lra.
Qed.

Section Svd.
  Variables (n : nat) (A : list (list R)) (usv : list (list R) * list R * list (list R)).
  Hypothesis H : is_svd n A usv.
  Notation U := (fst (fst usv)). Notation Sv := (snd (fst usv)). Notation V := (snd usv).
  Notation s j := (nth j Sv 0).
  Lemma svd_norm x : sumn n (fun k => sumn n (fun j => mg A k j * x j) * sumn n (fun j => mg A k j * x j)) =
    sumn n (fun m => (s m * s m) * (sumn n (fun j => mg V m j * x j) * sumn n (fun j => mg V m j * x j))).
  Proof.
    destruct H as [HA HU HV HV2 H0 HS].
    rewrite (sumn_ext n _ (fun k => sumn n (fun m => mg U k m * (s m * sumn n (fun j => mg V m j * x j))) * sumn n (fun m => mg U k m * (s m * sumn n (fun j => mg V m j * x j))))).
    - rewrite (col_norm n (fun i j => mg U i j) (fun m => s m * sumn n (fun j => mg V m j * x j)) HU). apply sumn_ext. intros; ring.
    - intros k Hk. assert (E : sumn n (fun j => mg A k j * x j) = sumn n (fun m => mg U k m * (s m * sumn n (fun j => mg V m j * x j)))); [|rewrite E; reflexivity].
      rewrite (sumn_ext n (fun m => mg U k m * (s m * _)) (fun m => sumn n (fun j => mg U k m * s m * mg V m j * x j))).
      + rewrite sumn_swap. apply sumn_ext. intros j Hj. rewrite HA by auto. rewrite <- sumn_scal_r. reflexivity.
      + intros m Hm. rewrite <- !sumn_scal. apply sumn_ext. intros; ring.
  Qed.
  Lemma svd_vnorm x : sumn n (fun m => sumn n (fun j => mg V m j * x j) * sumn n (fun j => mg V m j * x j)) = sumn n (fun j => x j * x j).
  Proof. destruct H as [HA HU HV HV2 H0 HS]. apply (col_norm n (fun i j => mg V i j)). exact HV. Qed.
  Lemma svd_at p : (p < n)%nat -> sumn n (fun k => sumn n (fun j => mg A k j * mg V p j) * sumn n (fun j => mg A k j * mg V p j)) = s p * s p.
  Proof.
    intros Hp. rewrite (svd_norm (fun j => mg V p j)). destruct H as [HA HU HV HV2 H0 HS].
    rewrite (sumn_ext n _ (fun m => delta p m * (s m * s m))); [apply (sumn_delta n p (fun m => s m * s m)); auto|].
    intros m Hm. rewrite HV2 by auto. unfold delta. rewrite Nat.eqb_sym. destruct (p =? m)%nat; ring.
  Qed.
  Lemma svd_right : 0 < s (n - 1) -> forall i l, (i < n)%nat -> (l < n)%nat -> sumn n (fun k => mg A i k * mg (invMat n U Sv V) k l) = delta i l.
  Proof.
    intros P i l Hi Hl. pose proof (rows_orth n (fun i j => mg U i j) (svd_U _ _ _ H)) as HU2. destruct H as [HA HU HV HV2 H0 HS].
    assert (Hp : forall j, (j < n)%nat -> 0 < s j) by (intros j Hj; pose proof (HS j (n - 1)%nat ltac:(lia) ltac:(lia)); lra).
    rewrite (sumn_ext n _ (fun k => sumn n (fun m => sumn n (fun j => mg U i m * s m * (1 / s j) * mg U l j * (mg V m k * mg V j k))))).
    2:{ intros k Hk. rewrite mget_invMat, HA by auto. rewrite <- sumn_scal_r. apply sumn_ext. intros m Hm. rewrite <- sumn_scal. apply sumn_ext. intros; ring. }
    rewrite sumn_swap. rewrite <- (HU2 i l) by auto. apply sumn_ext. intros m Hm. rewrite sumn_swap.
    rewrite (sumn_ext n _ (fun j => delta m j * (mg U i m * s m * (1 / s j) * mg U l j))).
    - rewrite (sumn_delta n m (fun j => mg U i m * s m * (1 / s j) * mg U l j)) by auto. specialize (Hp m Hm). field. lra.
    - intros j Hj. rewrite sumn_scal, HV2 by auto. ring.
  Qed.
End Svd.

Section Two.
  Variables (n : nat) (A B : list (list R)) (usv usw : list (list R) * list R * list (list R)).
  Hypothesis Hn : (0 < n)%nat.
  Hypothesis HA : is_svd n A usv.
  Hypothesis HB : is_svd n B usw.
  Notation NA x := (sumn n (fun k => sumn n (fun j => mg A k j * x j) * sumn n (fun j => mg A k j * x j))).
  Notation NB x := (sumn n (fun k => sumn n (fun j => mg B k j * x j) * sumn n (fun j => mg B k j * x j))).
  Lemma extremes : (forall x, NA x = NB x) ->
    nth 0 (snd (fst usv)) 0 <= nth 0 (snd (fst usw)) 0 /\ nth (n - 1) (snd (fst usw)) 0 <= nth (n - 1) (snd (fst usv)) 0.
  Proof.
    intros E. assert (One : forall p, (p < n)%nat -> sumn n (fun j => mg (snd usv) p j * mg (snd usv) p j) = 1) by (intros p Hp; rewrite (svd_V2 _ _ _ HA) by auto; apply delta_refl).
    split.
    - pose proof (svd_at n A usv HA 0 Hn) as E0. rewrite (E (fun j => mg (snd usv) 0 j)), (svd_norm n B usw HB) in E0.
      set (y := fun m => sumn n (fun j => mg (snd usw) m j * mg (snd usv) 0 j)) in E0.
      assert (Y : sumn n (fun m => y m * y m) = 1) by (unfold y; rewrite (svd_vnorm n B usw HB (fun j => mg (snd usv) 0 j)); apply One; auto).
      set (t := nth 0 (snd (fst usw)) 0). assert (Pt : 0 <= t) by (apply (svd_nonneg _ _ _ HB); auto).
      assert (L : nth 0 (snd (fst usv)) 0 * nth 0 (snd (fst usv)) 0 <= t * t).
      { rewrite <- E0. rewrite <- (Rmult_1_r (t * t)), <- Y, <- sumn_scal. apply sumn_le. intros m Hm. change (fun j => _) with (fun j => mg (snd usw) m j * mg (snd usv) 0 j). fold (y m). apply Rmult_le_compat_r; [apply Rle_0_sqr|].
        pose proof (svd_nonneg _ _ _ HB m Hm). pose proof (svd_sorted _ _ _ HB 0%nat m ltac:(lia) Hm). fold t in H0. apply Rmult_le_compat; auto. }
      apply Rnot_lt_le. intros C. assert (t * t < nth 0 (snd (fst usv)) 0 * nth 0 (snd (fst usv)) 0) by (apply Rmult_le_0_lt_compat; auto). lra.
    - assert (Hm1 : (n - 1 < n)%nat) by lia. pose proof (svd_at n A usv HA (n - 1)%nat Hm1) as E0. rewrite (E (fun j => mg (snd usv) (n - 1) j)), (svd_norm n B usw HB) in E0.
      set (y := fun m => sumn n (fun j => mg (snd usw) m j * mg (snd usv) (n - 1) j)) in E0.
      assert (Y : sumn n (fun m => y m * y m) = 1) by (unfold y; rewrite (svd_vnorm n B usw HB (fun j => mg (snd usv) (n - 1) j)); apply One; auto).
      set (t := nth (n - 1) (snd (fst usw)) 0). assert (Pt : 0 <= t) by (apply (svd_nonneg _ _ _ HB); auto).
      assert (L : t * t <= nth (n - 1) (snd (fst usv)) 0 * nth (n - 1) (snd (fst usv)) 0).
      { rewrite <- E0. rewrite <- (Rmult_1_r (t * t)), <- Y, <- sumn_scal. apply sumn_le. intros m Hm. fold (y m). apply Rmult_le_compat_r; [apply Rle_0_sqr|].
        pose proof (svd_sorted _ _ _ HB m (n - 1)%nat ltac:(lia) Hm1). fold t in H. apply Rmult_le_compat; auto. }
      pose proof (svd_nonneg _ _ _ HA (n - 1)%nat Hm1) as Pv.
      apply Rnot_lt_le. intros C. assert (nth (n - 1) (snd (fst usv)) 0 * nth (n - 1) (snd (fst usv)) 0 < t * t) by (apply Rmult_le_0_lt_compat; auto). lra.
  Qed.
End Two.

(** B is A with the rows permuted (P) and multiplied by +1 or -1 (e) *)
Section Perm.
  Variables (n : nat) (A B : list (list R)) (usv usw : list (list R) * list R * list (list R)) (P : list nat) (e : nat -> R).
  Hypothesis Hn : (0 < n)%nat.
  Hypothesis HA : is_svd n A usv.
  Hypothesis HB : is_svd n B usw.
  Hypothesis HP : Permutation P (seq 0 n).
  Hypothesis He : forall k, e k * e k = 1.
  Hypothesis HAB : forall k j, (k < n)%nat -> (j < n)%nat -> mg B k j = e k * mg A (nth k P 0%nat) j.
  Lemma perm_norm x : sumn n (fun k => sumn n (fun j => mg B k j * x j) * sumn n (fun j => mg B k j * x j)) =
    sumn n (fun k => sumn n (fun j => mg A k j * x j) * sumn n (fun j => mg A k j * x j)).
  Proof.
    rewrite <- (DepProps.sumn_perm n P (fun k => sumn n (fun j => mg A k j * x j) * sumn n (fun j => mg A k j * x j)) HP). apply sumn_ext. intros k Hk.
    rewrite (sumn_ext n (fun j => mg B k j * x j) (fun j => e k * (mg A (nth k P 0%nat) j * x j))) by (intros j Hj; rewrite HAB by auto; ring). rewrite sumn_scal.
    set (z := sumn n _). replace (e k * z * (e k * z)) with (e k * e k * (z * z)) by ring. rewrite He. ring.
  Qed.
  Lemma perm_first : nth 0 (snd (fst usw)) 0 = nth 0 (snd (fst usv)) 0.
  Proof.
    destruct (extremes n A B usv usw Hn HA HB) as [L1 _]; [intros; symmetry; apply perm_norm|]. destruct (extremes n B A usw usv Hn HB HA) as [L2 _]; [apply perm_norm|]. lra.
  Qed.
  Lemma perm_last : nth (n - 1) (snd (fst usw)) 0 = nth (n - 1) (snd (fst usv)) 0.
  Proof.
    destruct (extremes n A B usv usw Hn HA HB) as [_ L1]; [intros; symmetry; apply perm_norm|]. destruct (extremes n B A usw usv Hn HB HA) as [_ L2]; [apply perm_norm|]. lra.
  Qed.
  Lemma perm_inv : 0 < nth (n - 1) (snd (fst usv)) 0 -> forall i k, (i < n)%nat -> (k < n)%nat ->
    mg (invMat n (fst (fst usw)) (snd (fst usw)) (snd usw)) i k = e k * mg (invMat n (fst (fst usv)) (snd (fst usv)) (snd usv)) i (nth k P 0%nat).
  Proof.
    intros Hpos i k Hi Hk. set (IA := invMat n (fst (fst usv)) (snd (fst usv)) (snd usv)). set (IB := invMat n (fst (fst usw)) (snd (fst usw)) (snd usw)).
    assert (Hpos' : 0 < nth (n - 1) (snd (fst usw)) 0) by (rewrite perm_last; auto).
    set (C := fun i k => e k * mg IA i (nth k P 0%nat)).
    assert (CB : forall l, (l < n)%nat -> sumn n (fun k => C i k * mg B k l) = delta i l).
    { intros l Hl. rewrite <- (svd_inverse n A usv HA Hpos i l Hi Hl). fold IA. rewrite <- (DepProps.sumn_perm n P (fun k => mg IA i k * mg A k l) HP). apply sumn_ext. intros m Hm.
      unfold C. rewrite HAB by auto. set (z := mg IA i _). set (y := mg A _ _). replace (e m * z * (e m * y)) with (e m * e m * (z * y)) by ring. rewrite He. ring. }
    change (mg IB i k = C i k).
    transitivity (sumn n (fun l => delta i l * mg IB l k)); [symmetry; apply (sumn_delta n i (fun l => mg IB l k)); auto|].
    rewrite (sumn_ext n _ (fun l => sumn n (fun m => C i m * (mg B m l * mg IB l k)))).
    2:{ intros l Hl. rewrite <- CB by auto. rewrite <- sumn_scal_r. apply sumn_ext. intros; ring. }
    rewrite sumn_swap. rewrite (sumn_ext n _ (fun m => delta k m * C i m)); [apply (sumn_delta n k (fun m => C i m)); auto|].
    intros m Hm. rewrite sumn_scal. unfold IB. rewrite (svd_right n B usw HB Hpos' m k) by auto. rewrite delta_sym. ring.
  Qed.
End Perm.
