(** * interval_approximate_nd computes the Chebyshev interpolant (over R) *)
From Coq Require Import Reals List Lia Lra Arith ZArith Bool.
From Verif Require Import Num Tensor RSum Cheb PolySpec LinearModel SolverModel CombinedModel CombinedSpec ApproxModel ApproxDct.
From Verif Require PolyModel TransformModel.
Import ListNotations.
Local Open Scope R_scope.

(** ** one axis *)
Definition dmat (n k j : nat) : R := 2 * ew n j * cosR (k * j) n.
Lemma nsum_map_R {A} (f : A -> R) l : @nsum R R_num (map f l) = Rsum (map f l).
Proof. apply nsum_R. Qed.
Lemma sumn_seq1 m (f : nat -> R) : Rsum (map f (seq 1 m)) = sumn m (fun k => f (S k)).
Proof. rewrite <- seq_shift, map_map. apply (Rsum_map_seq (fun k => f (S k))). Qed.

Lemma dct1_length v : length (@dct1 R R_num cosR v) = length v.
Proof. unfold dct1. rewrite map_length, seq_length. reflexivity. Qed.
Lemma dct1_nth v n k : length v = S n -> (1 <= n)%nat -> (k <= n)%nat ->
  nth k (@dct1 R R_num cosR v) 0 = sumn (S n) (fun j => dmat n k j * nth j v 0).
Proof.
  intros Hv Hn Hk. unfold dct1. rewrite Hv. replace (S n - 1)%nat with n by lia.
  match goal with |- nth k (map ?F _) 0 = _ => rewrite (nth_indep (map F (seq 0 (S n))) 0 (F 0%nat)) by (rewrite map_length, seq_length; lia);
    rewrite (map_nth F), seq_nth by lia end.
  rewrite Nat.add_0_l. rewrite nsum_map_R, sumn_seq1.
  rewrite (sumn_ext (S n) _ (fun j => ew n j * (2 * cosR (k * j) n * nth j v 0))) by (intros; unfold dmat; ring).
  change (sumn (S n) (fun j => ew n j * (2 * cosR (k * j) n * nth j v 0))) with (wsum n (fun j => 2 * cosR (k * j) n * nth j v 0)).
  rewrite wsum_form by auto. rewrite Nat.mul_0_r, cosR_0.
  assert (E : cosR (k * n) n = if Nat.even k then 1 else -1).
  { unfold cosR. rewrite <- cos_kpi. f_equal. rewrite mult_INR. field. apply not_0_INR; lia. }
  rewrite E. rnum. rewrite n2_R.
  rewrite (sumn_ext (n - 1) (fun k0 => 2 * nth (S k0) v 0 * cosR (k * S k0) n) (fun k0 => 2 * cosR (k * S k0) n * nth (S k0) v 0)) by (intros; ring).
  destruct (Nat.even k); field.
Qed.

(** ** operators on functions of a multi-index *)
Definition op (M : nat -> nat -> nat -> R) (degs : list nat) (d : nat) (F : list nat -> R) (K : list nat) : R :=
  sumn (S (nth d degs 0%nat)) (fun j => M (nth d degs 0%nat) (nth d K 0%nat) j * F (upd K d j)).
(** all axes at once *)
Fixpoint allOps (M : nat -> nat -> nat -> R) (degs : list nat) (F : list nat -> R) (K : list nat) : R :=
  match degs, K with
  | n :: degs', k :: K' => sumn (S n) (fun j => M n k j * allOps M degs' (fun r => F (j :: r)) K')
  | _, _ => F K
  end.
Lemma allOps_ext M degs : forall F G K, inrange (map S degs) K -> (forall J, inrange (map S degs) J -> F J = G J) -> allOps M degs F K = allOps M degs G K.
Proof.
  induction degs as [|n degs IH]; intros F G K HK H; inversion HK; subst; cbn [allOps].
  - apply H. constructor.
  - apply sumn_ext. intros j Hj. f_equal. apply IH; auto. intros J HJ. apply H. constructor; auto.
Qed.
Lemma allOps_sumn M degs m : forall (F : nat -> list nat -> R) K, inrange (map S degs) K ->
  allOps M degs (fun J => sumn m (fun i => F i J)) K = sumn m (fun i => allOps M degs (F i) K).
Proof.
  induction degs as [|n degs IH]; intros F K HK; inversion HK; subst; cbn [allOps]; auto.
  rewrite <- sumn_swap. apply sumn_ext. intros j Hj. rewrite IH by auto. rewrite <- sumn_scal. reflexivity.
Qed.
Lemma allOps_scal M degs c : forall F K, inrange (map S degs) K -> allOps M degs (fun J => c * F J) K = c * allOps M degs F K.
Proof.
  induction degs as [|n degs IH]; intros F K HK; inversion HK; subst; cbn [allOps]; auto.
  rewrite <- sumn_scal. apply sumn_ext. intros j Hj. rewrite IH by auto. ring.
Qed.
Lemma allOps_sumidx M degs s : forall (F : list nat -> list nat -> R) K, inrange (map S degs) K ->
  allOps M degs (fun J => sumidx s (fun L => F L J)) K = sumidx s (fun L => allOps M degs (F L) K).
Proof.
  induction s as [|n s IH]; intros F K HK; simpl sumidx; auto.
  rewrite allOps_sumn by auto. apply sumn_ext. intros i Hi. apply IH; auto.
Qed.

(** applying the axes one after the other *)
Lemma op_cons M n degs d F k K : op M (n :: degs) (S d) F (k :: K) = op M degs d (fun r => F (k :: r)) K.
Proof. reflexivity. Qed.
Lemma fold_op_shift M n degs l : forall F k K,
  fold_left (fun F d => op M (n :: degs) d F) (map S l) F (k :: K) = fold_left (fun F d => op M degs d F) l (fun r => F (k :: r)) K.
Proof.
  induction l as [|d l IH]; intros F k K; simpl; auto.
  rewrite IH. reflexivity.
Qed.
Lemma fold_op_allOps M degs : forall F K, length K = length degs ->
  fold_left (fun F d => op M degs d F) (seq 0 (length degs)) F K = allOps M degs F K.
Proof.
  induction degs as [|n degs IH]; intros F K HK; destruct K as [|k K]; simpl in HK; try lia; auto.
  simpl length. simpl seq. rewrite <- seq_shift. cbn [fold_left]. rewrite fold_op_shift, IH by lia.
  assert (A : forall degs K (F : nat -> list nat -> R), length K = length degs -> allOps M degs (fun r => sumn (S n) (fun j => M n k j * F j r)) K
     = sumn (S n) (fun j => M n k j * allOps M degs (F j) K)).
  { clear. intros degs K F HK. revert K F HK.
    induction degs as [|m degs IH]; intros [|k' K] F HK; simpl in HK; try lia; [reflexivity|].
    cbn [allOps]. 
    rewrite (sumn_ext (S m) _ (fun j => sumn (S n) (fun i => M m k' j * (M n k i * allOps M degs (fun r => F i (j :: r)) K)))).
    2:{ intros j Hj. rewrite (IH K (fun i r => F i (j :: r))) by lia. rewrite <- sumn_scal. reflexivity. }
    rewrite sumn_swap. apply sumn_ext. intros i Hi. rewrite <- sumn_scal. apply sumn_ext. intros. ring. }
  cbn [allOps]. rewrite <- (A degs K (fun j r => F (j :: r))) by lia. reflexivity.
Qed.

(** ** the tensor computation *)
Lemma nth_map_S degs d : (d < length degs)%nat -> nth d (map S degs) 0%nat = S (nth d degs 0%nat).
Proof. intros H. rewrite (nth_indep _ 0%nat 1%nat) by (rewrite map_length; auto). apply (map_nth S degs 0%nat). Qed.

Lemma along_shape degs d (t : tensor R) : shp t = map S degs -> (d < length degs)%nat ->
  shp (PolyModel.alongAxis (dct1 cosR) d t) = map S degs.
Proof.
  intros Hs Hd. unfold PolyModel.alongAxis. rewrite shp_tbuild, dct1_length, fibre_length, Hs. apply upd_nth.
Qed.
Lemma along_get degs d (t : tensor R) K : shp t = map S degs -> (d < length degs)%nat -> (1 <= nth d degs 0)%nat -> inrange (map S degs) K ->
  tget (PolyModel.alongAxis (dct1 cosR) d t) K = op dmat degs d (tget t) K.
Proof.
  intros Hs Hd H1 HK. unfold PolyModel.alongAxis.
  rewrite tget_tbuild by (rewrite dct1_length, fibre_length, Hs, upd_nth; auto).
  unfold TransformModel.g, op.
  assert (HKd : (nth d K 0 <= nth d degs 0)%nat).
  { pose proof (inrange_nth _ _ d HK ltac:(rewrite map_length; auto)). rewrite nth_map_S in H by auto. lia. }
  change (@n0 R R_num) with 0. rewrite (dct1_nth _ (nth d degs 0%nat)); auto.
  - apply sumn_ext. intros j Hj. f_equal. change 0 with (@n0 R R_num). rewrite fibre_nth; auto. rewrite Hs, nth_map_S; auto.
  - rewrite fibre_length, Hs, nth_map_S; auto.
Qed.
Lemma op_ext M degs d F G K : (d < length degs)%nat -> inrange (map S degs) K -> (forall J, inrange (map S degs) J -> F J = G J) -> op M degs d F K = op M degs d G K.
Proof.
  intros Hd HK H. unfold op. apply sumn_ext. intros j Hj. f_equal. apply H.
  pose proof (inrange_upd _ _ d j (S (nth d degs 0%nat)) HK Hj) as HU.
  rewrite <- (nth_map_S degs d Hd), upd_nth in HU. auto.
Qed.
Lemma fold_along degs l : Forall (fun n => (1 <= n)%nat) degs -> Forall (fun d => (d < length degs)%nat) l ->
  forall (t : tensor R) F, shp t = map S degs -> (forall K, inrange (map S degs) K -> tget t K = F K) ->
  let t' := fold_left (fun t d => PolyModel.alongAxis (dct1 cosR) d t) l t in
  shp t' = map S degs /\ forall K, inrange (map S degs) K -> tget t' K = fold_left (fun F d => op dmat degs d F) l F K.
Proof.
  intros H1. induction l as [|d l IH]; intros Hl t F Hs HF; simpl; auto.
  apply Forall_cons_iff in Hl. destruct Hl as [Hd Hl].
  apply IH; auto; [apply along_shape; auto|].
  intros K HK. rewrite (along_get degs) by (auto; rewrite Forall_forall in H1; apply H1, nth_In; auto).
  apply op_ext; auto.
Qed.

Lemma halve_get degs d k (t : tensor R) K : shp t = map S degs -> inrange (map S degs) K ->
  tget (halveSlice d k t) K = (if Nat.eqb (nth d K 0%nat) k then / 2 else 1) * tget t K.
Proof.
  intros Hs HK. unfold halveSlice. rewrite tget_tbuild by (rewrite Hs; auto). rnum. rewrite n2_R.
  destruct (Nat.eqb _ _); field.
Qed.
(** product of the edge weights *)
Fixpoint ewProd (degs K : list nat) : R :=
  match degs, K with n :: degs', k :: K' => ew n k * ewProd degs' K' | _, _ => 1 end.
Lemma fold_halve degs l : forall (t : tensor R) (F : list nat -> R), shp t = map S degs -> (forall K, inrange (map S degs) K -> tget t K = F K) ->
  let t' := fold_left (fun t d => halveSlice d (nth d degs 0%nat) (halveSlice d 0 t)) l t in
  shp t' = map S degs /\ forall K, inrange (map S degs) K -> tget t' K = Rprod (map (fun d => ew (nth d degs 0%nat) (nth d K 0%nat)) l) * F K.
Proof.
  induction l as [|d l IH]; intros t F Hs HF; simpl.
  - split; auto. intros K HK. unfold Rprod; simpl. rewrite HF by auto. ring.
  - destruct (IH (halveSlice d (nth d degs 0%nat) (halveSlice d 0 t)) (fun K => ew (nth d degs 0%nat) (nth d K 0%nat) * F K)) as [A B]; auto.
    + intros K HK. rewrite (halve_get degs), (halve_get degs), HF by auto. unfold ew. ring.
    + split; auto. intros K HK. rewrite B by auto. unfold Rprod; simpl. ring.
Qed.
Lemma ewProd_seq degs : forall K, length K = length degs ->
  Rprod (map (fun d => ew (nth d degs 0%nat) (nth d K 0%nat)) (seq 0 (length degs))) = ewProd degs K.
Proof.
  induction degs as [|n degs IH]; intros [|k K] H; simpl in H; try lia; auto.
  simpl length. simpl seq. rewrite <- seq_shift. simpl map. rewrite map_map. unfold Rprod at 1. simpl fold_right.
  fold (Rprod (map (fun x => ew (nth x degs 0%nat) (nth x K 0%nat)) (seq 0 (length degs)))). rewrite IH by lia. reflexivity.
Qed.
Lemma ew_allOps degs : Forall (fun n => (1 <= n)%nat) degs -> forall F K, inrange (map S degs) K ->
  ewProd degs K * allOps dmat degs (fun J => F J / INR (prodn degs)) K = allOps imat degs F K.
Proof.
  induction 1 as [|n degs Hn Hd IH]; intros F K HK; inversion HK; subst; cbn [allOps ewProd].
  - unfold prodn; simpl. field.
  - rewrite <- sumn_scal. apply sumn_ext. intros j Hj. rewrite <- IH by auto.
    rewrite (allOps_ext dmat degs (fun r => F (j :: r) / INR (prodn (n :: degs))) (fun r => / INR n * (F (j :: r) / INR (prodn degs)))); auto.
    + rewrite allOps_scal by auto. unfold imat, dmat. field. apply not_0_INR; lia.
    + intros J HJ. rewrite prodn_cons, mult_INR. field. split; apply not_0_INR; try lia.
      assert (0 < prodn degs)%nat; [|lia]. clear - Hd. induction Hd; [unfold prodn; simpl; lia|rewrite prodn_cons; nia].
Qed.

Lemma fixDegs_pos degs : Forall (fun n => (1 <= n)%nat) (fixDegs degs).
Proof. unfold fixDegs. apply Forall_forall. intros x H. apply in_map_iff in H. destruct H as (d & <- & _). destruct (Nat.eqb_spec d 0); lia. Qed.
Lemma fixDegs_length degs : length (fixDegs degs) = length degs.
Proof. apply map_length. Qed.
Lemma fixDegs_inrange degs K : inrange (map S degs) K -> inrange (map S (fixDegs degs)) K.
Proof.
  intros H. unfold fixDegs. rewrite map_map. revert K H. induction degs; intros K H; inversion H; subst; simpl; constructor.
  - destruct (Nat.eqb_spec a 0); lia.
  - apply IHdegs; auto.
Qed.

(** the coefficients in closed form *)
Lemma interval_coeffs f degs a b : let '(c, _, degs') := intervalApproximate cosR f degs a b in
  degs' = fixDegs degs /\ shp c = map S degs /\ wf c /\
  forall K, inrange (map S degs) K -> tget c K = allOps imat (fixDegs degs) (fun J => callAt f (gridPoint cosR (fixDegs degs) a b J)) K.
Proof.
  unfold intervalApproximate. split; [reflexivity|]. split; [reflexivity|]. split.
  { apply wf_tbuild. apply Forall_forall. intros x H. apply in_map_iff in H. destruct H as (d & <- & _). lia. }
  intros K HK. rewrite tget_tbuild by auto. apply fixDegs_inrange in HK.
  set (D := fixDegs degs) in *. pose proof (fixDegs_pos degs) as HD. fold D in HD.
  set (F := fun J => callAt f (gridPoint cosR D a b J)).
  set (t0 := tbuild _ _).
  assert (Hs : shp t0 = map S D) by reflexivity.
  unfold halveEdges, dctn. unfold ndim. rewrite Hs, map_length.
  destruct (fold_along D (seq 0 (length D)) HD ltac:(apply Forall_forall; intros x Hx; apply in_seq in Hx; lia) t0 (fun J => F J / INR (prodn D)) Hs) as [S1 G1].
  { intros J HJ. unfold t0. cbn [gridValues shp tbuild]. rewrite tget_tbuild by auto. unfold gridValues. rewrite tget_tbuild by auto.
    rnum. rewrite nofnat_R. reflexivity. }
  destruct (fold_halve D (seq 0 (length D)) _ _ S1 G1) as [S2 G2].
  rewrite G2 by auto. pose proof (inrange_length _ _ HK) as HL. rewrite map_length in HL.
  rewrite ewProd_seq by auto. rewrite fold_op_allOps by auto. apply ew_allOps; auto.
Qed.

(** ** evaluation of the interpolant at the nodes *)
Definition nodes (degs idx : list nat) : list R := map (fun p => cosR (fst p) (snd p)) (combine idx degs).
(** F does not depend on the coordinates whose degree is 0 *)
Fixpoint indepZero (degs : list nat) (F : list nat -> R) : Prop :=
  match degs with
  | [] => True
  | n :: degs' => (n = 0%nat -> forall j r, (j <= 1)%nat -> inrange (map S (fixDegs degs')) r -> F (j :: r) = F (0%nat :: r)) /\
      forall j, (j <= (if Nat.eqb n 0 then 1 else n))%nat -> indepZero degs' (fun r => F (j :: r))
  end.
Lemma interp_nodes degs : forall F, indepZero degs F -> forall I, inrange (map S (fixDegs degs)) I ->
  sumidx (map S degs) (fun K => allOps imat (fixDegs degs) F K * basis chebT K (nodes (fixDegs degs) I)) = F I.
Proof.
  induction degs as [|n degs IH]; intros F Hind I HI; inversion HI as [|i ? I' ? Hi HI']; subst; [simpl; ring|].
  destruct Hind as [Hz Hind].
  assert (HD : (1 <= (if Nat.eqb n 0 then 1 else n))%nat) by (destruct (Nat.eqb_spec n 0); lia).
  set (D := if Nat.eqb n 0 then 1%nat else n) in *.
  cbn [fixDegs map sumidx]. fold (fixDegs degs). fold D.
  (* separate the first axis *)
  transitivity (sumn (S n) (fun k => sumn (S D) (fun j => chebT k (cosR i D) * imat D k j * F (j :: I')))).
  { apply sumn_ext. intros k Hk.
    rewrite (sumidx_ext _ _ (fun r => sumn (S D) (fun j => chebT k (cosR i D) * imat D k j *
        (allOps imat (fixDegs degs) (fun J => F (j :: J)) r * basis chebT r (nodes (fixDegs degs) I'))))).
    2:{ intros r Hr. cbn [allOps nodes combine map basis fst snd]. rewrite <- sumn_scal_r. apply sumn_ext. intros j Hj. unfold nodes. ring. }
    rewrite sumidx_sumn. apply sumn_ext. intros j Hj. rewrite sumidx_scal. f_equal. apply (IH (fun J => F (j :: J))); auto.
    apply Hind. lia. }
  assert (Hi' : (i <= D)%nat) by (simpl in Hi; fold D in Hi; lia).
  destruct (Nat.eqb_spec n 0) as [E|E].
  - subst n. cbn in D. subst D. 
    transitivity (sumn 2 (fun j => imat 1 0 j * F (0%nat :: I'))).
    { cbn [sumn]. rewrite !chebT_0. rewrite (Hz eq_refl 1%nat I') by auto. ring. }
    rewrite sumn_scal_r.
    assert (S1 : sumn 2 (fun j => imat 1 0 j) = 1).
    { unfold imat, ew. cbn. rewrite !cosR_0. field. }
    etransitivity; [apply f_equal2; [exact S1|reflexivity]|]. rewrite Rmult_1_l. destruct i as [|i]; auto. rewrite (Hz eq_refl (S i)); auto.
  - assert (E2 : D = n) by (unfold D; destruct (Nat.eqb_spec n 0); congruence).
    rewrite <- E2 at 1. rewrite sumn_swap.
    transitivity (sumn (S D) (fun j => (if Nat.eqb i j then 1 else 0) * F (j :: I'))).
    { apply sumn_ext. intros j Hj. rewrite sumn_scal_r. rewrite imat_interp by lia. reflexivity. }
    rewrite (sumn_single (S D) i); [|lia|].
    + rewrite Nat.eqb_refl. ring.
    + intros j Hj Hne. destruct (Nat.eqb_spec i j); [lia|ring].
Qed.

(** ** interpolation of a Chebyshev series (of any degree) *)
(** the polynomial that T_m becomes in one coordinate *)
Definition ibasis (n m : nat) (y : R) : R :=
  let q := alias (if Nat.eqb n 0 then 1 else n) m in if Nat.leb q n then chebT q y else 0.
Fixpoint ibasisL (degs L : list nat) (y : list R) : R :=
  match degs, L, y with n :: degs', l :: L', v :: y' => ibasis n l v * ibasisL degs' L' y' | _, _, _ => 1 end.
(** coefficient K of the interpolant of prod T_{L_d} *)
Fixpoint deltaL (degs K L : list nat) : R :=
  match degs, K, L with
  | n :: degs', k :: K', l :: L' => (if Nat.eqb k (alias n l) then 1 else 0) * deltaL degs' K' L'
  | _, _, _ => 1
  end.
Lemma allOps_basis degs : Forall (fun n => (1 <= n)%nat) degs -> forall L K, length L = length degs -> inrange (map S degs) K ->
  allOps imat degs (fun J => basis chebT L (nodes degs J)) K = deltaL degs K L.
Proof.
  induction 1 as [|n degs Hn Hd IH]; intros L K HL HK; inversion HK as [|k ? K' ? Hk HK']; subst; destruct L as [|l L]; simpl in HL; try lia; [reflexivity|].
  cbn [allOps deltaL]. rewrite <- (imat_alias n k l) by lia. rewrite <- sumn_scal_r. apply sumn_ext. intros j Hj.
  rewrite (allOps_ext imat degs _ (fun r => chebT l (cosR j n) * basis chebT L (nodes degs r))) by auto.
  rewrite allOps_scal by auto. rewrite IH by (auto; lia). ring.
Qed.
Lemma delta_sum degs : forall L y, length L = length degs -> length y = length degs ->
  sumidx (map S degs) (fun K => deltaL (fixDegs degs) K L * basis chebT K y) = ibasisL degs L y.
Proof.
  induction degs as [|n degs IH]; intros [|l L] [|v y] HL Hy; simpl in HL, Hy; try lia; [simpl; ring|].
  cbn [fixDegs map sumidx]. fold (fixDegs degs). set (D := if Nat.eqb n 0 then 1%nat else n).
  cbn [ibasisL]. rewrite <- (IH L y) by lia.
  rewrite (sumn_ext (S n) _ (fun k => (if Nat.eqb k (alias D l) then 1 else 0) * chebT k v * sumidx (map S degs) (fun K => deltaL (fixDegs degs) K L * basis chebT K y))).
  2:{ intros k Hk. rewrite <- sumidx_scal. apply sumidx_ext. intros r Hr. cbn [deltaL basis]. ring. }
  rewrite sumn_scal_r. f_equal. unfold ibasis. fold D.
  destruct (Nat.leb_spec (alias D l) n).
  - rewrite (sumn_single (S n) (alias D l)).
    + rewrite Nat.eqb_refl. ring.
    + lia.
    + intros i Hi Hne. destruct (Nat.eqb_spec i (alias D l)); [lia|ring].
  - apply sumn_zero. intros k Hk. destruct (Nat.eqb_spec k (alias D l)); [lia|ring].
Qed.
(** the grid points are box points of the nodes *)
Lemma gridPoint_box degs a b idx : gridPoint cosR degs a b idx = boxPoint a b (nodes degs idx).
Proof. unfold gridPoint, boxPoint, zip3, nodes. apply map_ext. intros [x [u v]]. unfold transformPt. rnum. rewrite n2_R. reflexivity. Qed.
Lemma nodes_cube degs idx : length idx = length degs -> in_cube (length degs) (nodes degs idx).
Proof.
  intros H. split.
  - unfold nodes. rewrite map_length, combine_length. lia.
  - apply Forall_forall. intros x Hx. unfold nodes in Hx. apply in_map_iff in Hx. destruct Hx as ([k n] & <- & _). simpl.
    unfold cosR. pose proof (COS_bound (INR k * PI / INR n)). lra.
Qed.

(** the interpolant of a series: coefficients and values *)
Lemma series_coeffs f degs a b (P : tensor R) : ndim P = length degs ->
  (forall y, in_cube (length degs) y -> callAt f (boxPoint a b y) = cheb_eval P y) ->
  let '(c, _, _) := intervalApproximate cosR f degs a b in
  forall K, inrange (map S degs) K -> tget c K = sumidx (shp P) (fun L => tget P L * deltaL (fixDegs degs) K L).
Proof.
  intros HP Hf. pose proof (interval_coeffs f degs a b) as H. destruct (intervalApproximate cosR f degs a b) as [[c sn] dg].
  destruct H as (_ & Hs & _ & HK). intros K HKr. rewrite HK by auto. apply fixDegs_inrange in HKr.
  rewrite (allOps_ext imat (fixDegs degs) _ (fun J => sumidx (shp P) (fun L => tget P L * basis chebT L (nodes (fixDegs degs) J)))); auto.
  2:{ intros J HJ. rewrite gridPoint_box, Hf, cheb_eval_sumidx; auto.
      rewrite <- (fixDegs_length degs). apply nodes_cube. apply inrange_length in HJ. rewrite map_length in HJ. auto. }
  rewrite allOps_sumidx by auto. apply sumidx_ext. intros L HL. rewrite allOps_scal by auto. f_equal.
  apply allOps_basis; auto using fixDegs_pos. apply inrange_length in HL. rewrite fixDegs_length, HL. exact HP.
Qed.
Lemma series_eval f degs a b (P : tensor R) y : ndim P = length degs -> length y = length degs ->
  (forall y, in_cube (length degs) y -> callAt f (boxPoint a b y) = cheb_eval P y) ->
  let '(c, _, _) := intervalApproximate cosR f degs a b in
  cheb_eval c y = sumidx (shp P) (fun L => tget P L * ibasisL degs L y).
Proof.
  intros HP Hy Hf. pose proof (interval_coeffs f degs a b) as H. pose proof (series_coeffs f degs a b P HP Hf) as H2.
  destruct (intervalApproximate cosR f degs a b) as [[c sn] dg]. destruct H as (_ & Hs & _ & _).
  rewrite cheb_eval_sumidx, Hs.
  rewrite (sumidx_ext _ _ (fun K => sumidx (shp P) (fun L => tget P L * (deltaL (fixDegs degs) K L * basis chebT K y)))).
  2:{ intros K HK. rewrite H2 by auto. rewrite Rmult_comm, <- sumidx_scal. apply sumidx_ext. intros. ring. }
  assert (SW : forall s1 s2 (G : list nat -> list nat -> R), sumidx s1 (fun K => sumidx s2 (fun L => G K L)) = sumidx s2 (fun L => sumidx s1 (fun K => G K L))).
  { induction s1 as [|n s1 IH]; intros s2 G; simpl; auto. rewrite sumidx_sumn. apply sumn_ext. intros. apply (IH s2 (fun K L => G (i :: K) L)). }
  rewrite SW. apply sumidx_ext. intros L HL. rewrite sumidx_scal. f_equal. apply delta_sum; auto.
  apply inrange_length in HL. rewrite HL. exact HP.
Qed.
