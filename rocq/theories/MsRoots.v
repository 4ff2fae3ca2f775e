(** * msroots returns the joint eigenvalues *)
From Coq Require Import List Arith Reals Lia Lra Bool Permutation Sorted.
From Coquelicot Require Import Complex.
From Coq Require Import List.
From Verif Require Import Num RSum OneDSpec OneDProofs OrderProofs CondProofs LinAlgModel MacaulaySpec MsModel MsSpec MsProofs.
Import ListNotations.
Local Open Scope R_scope.
Local Open Scope C_scope.

Lemma upper_inverse n (V : nat -> nat -> C) : (forall i, (i < n)%nat -> V i i <> 0) -> (forall i j, (i < n)%nat -> (j < i)%nat -> V i j = 0) ->
  exists X, inverseOf n V X /\ inverseOf n X V.
Proof.
  induction n as [|n IH]; intros HD HT; [exists V; split; intros i j Hi; lia|].
  destruct IH as (X' & H1 & H2); [intros; apply HD; lia|intros; apply HT; lia|]. set (d := V n n). assert (Nd : d <> 0) by (apply HD; lia).
  set (b := fun i => csum n (fun k => X' i k * V k n)).
  exists (fun i j => if (j <? n)%nat then (if (i <? n)%nat then X' i j else 0) else (if (i <? n)%nat then - b i / d else 1 / d)).
  assert (Bn : forall i, (i < n)%nat -> csum n (fun k => V i k * b k) = V i n).
  { intros i Hi. unfold b. rewrite (csum_ext n _ (fun k => csum n (fun l => V i k * X' k l * V l n))) by (intros; rewrite <- csum_scal; apply csum_ext; intros; ring).
    rewrite csum_swap. rewrite (csum_one n _ i); auto.
    - rewrite csum_scal_r, (H1 i i) by auto. rewrite Nat.eqb_refl. ring.
    - intros l Hl Nl. rewrite csum_scal_r, (H1 i l) by auto. destruct (Nat.eqb_spec i l); [congruence|ring]. }
  split; intros i j Hi Hj; cbn [csum].
  - replace (n <? n)%nat with false by (symmetry; apply Nat.ltb_irrefl). destruct (Nat.ltb_spec j n) as [Lj|Lj].
    + rewrite (csum_ext n _ (fun k => V i k * X' k j)) by (intros k Hk; destruct (Nat.ltb_spec k n); [auto|lia]).
      destruct (lt_dec i n) as [Li|Li]; [rewrite (H1 i j) by auto; ring|]. assert (i = n) by lia. subst i. rewrite csum_zero by (intros k Hk; rewrite HT by lia; ring). destruct (Nat.eqb_spec n j); [lia|ring].
    + assert (j = n) by lia. subst j. rewrite (csum_ext n _ (fun k => (- / d) * (V i k * b k))) by (intros k Hk; destruct (Nat.ltb_spec k n); [unfold Cdiv; ring|lia]). rewrite csum_scal.
      destruct (lt_dec i n) as [Li|Li]; [rewrite Bn by auto; destruct (Nat.eqb_spec i n); [lia|unfold Cdiv; ring]|]. assert (i = n) by lia. subst i. rewrite csum_zero by (intros k Hk; rewrite HT by lia; ring). rewrite Nat.eqb_refl. fold d. field. auto.
  - replace (n <? n)%nat with false by (symmetry; apply Nat.ltb_irrefl). rewrite (csum_ext n _ (fun k => (if (i <? n)%nat then X' i k else 0) * V k j)) by (intros k Hk; destruct (Nat.ltb_spec k n); [auto|lia]).
    destruct (Nat.ltb_spec i n) as [Li|Li].
    + destruct (lt_dec j n) as [Lj|Lj]; [rewrite (H2 i j) by auto; rewrite (HT n j) by lia; ring|]. assert (j = n) by lia. subst j. fold (b i). fold d. destruct (Nat.eqb_spec i n); [lia|]. field. auto.
    + assert (i = n) by lia. subst i. rewrite csum_zero by (intros; ring). destruct (Nat.eqb_spec n j) as [<-|N]; [fold d; field; auto|]. rewrite HT by lia. ring.
Qed.
Lemma csum_list n (f : nat -> C) : csum n f = fold_right Cplus (RtoC 0) (map f (seq 0 n)).
Proof.
  induction n as [|n IH]; [reflexivity|]. rewrite seq_S, map_app. cbn [csum Nat.add map]. rewrite IH. generalize (map f (seq 0 n)) as l.
  induction l as [|a l IHl]; cbn [fold_right List.app]; [ring|]. rewrite <- IHl. ring.
Qed.
Lemma csum_perm n pos f : Permutation (map pos (seq 0 n)) (seq 0 n) -> csum n (fun k => f (pos k)) = csum n f.
Proof.
  intros HP. rewrite !csum_list. rewrite <- (map_map pos f). apply (Permutation_map f) in HP. revert HP. generalize (map f (map pos (seq 0 n))) (map f (seq 0 n)). intros l l' HP.
  induction HP; cbn [fold_right]; auto; [rewrite IHHP; auto|ring|congruence].
Qed.

Section Inv.
  Variables (n : nat) (U : nat -> nat -> C).
  Hypothesis HU : unitary n U.
  Variable W : nat -> nat -> C.
  Variable pos : nat -> nat.
  Hypothesis Hpos : forall k, (k < n)%nat -> (pos k < n)%nat /\ through n U (W k) (pos k) <> 0 /\ forall j, (j < pos k)%nat -> through n U (W k) j = 0.
  Hypothesis Ppos : Permutation (map pos (seq 0 n)) (seq 0 n).
  Lemma pos_inj k l : (k < n)%nat -> (l < n)%nat -> pos k = pos l -> k = l.
  Proof.
    intros Hk Hl E. assert (ND : NoDup (map pos (seq 0 n))) by (eapply Permutation_NoDup; [apply Permutation_sym; exact Ppos|apply seq_NoDup]).
    rewrite (NoDup_nth _ 0%nat) in ND. rewrite map_length, seq_length in ND. apply ND; auto. rewrite !(nth_map_lt pos _ _ 0%nat) by (rewrite seq_length; auto). rewrite !seq_nth by auto. exact E.
  Qed.
  Lemma eigenvectors_invertible : exists Wi, inverseOf n W Wi /\ inverseOf n Wi W.
  Proof.
    destruct (finite_choice (fun p k => (k < n)%nat /\ pos k = p) 0%nat n) as [kof Hkof]; [intros p Hp; apply (pos_onto n pos Ppos p Hp)|].
    assert (KP : forall k, (k < n)%nat -> kof (pos k) = k) by (intros k Hk; destruct (Hpos k Hk) as (Hp & _); destruct (Hkof _ Hp); apply pos_inj; auto).
    set (V := fun p q => through n U (W (kof p)) q).
    destruct (upper_inverse n V) as (X & H1 & H2).
    { intros p Hp. destruct (Hkof p Hp) as [Hk E]. destruct (Hpos _ Hk) as (_ & N & _). unfold V. rewrite E in N. exact N. }
    { intros p j Hp Hj. destruct (Hkof p Hp) as [Hk E]. destruct (Hpos _ Hk) as (_ & _ & Z). unfold V. apply Z. rewrite E. auto. }
    exists (fun j k => csum n (fun q => U j q * X q (pos k))). split.
    - intros k l Hk Hl. destruct (Hpos k Hk) as (Hpk & _). destruct (Hpos l Hl) as (Hpl & _).
      transitivity (csum n (fun q => V (pos k) q * X q (pos l))).
      + unfold V. rewrite KP by auto. unfold through. rewrite (csum_ext n _ (fun j => csum n (fun q => W k j * U j q * X q (pos l)))) by (intros; rewrite <- csum_scal; apply csum_ext; intros; ring).
        rewrite csum_swap. apply csum_ext. intros q Hq. rewrite csum_scal_r. reflexivity.
      + rewrite H1 by auto. destruct (Nat.eqb_spec k l) as [->|N]; [rewrite Nat.eqb_refl; auto|]. destruct (Nat.eqb_spec (pos k) (pos l)) as [E|]; auto. apply pos_inj in E; auto. congruence.
    - intros i j Hi Hj.
      set (g := fun p => csum n (fun q => U i q * X q p) * W (kof p) j).
      rewrite (csum_ext n _ (fun k => g (pos k))) by (intros k Hk; unfold g; rewrite KP by auto; reflexivity).
      rewrite (csum_perm n pos g Ppos). unfold g.
      rewrite (csum_ext n _ (fun p => csum n (fun q => U i q * csum n (fun r => X q p * V p r * Cconj (U j r))))).
      + rewrite csum_swap. destruct HU as [_ H3]. rewrite <- (H3 i j Hi Hj). apply csum_ext. intros q Hq. rewrite csum_scal. f_equal. rewrite csum_swap. rewrite (csum_one n _ q); auto.
        * rewrite csum_scal_r, (H2 q q) by auto. rewrite Nat.eqb_refl. ring.
        * intros r Hr Nr. rewrite csum_scal_r, (H2 q r) by auto. destruct (Nat.eqb_spec q r); [congruence|ring].
      + intros p Hp. rewrite <- csum_scal_r. apply csum_ext. intros q Hq. rewrite <- Cmult_assoc. f_equal. rewrite <- (through_back n U HU (W (kof p)) j Hj). rewrite <- csum_scal. apply csum_ext. intros r Hr. unfold V. ring.
  Qed.
End Inv.

(** ** rotations *)
Lemma RtoC_sumn n f : RtoC (sumn n f) = csum n (fun i => RtoC (f i)).
Proof. induction n; cbn [sumn csum]; [reflexivity|]. rewrite RtoC_plus, IHn. reflexivity. Qed.
Lemma left_rotated n dim Q M (z w : nat -> C) i : (forall j, (j < dim)%nat -> leftEigen n (M j) (z j) w) -> leftEigen n (rotated dim Q M i) (csum dim (fun j => RtoC (Q i j) * z j)) w.
Proof.
  intros H s Hs. unfold rotated. rewrite (csum_ext n _ (fun r => csum dim (fun j => RtoC (Q i j) * (w r * RtoC (M j r s))))).
  - rewrite csum_swap, <- csum_scal_r. apply csum_ext. intros j Hj. rewrite csum_scal, (H j Hj s Hs). ring.
  - intros r Hr. rewrite RtoC_sumn, <- csum_scal. apply csum_ext. intros j Hj. rewrite RtoC_mult. ring.
Qed.
Lemma left_combined n dim c M (z w : nat -> C) : (forall j, (j < dim)%nat -> leftEigen n (M j) (z j) w) -> leftEigen n (combined dim c M) (csum dim (fun j => RtoC (c j) * z j)) w.
Proof.
  intros H s Hs. unfold combined. rewrite (csum_ext n _ (fun r => csum dim (fun j => RtoC (c j) * (w r * RtoC (M j r s))))).
  - rewrite csum_swap, <- csum_scal_r. apply csum_ext. intros j Hj. rewrite csum_scal, (H j Hj s Hs). ring.
  - intros r Hr. rewrite RtoC_sumn, <- csum_scal. apply csum_ext. intros j Hj. rewrite RtoC_mult. ring.
Qed.
Lemma rotate_back dim Q (z : nat -> C) j : orthogonal dim Q -> (j < dim)%nat -> csum dim (fun i => RtoC (Q i j) * csum dim (fun l => RtoC (Q i l) * z l)) = z j.
Proof.
  intros HQ Hj. rewrite (csum_ext dim _ (fun i => csum dim (fun l => RtoC (Q i j * Q i l)%R * z l))) by (intros; rewrite <- csum_scal; apply csum_ext; intros; rewrite RtoC_mult; ring).
  rewrite csum_swap. rewrite (csum_one dim _ j); auto.
  - rewrite csum_scal_r, <- RtoC_sumn. destruct (HQ j j Hj Hj) as [-> _]. rewrite Nat.eqb_refl. ring.
  - intros l Hl Nl. rewrite csum_scal_r, <- RtoC_sumn. destruct (HQ j l Hj Hl) as [-> _]. destruct (Nat.eqb_spec j l); [congruence|ring].
Qed.
Lemma optAll_map {A B} (f : A -> option B) (g : A -> B) l : (forall a, In a l -> f a = Some (g a)) -> optAll (map f l) = Some (map g l).
Proof. induction l as [|a l IH]; intros H; cbn [map optAll]; auto. rewrite (H a (or_introl eq_refl)), IH by (intros; apply H; right; auto). reflexivity. Qed.

(** the rotated point, combined *)
Definition generic (dim : nat) (Q : nat -> nat -> R) (c : nat -> R) (z : list C) : C :=
  csum dim (fun i => RtoC (c i) * csum dim (fun j => RtoC (Q i j) * nth j z 0)).
Section Roots.
  Variables (eig : nat -> (nat -> nat -> R) -> list C) (schur : nat -> (nat -> nat -> R) -> nat -> nat -> C) (argsort : list nat -> list nat).
  Hypothesis He : eigOK eig.
  Hypothesis Hs : schurOK schur.
  Hypothesis Ha : argsort_ok argsort.
  Variables (Q : nat -> nat -> R) (c : nat -> R) (dim n : nat) (M : nat -> nat -> nat -> R) (Z : list (list C)).
  Hypothesis HQ : orthogonal dim Q.
  Hypothesis LZ : length Z = n.
  Hypothesis HZ : forall z, In z Z -> length z = dim /\ exists w : nat -> C, (exists j, (j < n)%nat /\ w j <> 0) /\ forall var, (var < dim)%nat -> leftEigen n (M var) (nth var z 0) w.
  Hypothesis HG : NoDup (map (generic dim Q c) Z).
  Theorem msroots_spec : exists l, msroots eig schur argsort Q c dim n M = Some l /\ Permutation l Z /\
    forall (z : list C) (w : nat -> C), length z = dim -> (exists j, (j < n)%nat /\ w j <> 0) -> (forall var, (var < dim)%nat -> leftEigen n (M var) (nth var z 0) w) -> In z Z.
  Proof.
    set (pt := fun k => nth k Z []).
    destruct (finite_choice (fun k (w : nat -> C) => (exists j, (j < n)%nat /\ w j <> 0) /\ forall var, (var < dim)%nat -> leftEigen n (M var) (nth var (pt k) 0) w) (fun _ => RtoC 0) n) as [W HW].
    { intros k Hk. apply HZ. apply nth_In. lia. }
    set (mu := fun i k => csum dim (fun j => RtoC (Q i j) * nth j (pt k) 0)). set (lam := fun k => generic dim Q c (pt k)).
    set (A0 := combined dim c (rotated dim Q M)). set (U := schur n A0).
    assert (Hlam : forall k l, (k < n)%nat -> (l < n)%nat -> lam k = lam l -> k = l).
    { intros k l Hk Hl E. rewrite (NoDup_nth _ (RtoC 0)) in HG. rewrite map_length, LZ in HG. apply HG; auto. rewrite !(nth_map_lt _ Z _ []) by lia. exact E. }
    assert (HM : forall i k, (i < dim)%nat -> (k < n)%nat -> leftEigen n (rotated dim Q M i) (mu i k) (W k)) by (intros i k Hi Hk; apply (left_rotated n dim Q M (fun j => nth j (pt k) 0)); intros; apply HW; auto).
    assert (HA0 : forall k, (k < n)%nat -> (exists j, (j < n)%nat /\ W k j <> 0) /\ leftEigen n A0 (lam k) (W k)).
    { intros k Hk. split; [apply HW; auto|]. apply (left_combined n dim c (rotated dim Q M) (fun i => mu i k)). intros; apply HM; auto. }
    destruct (Hs n A0) as [HU HT]; [exists lam, W; split; auto|]. fold U in HU, HT.
    assert (HT' : forall r s, (r < n)%nat -> (s < r)%nat -> conjugated n U A0 r s = 0) by exact HT.
    destruct (flag n U HU W A0 lam Hlam HA0 HT') as (pos & Hpos & Ppos).
    destruct (eigenvectors_invertible n U HU W pos Hpos Ppos) as (Wi & I1 & I2).
    set (dg := fun i p => conjugated n U (rotated dim Q M i) p p).
    assert (Hdg : forall i k, (i < dim)%nat -> (k < n)%nat -> dg i (pos k) = mu i k) by (intros i k Hi Hk; apply (all_triangular n U HU W pos Hpos Ppos (rotated dim Q M i) (mu i)); auto).
    assert (Heig : forall i, (i < dim)%nat -> Permutation (eig n (rotated dim Q M i)) (map (dg i) (seq 0 n))).
    { intros i Hi. etransitivity; [apply (He n _ (mu i) W Wi); split; [exact I1|split; [exact I2|intros; apply HM; auto]]|].
      transitivity (map (dg i) (map pos (seq 0 n))); [|apply Permutation_map; exact Ppos]. rewrite map_map. rewrite (map_ext_in (fun x => dg i (pos x)) (mu i)); auto. intros k Hk. apply in_seq in Hk. apply Hdg; auto. lia. }
    set (row := fun i => map (dg i) (seq 0 n)).
    assert (E : optAll (map (fun i => match sort_eigs argsort (eig n (rotated dim Q M i)) n (fun p => conjugated n U (rotated dim Q M i) p p) with
        | Some arr => if (length arr =? n)%nat then Some (map (fun k => nth k (eig n (rotated dim Q M i)) (RtoC 0)) arr) else None | None => None end) (seq 0 dim)) = Some (map row (seq 0 dim))).
    { apply optAll_map. intros i Hi. apply in_seq in Hi. destruct (sort_eigs_spec argsort (eig n (rotated dim Q M i)) n (dg i) Ha (Heig i ltac:(lia))) as (arr & Es & La & Hn). unfold dg in Es. rewrite Es, La, Nat.eqb_refl. f_equal.
      unfold row. apply nth_ext with (d := RtoC 0) (d' := RtoC 0); [rewrite !map_length, seq_length; auto|]. intros p Hp. rewrite map_length, La in Hp. rewrite (nth_map_lt _ arr p 0%nat) by lia. rewrite Hn by auto. rewrite (nth_map_lt _ (seq 0 n) p 0%nat) by (rewrite seq_length; auto). rewrite seq_nth by auto. reflexivity. }
    unfold msroots. cbv zeta. fold A0. fold U. rewrite E. eexists. split; [reflexivity|]. split.
    - etransitivity; [apply Permutation_map; apply Permutation_sym; exact Ppos|]. rewrite map_map. assert (X : map pt (seq 0 n) = Z).
      { apply nth_ext with (d := []) (d' := []); [rewrite map_length, seq_length; auto|]. intros k Hk. rewrite map_length, seq_length in Hk. rewrite (nth_map_lt pt _ k 0%nat) by (rewrite seq_length; auto). rewrite seq_nth by auto. reflexivity. }
      rewrite <- X. erewrite map_ext_in; [reflexivity|]. intros k Hk. apply in_seq in Hk. cbv beta. assert (Lp : length (pt k) = dim) by (apply HZ; apply nth_In; lia).
      apply nth_ext with (d := RtoC 0) (d' := RtoC 0); [rewrite map_length, seq_length; auto|]. intros j Hj. rewrite map_length, seq_length in Hj. rewrite (nth_map_lt _ _ j 0%nat) by (rewrite seq_length; auto). rewrite seq_nth by auto. cbn [Nat.add].
      rewrite <- (rotate_back dim Q (fun j => nth j (pt k) 0) j HQ Hj). apply csum_ext. intros i Hi. f_equal.
      rewrite (nth_map_lt row _ i 0%nat) by (rewrite seq_length; auto). rewrite seq_nth by auto. cbn [Nat.add]. unfold row. destruct (Hpos k ltac:(lia)) as (Hp & _). rewrite (nth_map_lt _ (seq 0 n) (pos k) 0%nat) by (rewrite seq_length; auto). rewrite seq_nth by auto. apply Hdg; auto. lia.
    - intros z w Lz Nw Hw. destruct (no_more n U HU W pos Hpos Ppos w Nw) as (k & Hk & HN).
      assert (Ez : z = pt k); [|rewrite Ez; apply nth_In; lia]. apply nth_ext with (d := RtoC 0) (d' := RtoC 0); [rewrite Lz; symmetry; apply HZ; apply nth_In; lia|].
      intros j Hj. rewrite Lz in Hj. apply (HN (M j) (fun k => nth j (pt k) 0)); auto. intros l Hl. apply HW; auto.
  Qed.
End Roots.
