(** * The factorisations the Macaulay solver relies on exist for every matrix: QR, QR with pivots, right singular vectors *)
From Coq Require Import List Arith Reals Lia Lra Bool Permutation ClassicalEpsilon.
From Coquelicot Require Import Complex.
From Coq Require Import List.
From Verif Require Import Num RSum Tensor LinearProofs SvdProofs DepProps PermProofs MacaulayModel MacaulaySpec MacaulayRed MacaulayEig.
Import ListNotations.
Local Open Scope R_scope.

Lemma orth_orthogonal n Q : orth n Q -> orthogonal n Q.
Proof. intros [H1 H2] i j Hi Hj. split; [exact (H1 i j Hi Hj)|exact (H2 i j Hi Hj)]. Qed.
Lemma max_col n (f : nat -> R) : exists p, (p < S n)%nat /\ forall j, (j < S n)%nat -> f j <= f p.
Proof.
  induction n as [|n (p & Hp & M)]; [exists 0%nat; split; [lia|]; intros j Hj; replace j with 0%nat by lia; lra|].
  destruct (Rle_dec (f p) (f (S n))) as [L|L].
  - exists (S n). split; [lia|]. intros j Hj. destruct (Nat.eq_dec j (S n)) as [->|]; [lra|]. specialize (M j ltac:(lia)). lra.
  - exists p. split; [lia|]. intros j Hj. destruct (Nat.eq_dec j (S n)) as [->|]; [lra|]. apply M. lia.
Qed.
Lemma unit_col n a : exists H, orth (S n) H /\ forall i, (i < S n)%nat -> a i = H i 0%nat * sqrt (nrm2 (S n) a).
Proof.
  set (s := nrm2 (S n) a). pose proof (nrm2_pos (S n) a) as P. fold s in P. destruct (Req_dec s 0) as [Z|Z].
  - exists delta. split; [apply orth_id|]. intros i Hi. rewrite Z, sqrt_0, Rmult_0_r. apply (sumsq_zero (S n) a); auto.
  - assert (Q : 0 < sqrt s) by (apply sqrt_lt_R0; lra). destruct (orth_first (S n) (fun i => / sqrt s * a i) ltac:(lia)) as (H & HO & HF).
    { unfold unitV. change (nrm2 (S n) (fun i => / sqrt s * a i) = 1). rewrite nrm2_scal. fold s. rewrite <- (sqrt_sqrt s) at 3 by lra. field. lra. }
    exists H. split; auto. intros i Hi. rewrite HF by auto. field. lra.
Qed.
Lemma qr_gen (piv : bool) r : forall c A, exists Q U P, Permutation P (seq 0 c) /\ orth r Q /\ upper r c U /\
  (forall i j, (i < r)%nat -> (j < c)%nat -> A i (nth j P 0%nat) = sumn r (fun k => Q i k * U k j)) /\
  (piv = true -> forall k j, (k < r)%nat -> (k <= j)%nat -> (j < c)%nat -> sumn (r - k) (fun i => U (k + i)%nat j * U (k + i)%nat j) <= U k k * U k k) /\
  (piv = false -> P = seq 0 c).
Proof.
  induction r as [|r IH]; intros c A.
  { exists delta, delta, (seq 0 c). split; auto. split; [apply orth_id|]. split; [intros i j Hi; lia|]. split; [intros; lia|]. split; auto. intros; lia. }
  destruct c as [|c].
  { exists delta, delta, (@nil nat). split; auto. split; [apply orth_id|]. split; [intros i j Hi Hj; lia|]. split; [intros; lia|]. split; auto. intros; lia. }
  assert (Pp : exists p, (p < S c)%nat /\ (piv = true -> forall j, (j < S c)%nat -> nrm2 (S r) (fun i => A i j) <= nrm2 (S r) (fun i => A i p)) /\ (piv = false -> p = 0%nat)).
  { destruct piv; [|exists 0%nat; split; [lia|split; [discriminate|auto]]]. destruct (max_col c (fun j => nrm2 (S r) (fun i => A i j))) as (p & Hp & M). exists p. split; auto. split; auto. discriminate. }
  destruct Pp as (p & Hp & Hmax & Hp0). destruct (unit_col r (fun i => A i p)) as (H & HO & HF). set (s := nrm2 (S r) (fun i => A i p)) in *.
  set (G := fun i j => sumn (S r) (fun k => H k i * A k j)).
  assert (AG : forall i j, (i < S r)%nat -> A i j = sumn (S r) (fun k => H i k * G k j)).
  { intros i j Hi. unfold G. rewrite (sumn_ext (S r) _ (fun k => sumn (S r) (fun m => (H i k * H m k) * A m j))) by (intros; rewrite <- sumn_scal; apply sumn_ext; intros; ring).
    rewrite sumn_swap. rewrite (sumn_ext (S r) _ (fun m => delta i m * A m j)); [symmetry; apply (sumn_delta (S r) i (fun m => A m j)); auto|].
    intros m Hm. rewrite sumn_scal_r. f_equal. exact (proj2 HO i m Hi Hm). }
  assert (G0 : forall i, (i < S r)%nat -> G i p = delta i 0%nat * sqrt s).
  { intros i Hi. unfold G. rewrite (sumn_ext (S r) _ (fun k => (H k i * H k 0%nat) * sqrt s)) by (intros k Hk; rewrite HF by auto; ring). rewrite sumn_scal_r. f_equal. exact (proj1 HO i 0%nat Hi ltac:(lia)). }
  set (rest := seq 0 p ++ seq (S p) (c - p)). assert (Lr : length rest = c) by (unfold rest; rewrite app_length, !seq_length; lia).
  assert (Pr : Permutation (p :: rest) (seq 0 (S c))).
  { replace (S c) with (p + S (c - p))%nat by lia. rewrite seq_app. cbn [seq]. unfold rest. apply Permutation_middle. }
  destruct (IH c (fun i j => G (S i) (nth j rest 0%nat))) as (Q' & U' & P' & PP & OQ & UU & EA & Piv & Piv0).
  set (P := p :: map (fun k => nth k rest 0%nat) P'). assert (LP' : length P' = c) by (rewrite (Permutation_length PP), seq_length; auto).
  assert (PP2 : Permutation P (seq 0 (S c))).
  { apply Permutation_trans with (p :: rest); auto. apply Permutation_cons; auto. apply (Permutation_trans (Permutation_map _ PP)). rewrite <- Lr. match goal with |- Permutation ?x ?y => replace x with y; auto end.
    apply nth_ext with (d := 0%nat) (d' := 0%nat); [rewrite map_length, seq_length; auto|]. intros k Hk. rewrite (nth_map' _ _ 0%nat) by (rewrite seq_length; auto). rewrite seq_nth by auto. reflexivity. }
  set (U := fun i j => match i, j with O, j => G 0%nat (nth j P 0%nat) | S _, O => 0 | S i, S j => U' i j end).
  set (Q := mm (S r) H (blk 1 Q')). exists Q, U, P.
  assert (OQ2 : orth (S r) Q) by (apply orth_mm; auto; apply orth_blk; auto).
  assert (GU : forall k j, (k < S r)%nat -> (j < S c)%nat -> G k (nth j P 0%nat) = sumn (S r) (fun m => blk 1 Q' k m * U m j)).
  { intros k j Hk Hj. rewrite sumn_S_l. destruct k as [|k]; cbn [blk].
    - rewrite sumn_zero by (intros; ring). unfold U. ring.
    - destruct j as [|j].
      + unfold U. rewrite sumn_zero by (intros; ring). unfold P. cbn [nth]. rewrite G0 by auto. unfold delta. cbn. ring.
      + unfold P. cbn [nth]. rewrite (nth_map' _ _ 0%nat) by lia. rewrite (EA k j ltac:(lia) ltac:(lia)). unfold U. ring. }
  assert (EA2 : forall i j, (i < S r)%nat -> (j < S c)%nat -> A i (nth j P 0%nat) = sumn (S r) (fun k => Q i k * U k j)).
  { intros i j Hi Hj. rewrite AG by auto. rewrite (sumn_ext (S r) _ (fun k => sumn (S r) (fun m => H i k * blk 1 Q' k m * U m j))) by (intros k Hk; rewrite (GU k j Hk Hj); rewrite <- sumn_scal; apply sumn_ext; intros; ring).
    rewrite sumn_swap. apply sumn_ext. intros m Hm. rewrite sumn_scal_r. reflexivity. }
  assert (U00 : U 0%nat 0%nat = sqrt s) by (unfold U, P; cbn [nth]; rewrite G0 by lia; unfold delta; cbn; ring).
  split; auto. split; auto. split; [|split; [auto|split]].
  - intros [|i] [|j] Hi Hj L; try lia; unfold U; auto. apply UU; lia.
  - intros Hv [|k] j Hk Hkj Hj.
    + rewrite Nat.sub_0_r. cbn [Nat.add]. rewrite U00, sqrt_sqrt by apply nrm2_pos. rewrite <- (orth_norm (S r) Q (fun i => U i j) OQ2).
      rewrite (sumn_ext (S r) _ (fun i => A i (nth j P 0%nat) * A i (nth j P 0%nat))) by (intros i Hi; rewrite EA2 by auto; reflexivity).
      apply (Hmax Hv). assert (I : In (nth j P 0%nat) P) by (apply nth_In; rewrite (Permutation_length PP2), seq_length; auto). apply (Permutation_in _ PP2) in I. apply in_seq in I. lia.
    + destruct j as [|j]; [lia|]. apply (Piv Hv k j); lia.
  - intros Hv. unfold P, rest. rewrite (Piv0 Hv), (Hp0 Hv). cbn [seq app]. f_equal. rewrite Nat.sub_0_r.
    apply nth_ext with (d := 0%nat) (d' := 0%nat); [rewrite map_length, !seq_length; auto|]. rewrite map_length, seq_length. intros k Hk. rewrite (nth_map' _ _ 0%nat) by (rewrite seq_length; auto). rewrite (@seq_nth c 0 k 0 Hk). reflexivity.
Qed.
Lemma qr_exists r c A : exists Q U, qrFactors r c A Q U.
Proof.
  destruct (qr_gen false r c A) as (Q & U & P & _ & OQ & UU & EA & _ & EP). exists Q, U. split; [apply orth_orthogonal; auto|]. split; auto. intros i j Hi Hj. rewrite <- EA by auto. rewrite EP, seq_nth by auto. reflexivity.
Qed.
Lemma pivoted_exists r c A : exists Q U P, pivotedQR r c A Q U P.
Proof. destruct (qr_gen true r c A) as (Q & U & P & HP & OQ & UU & EA & PV & _). exists Q, U, P. split; auto. split; [apply orth_orthogonal; auto|]. split; auto. Qed.

(** ** Singular vectors of rectangular matrices *)
Definition bd (k : nat) (U : mat) : mat := fun i j => if (i <? k)%nat && (j <? k)%nat then U i j else delta i j.
Lemma bd_mm k m A B : meq (k + m) (mm (k + m) (bd k A) (bd k B)) (bd k (mm k A B)).
Proof.
  intros i j Hi Hj. unfold mm at 1. rewrite sumn_split. unfold bd at 5. destruct (Nat.ltb_spec i k) as [Li|Li]; cbn [andb].
  - rewrite (sumn_zero m) by (intros q Hq; unfold bd; destruct (Nat.ltb_spec (k + q) k); [lia|]; rewrite andb_false_r; unfold delta at 1; destruct (Nat.eqb_spec i (k + q)); [lia|ring]).
    rewrite Rplus_0_r. destruct (Nat.ltb_spec j k) as [Lj|Lj].
    + unfold mm. apply sumn_ext. intros q Hq. unfold bd. destruct (Nat.ltb_spec i k); [|lia]. destruct (Nat.ltb_spec q k); [|lia]. destruct (Nat.ltb_spec j k); [|lia]. reflexivity.
    + rewrite sumn_zero; [unfold delta; destruct (Nat.eqb_spec i j); [lia|auto]|]. intros q Hq. unfold bd at 2. destruct (Nat.ltb_spec j k); [lia|]. rewrite andb_false_r. unfold delta. destruct (Nat.eqb_spec q j); [lia|ring].
  - rewrite sumn_zero by (intros q Hq; unfold bd at 1; destruct (Nat.ltb_spec i k); [lia|]; cbn [andb]; unfold delta; destruct (Nat.eqb_spec i q); [lia|ring]). rewrite Rplus_0_l.
    rewrite (sumn_single m (i - k)); [|lia|].
    + replace (k + (i - k))%nat with i by lia. unfold bd. destruct (Nat.ltb_spec i k); [lia|]. cbn [andb]. unfold delta at 1. rewrite Nat.eqb_refl. ring.
    + intros q Hq Hne. unfold bd at 1. destruct (Nat.ltb_spec i k); [lia|]. cbn [andb]. unfold delta at 1. destruct (Nat.eqb_spec i (k + q)); [lia|ring].
Qed.
Lemma orth_bd k m U : orth k U -> orth (k + m) (bd k U).
Proof.
  intros [H1 H2]. assert (D : forall V, meq k V delta -> meq (k + m) (bd k V) delta).
  { intros V HV i j Hi Hj. unfold bd. destruct (Nat.ltb_spec i k), (Nat.ltb_spec j k); cbn [andb]; auto. }
  assert (T : meq (k + m) (tr (bd k U)) (bd k (tr U))) by (intros i j Hi Hj; unfold tr, bd; rewrite (andb_comm (j <? k)%nat); destruct ((i <? k)%nat && (j <? k)%nat); auto; apply delta_sym).
  split; intros i j Hi Hj.
  - transitivity (mm (k + m) (bd k (tr U)) (bd k U) i j); [unfold mm; apply sumn_ext; intros q Hq; rewrite (T i q Hi Hq); auto|]. rewrite bd_mm by auto. apply D; auto.
  - transitivity (mm (k + m) (bd k U) (bd k (tr U)) i j); [unfold mm; apply sumn_ext; intros q Hq; rewrite (T q j Hq Hj); auto|]. rewrite bd_mm by auto. apply D; auto.
Qed.
Lemma svd_right n A : exists U s V, orth n U /\ orth n V /\ (forall i j, (i <= j)%nat -> (j < n)%nat -> 0 <= s j <= s i) /\
  forall i j, (i < n)%nat -> (j < n)%nat -> sumn n (fun k => A i k * V k j) = U i j * s j.
Proof.
  destruct (svd_exists n A) as (U & s & V & EA & OU & OV & S0 & SM). exists U, s, (tr V). split; auto. split; [apply orth_tr; auto|]. split; [intros; auto|].
  intros i j Hi Hj. rewrite (sumn_ext n _ (fun k => sumn n (fun p => U i p * s p * (V p k * V j k)))).
  - rewrite sumn_swap. rewrite (sumn_single n j); auto.
    + rewrite sumn_scal. pose proof (proj2 OV j j Hj Hj) as E. unfold mm, tr, delta in E. rewrite Nat.eqb_refl in E. rewrite E. ring.
    + intros p Hp Hne. rewrite sumn_scal. pose proof (proj2 OV p j Hp Hj) as E. unfold mm, tr, delta in E. destruct (Nat.eqb_spec p j); [congruence|]. rewrite E. ring.
  - intros k Hk. rewrite (EA i k Hi Hk). unfold mm, tr. rewrite <- sumn_scal_r. apply sumn_ext. intros p Hp. rewrite (sumn_single n p); auto.
    + unfold diag. rewrite Nat.eqb_refl. ring.
    + intros q Hq Hne. unfold diag. destruct (Nat.eqb_spec p q); [congruence|ring].
Qed.
Lemma rightSingular_exists r c A : exists V, rightSingular r c A V.
Proof.
  destruct (le_lt_dec c r) as [L|L].
  - destruct (qr_gen false r c A) as (Q & T & P & _ & OQ & UU & EA0 & _ & EP). assert (EA : forall i j, (i < r)%nat -> (j < c)%nat -> A i j = sumn r (fun k => Q i k * T k j)) by (intros i j Hi Hj; rewrite <- EA0 by auto; rewrite (EP eq_refl), seq_nth by auto; reflexivity).
    destruct (svd_right c T) as (U1 & s & V & OU1 & OV & SM & E1). exists V. split; [apply orth_orthogonal; auto|]. exists (mm r Q (bd c U1)), s. split; [|split].
    + apply orth_orthogonal. apply orth_mm; auto. replace r with (c + (r - c))%nat by lia. apply orth_bd; auto.
    + intros i j Hij Hj _. auto.
    + intros i j Hi Hj. destruct (Nat.ltb_spec j r); [|lia]. rewrite (sumn_ext c _ (fun k => sumn r (fun q => Q i q * (T q k * V k j)))) by (intros k Hk; rewrite EA by auto; rewrite <- sumn_scal_r; apply sumn_ext; intros; ring).
      rewrite sumn_swap. unfold mm. rewrite <- sumn_scal_r. apply sumn_ext. intros q Hq. rewrite sumn_scal. rewrite Rmult_assoc. f_equal.
      destruct (lt_dec q c) as [Lq|Lq].
      * rewrite E1 by auto. unfold bd. destruct (Nat.ltb_spec q c); [|lia]. destruct (Nat.ltb_spec j c); [|lia]. reflexivity.
      * rewrite sumn_zero by (intros k Hk; rewrite UU by lia; ring). unfold bd. destruct (Nat.ltb_spec q c); [lia|]. cbn [andb]. unfold delta. destruct (Nat.eqb_spec q j); [lia|ring].
  - destruct (qr_gen false c r (fun i j => A j i)) as (Q & T & P & _ & OQ & UU & EA0 & _ & EP). assert (EA : forall i j, (i < r)%nat -> (j < c)%nat -> A i j = sumn c (fun k => Q j k * T k i)) by (intros i j Hi Hj; specialize (EA0 j i Hj Hi); rewrite (EP eq_refl), seq_nth in EA0 by auto; exact EA0).
    destruct (svd_right r (fun i j => T j i)) as (U & s & V1 & OU & OV1 & SM & E1). set (V := mm c Q (bd r V1)). assert (OV : orth c V) by (apply orth_mm; auto; replace c with (r + (c - r))%nat by lia; apply orth_bd; auto).
    exists V. split; [apply orth_orthogonal; auto|]. exists U, s. split; [apply orth_orthogonal; auto|]. split; [intros; apply SM; auto|].
    intros i j Hi Hj. rewrite (sumn_ext c _ (fun k => sumn c (fun q => T q i * (Q k q * V k j)))) by (intros k Hk; rewrite EA by auto; rewrite <- sumn_scal_r; apply sumn_ext; intros; ring).
    rewrite sumn_swap. assert (QV : forall q, (q < c)%nat -> sumn c (fun k => Q k q * V k j) = bd r V1 q j).
    { intros q Hq. unfold V. transitivity (mm c (tr Q) (mm c Q (bd r V1)) q j); [reflexivity|]. rewrite mm_assoc by auto. transitivity (mm c delta (bd r V1) q j); [|apply mm_id_l; auto]. unfold mm at 1 3. apply sumn_ext. intros k Hk. f_equal. apply (proj1 OQ); auto. }
    rewrite (sumn_ext c _ (fun q => T q i * bd r V1 q j)) by (intros q Hq; rewrite sumn_scal, QV by auto; auto).
    replace c with (r + (c - r))%nat by lia. rewrite sumn_split. rewrite (sumn_zero (c - r)) by (intros q Hq; rewrite UU by lia; ring). rewrite Rplus_0_r.
    destruct (Nat.ltb_spec j r) as [Lj|Lj].
    + rewrite <- E1 by auto. apply sumn_ext. intros q Hq. unfold bd. destruct (Nat.ltb_spec q r); [|lia]. destruct (Nat.ltb_spec j r); [|lia]. reflexivity.
    + apply sumn_zero. intros q Hq. unfold bd. destruct (Nat.ltb_spec j r); [lia|]. rewrite andb_false_r. unfold delta. destruct (Nat.eqb_spec q j); [lia|ring].
Qed.

(** ** All of them together *)
Lemma tri_solve r (U : rmatrix) (b : nat -> R) : (forall i, (i < r)%nat -> U i i <> 0) -> exists x : nat -> R, forall i, (i < r)%nat -> sumn r (fun j => if (i <=? j)%nat then U i j * x j else 0) = b i.
Proof.
  intros Hd. assert (G : forall m, (m <= r)%nat -> exists x : nat -> R, forall i, (r - m <= i)%nat -> (i < r)%nat -> sumn r (fun j => if (i <=? j)%nat then U i j * x j else 0) = b i).
  { induction m as [|m IH]; intros Hm; [exists (fun _ => 0); intros; lia|]. destruct (IH ltac:(lia)) as (x & Hx). set (k := (r - S m)%nat).
    set (x' := fun j => if (j =? k)%nat then (b k - sumn r (fun j => if (k <=? j)%nat && negb (j =? k)%nat then U k j * x j else 0)) / U k k else x j).
    exists x'. intros i H1 H2. destruct (Nat.eq_dec i k) as [->|Ne].
    - rewrite (sumn_ext r _ (fun j => (if (k <=? j)%nat && negb (j =? k)%nat then U k j * x j else 0) + (if (j =? k)%nat then U k k * x' k else 0))).
      + rewrite sumn_plus. rewrite (sumn_single r k (fun j => if (j =? k)%nat then _ else 0)); [|unfold k; lia|intros j _ Hj; destruct (Nat.eqb_spec j k); [congruence|auto]]. rewrite Nat.eqb_refl. unfold x'. rewrite Nat.eqb_refl. field. apply Hd. unfold k. lia.
      + intros j Hj. destruct (Nat.eqb_spec j k) as [->|Hne].
        * rewrite Nat.leb_refl. cbn [negb andb]. ring.
        * cbn [negb]. rewrite andb_true_r. unfold x' at 1. destruct (Nat.eqb_spec j k); [congruence|]. ring.
    - rewrite <- (Hx i ltac:(unfold k in *; lia) H2). apply sumn_ext. intros j Hj. destruct (Nat.leb_spec i j); auto. unfold x'. destruct (Nat.eqb_spec j k); [unfold k in *; lia|auto]. }
  destruct (G r (le_n r)) as (x & Hx). exists x. intros i Hi. apply Hx; lia.
Qed.
Definition pick {A} {P : A -> Prop} (H : exists x, P x) : A := proj1_sig (constructive_indefinite_description P H).
Lemma pick_spec {A} {P : A -> Prop} (H : exists x, P x) : P (pick H).
Proof. unfold pick. destruct (constructive_indefinite_description P H). auto. Qed.
Lemma qr_pair r c A : exists QU : rmatrix * rmatrix, qrFactors r c A (fst QU) (snd QU).
Proof. destruct (qr_exists r c A) as (Q & U & H). exists (Q, U). auto. Qed.
Lemma qrT_ex r c A : exists V, exists U P, pivotedQR c r (fun i j => A j i) V U P.
Proof. destruct (pivoted_exists c r (fun i j => A j i)) as (Q & U & P & H). exists Q, U, P. auto. Qed.
Lemma qrP_ex r c A : exists UP : rmatrix * list nat, exists Q, pivotedQR r c A Q (fst UP) (snd UP).
Proof. destruct (pivoted_exists r c A) as (Q & U & P & H). exists (U, P), Q. auto. Qed.
Definition someLapack : lapack R := mkLapack
  (fun r c A => if excluded_middle_informative (columnsIndependent r c A) then Some 1 else None)
  (fun r c A => pick (qr_pair r c A)) (fun r c A => pick (rightSingular_exists r c A)) (fun r c A => pick (qrT_ex r c A)) (fun r c A => pick (qrP_ex r c A))
  (fun r k U B => match excluded_middle_informative (forall i, (i < r)%nat -> U i i <> 0) with
                  | left H => Some (fun j c => pick (tri_solve r U (fun i => B i c) H) j)
                  | right _ => None end).
Lemma someLapack_ok : lapackOK someLapack.
Proof.
  split; [intros r c A; apply (pick_spec (qr_pair r c A))|]. split; [intros r c A; apply (pick_spec (rightSingular_exists r c A))|]. split; [intros r c A; apply (pick_spec (qrT_ex r c A))|]. split; [intros r c A; apply (pick_spec (qrP_ex r c A))|]. split.
  - intros r k U B. cbn [ltri someLapack]. destruct (excluded_middle_informative _) as [H|H].
    + split; auto. intros i c Hi Hc. apply (pick_spec (tri_solve r U (fun i => B i c) H)). auto.
    + destruct (first_zero (fun i => U i i = 0) (fun i => Req_EM_T (U i i) 0) r) as (k0 & K1 & K2 & K3). destruct (Nat.eq_dec k0 r) as [->|N]; [exfalso; apply H; auto|]. exists k0. split; [lia|]. apply K3. lia.
  - intros r c A _. cbn [lcond someLapack]. destruct (excluded_middle_informative _); auto. congruence.
Qed.
