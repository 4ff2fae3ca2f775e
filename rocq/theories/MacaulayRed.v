(** * Reduction of the Macaulay matrix: what the factorizations do to a null vector *)
From Coq Require Import List Arith Reals Lia Lra Bool Permutation.
From Coquelicot Require Import Complex.
From Coq Require Import List.
From Verif Require Import Num RSum OneDSpec OneDProofs CondProofs DepProps SvdProofs PermProofs MacaulayModel MacaulaySpec MacaulayProofs.
Import ListNotations.
Local Open Scope R_scope.

(** what is assumed of the library *)
Definition lapackOK (X : lapack R) : Prop :=
  (forall r c A, qrFactors r c A (fst (lqr X r c A)) (snd (lqr X r c A))) /\
  (forall r c A, rightSingular r c A (lsvdV X r c A)) /\
  (forall r c A, exists U P, pivotedQR c r (fun i j => A j i) (lqrT X r c A) U P) /\
  (forall r c A, exists Q, pivotedQR r c A Q (fst (lqrP X r c A)) (snd (lqrP X r c A))) /\
  (forall r k U B, match ltri X r k U B with
                   | Some E => (forall i, (i < r)%nat -> U i i <> 0) /\ triSolved r k U B E
                   | None => exists i, (i < r)%nat /\ U i i = 0 end) /\
  (forall r c A, (c <= r)%nat -> lcond X r c A <> None -> columnsIndependent r c A).

(** ** Sums *)
Lemma msum_R n (f : nat -> R) : @msum R R_num n f = sumn n f.
Proof. unfold msum. rewrite nsum_R. apply Rsum_map_seq. Qed.
Lemma csum_RtoC n f : csum n (fun i => RtoC (f i)) = RtoC (sumn n f).
Proof. induction n; cbn; [reflexivity|]. rewrite IHn. rewrite RtoC_plus. reflexivity. Qed.
Lemma csum_split n m f : csum (n + m) f = (csum n f + csum m (fun i => f (n + i)%nat))%C.
Proof. induction m; cbn; [rewrite Nat.add_0_r; ring|]. rewrite Nat.add_succ_r. cbn. rewrite IHm. ring. Qed.
Lemma csum_lin f n (g : nat -> C) : linR f -> f (csum n g) = sumn n (fun i => f (g i)).
Proof. intros Hf. induction n; cbn; [apply linR_0; auto|]. rewrite (proj1 Hf). rewrite IHn. reflexivity. Qed.
Lemma csum_perm n P f : Permutation P (seq 0 n) -> csum n (fun j => f (nth j P 0%nat)) = csum n f.
Proof.
  intros HP. apply C_ext; rewrite !(csum_lin Re) || rewrite !(csum_lin Im); try apply linR_Re; try apply linR_Im.
  - apply (sumn_perm n P (fun j => Re (f j)) HP).
  - apply (sumn_perm n P (fun j => Im (f j)) HP).
Qed.
(** A u *)
Definition mvC (c : nat) (A : rmatrix) (u : nat -> C) (i : nat) : C := csum c (fun j => RtoC (A i j) * u j)%C.
Lemma mvC_ext c A A' (u u' : nat -> C) i : (forall j, (j < c)%nat -> A i j = A' i j) -> (forall j, (j < c)%nat -> u j = u' j) -> mvC c A u i = mvC c A' u' i.
Proof. intros H1 H2. apply csum_ext. intros j Hj. rewrite H1, H2 by auto. reflexivity. Qed.
Lemma mvC_mul n m (A B : rmatrix) u i : mvC n A (mvC m B u) i = mvC m (fun i j => sumn n (fun k => A i k * B k j)) u i.
Proof.
  unfold mvC. rewrite (csum_ext n _ (fun k => csum m (fun j => RtoC (A i k * B k j) * u j)%C)).
  - rewrite csum_swap. apply csum_ext. intros j Hj. rewrite csum_scal_r. f_equal. apply (csum_RtoC n (fun k => A i k * B k j)).
  - intros k Hk. rewrite <- csum_scal. apply csum_ext. intros j Hj. rewrite RtoC_mult. ring.
Qed.
Lemma mvC_id n A u i : (i < n)%nat -> (forall j, (j < n)%nat -> A i j = if Nat.eqb i j then 1 else 0) -> mvC n A u i = u i.
Proof.
  intros Hi H. unfold mvC. rewrite (csum_one n _ i Hi).
  - rewrite H, Nat.eqb_refl by auto. ring.
  - intros j Hj Hne. rewrite H by auto. destruct (Nat.eqb_spec i j); [congruence|ring].
Qed.
Lemma mvC_zero c A (u : nat -> C) i : (forall j, (j < c)%nat -> u j = 0%C) -> mvC c A u i = 0%C.
Proof. intros H. apply csum_zero. intros j Hj. rewrite H by auto. ring. Qed.
Definition Tr (A : rmatrix) : rmatrix := fun i j => A j i.
Lemma orth_VVt n V u i : orthogonal n V -> (i < n)%nat -> mvC n V (mvC n (Tr V) u) i = u i.
Proof. intros H Hi. rewrite mvC_mul. apply mvC_id; auto. intros j Hj. apply (H i j); auto. Qed.
Lemma orth_VtV n V u i : orthogonal n V -> (i < n)%nat -> mvC n (Tr V) (mvC n V u) i = u i.
Proof. intros H Hi. rewrite mvC_mul. apply mvC_id; auto. intros j Hj. apply (H i j); auto. Qed.
Lemma mvC_RtoC c A (x : nat -> R) i : mvC c A (fun j => RtoC (x j)) i = RtoC (sumn c (fun j => A i j * x j)).
Proof. unfold mvC. rewrite <- csum_RtoC. apply csum_ext. intros j Hj. rewrite RtoC_mult. reflexivity. Qed.
Lemma RtoC_0 x : RtoC x = 0%C -> x = 0.
Proof. intros H. injection H. auto. Qed.
(** an orthogonal matrix has no null vector *)
Lemma mvC_lin f c A u i : linR f -> f (mvC c A u i) = sumn c (fun j => A i j * f (u j)).
Proof. intros Hf. unfold mvC. rewrite csum_lin by auto. apply sumn_ext. intros j Hj. apply (proj2 Hf). Qed.

(** ** Triangular systems *)
Lemma tri_unique r (U : rmatrix) (x : nat -> C) : (forall i, (i < r)%nat -> U i i <> 0) ->
  (forall i, (i < r)%nat -> csum r (fun j => if (i <=? j)%nat then RtoC (U i j) * x j else 0)%C = 0%C) -> forall i, (i < r)%nat -> x i = 0%C.
Proof.
  intros Hd H. assert (G : forall k i, (r - k <= i)%nat -> (i < r)%nat -> x i = 0%C).
  { induction k; intros i Hi Hr; [lia|]. destruct (le_lt_dec (r - k) i) as [L|L]; [auto|].
    specialize (H i Hr). rewrite (csum_one r _ i Hr) in H.
    - rewrite Nat.leb_refl in H. assert (N : RtoC (U i i) <> 0%C) by (intros E; apply RtoC_0 in E; apply (Hd i); auto).
      replace (x i) with (/ RtoC (U i i) * (RtoC (U i i) * x i))%C by (field; auto). rewrite H. ring.
    - intros j Hj Hne. destruct (Nat.leb_spec i j); auto. rewrite IHk by lia. ring. }
  intros i Hi. apply (G r); lia.
Qed.
Lemma tri_back r k (U B E : rmatrix) (x w : nat -> C) : (forall i, (i < r)%nat -> U i i <> 0) -> triSolved r k U B E ->
  (forall i, (i < r)%nat -> (csum r (fun j => if (i <=? j)%nat then RtoC (U i j) * x j else 0) + mvC k B w i)%C = 0%C) ->
  forall i, (i < r)%nat -> x i = (- mvC k E w i)%C.
Proof.
  intros Hd HE H i Hi. enough (Z : (x i + mvC k E w i)%C = 0%C) by (transitivity ((x i + mvC k E w i) - mvC k E w i)%C; [ring|rewrite Z; ring]).
  revert i Hi. apply (tri_unique r U (fun i => (x i + mvC k E w i)%C)); auto. intros i Hi.
  etransitivity; [|exact (H i Hi)].
  assert (Q : mvC k B w i = csum r (fun j => if (i <=? j)%nat then RtoC (U i j) * mvC k E w j else 0)%C).
  { unfold mvC at 1. rewrite (csum_ext k _ (fun c => csum r (fun j => if (i <=? j)%nat then RtoC (U i j * E j c) * w c else 0)%C)).
    - rewrite csum_swap. apply csum_ext. intros j Hj. destruct (i <=? j)%nat; [|apply csum_zero; auto]. unfold mvC. rewrite <- csum_scal. apply csum_ext. intros c Hc. rewrite RtoC_mult. ring.
    - intros c Hc. rewrite <- (HE i c Hi Hc). rewrite <- csum_RtoC, <- csum_scal_r. apply csum_ext. intros j Hj. destruct (i <=? j)%nat; [reflexivity|ring]. }
  rewrite Q, <- csum_plus. apply csum_ext. intros j Hj. cbv beta. destruct (i <=? j)%nat; ring.
Qed.

(** ** Rank-revealing bases of the null space *)
Definition revealing (r l : nat) (B V : rmatrix) : Prop :=
  orthogonal l V /\ exists k, (k <= l)%nat /\
    (forall x : nat -> R, (forall i, (i < r)%nat -> sumn l (fun j => B i j * x j) = 0) -> forall i, (i < k)%nat -> sumn l (fun j => V j i * x j) = 0) /\
    (forall i j, (k <= j)%nat -> (j < l)%nat -> (i < r)%nat -> sumn l (fun q => B i q * V q j) = 0).
Lemma first_zero (P : nat -> Prop) (Pdec : forall i, {P i} + {~ P i}) l : exists k, (k <= l)%nat /\ (forall i, (i < k)%nat -> ~ P i) /\ ((k < l)%nat -> P k).
Proof.
  induction l as [|l (k & K1 & K2 & K3)]; [exists 0%nat; split; [lia|split; [intros; lia|lia]]|].
  destruct (Nat.eq_dec k l) as [->|N].
  - destruct (Pdec l) as [H|H].
    + exists l. split; [lia|]. split; auto.
    + exists (S l). split; [lia|]. split; [|lia]. intros i Hi. destruct (Nat.eq_dec i l) as [->|]; auto. apply K2. lia.
  - exists k. split; [lia|]. split; auto. intros _. apply K3. lia.
Qed.
Lemma expand l (V : rmatrix) (B : rmatrix) (x : nat -> R) i : orthogonal l V ->
  sumn l (fun j => B i j * x j) = sumn l (fun k => sumn l (fun q => B i q * V q k) * sumn l (fun j => V j k * x j)).
Proof.
  intros HV. transitivity (sumn l (fun k => sumn l (fun q => B i q * (V q k * sumn l (fun j => V j k * x j))))).
  - rewrite sumn_swap. apply sumn_ext. intros q Hq. rewrite sumn_scal. f_equal.
    assert (E := orth_VVt l V (fun j => RtoC (x j)) q HV Hq). apply (f_equal Re) in E. cbn [Re RtoC fst] in E. rewrite <- E.
    rewrite (mvC_lin Re) by apply linR_Re. apply sumn_ext. intros k Hk. f_equal. rewrite (mvC_lin Re) by apply linR_Re. reflexivity.
  - apply sumn_ext. intros k Hk. rewrite <- sumn_scal_r. apply sumn_ext. intros q Hq. ring.
Qed.
Lemma svd_reveals r l B V : rightSingular r l B V -> revealing r l B V.
Proof.
  intros (HV & U & s & HU & Hs & HA). split; auto.
  destruct (first_zero (fun i => (r <= i)%nat \/ s i = 0)) with (l := l) as (k & K1 & K2 & K3).
  { intros i. destruct (le_lt_dec r i); [left; left; auto|]. destruct (Req_EM_T (s i) 0); [left; auto|right; tauto || (intros [|]; [lia|auto])]. }
  exists k. split; auto. split.
  - intros x Hx i Hi. set (y := fun k => sumn l (fun j => V j k * x j)). change (y i = 0).
    assert (Hy : forall p, (p < r)%nat -> sumn (min r l) (fun j => U p j * (s j * y j)) = 0).
    { intros p Hp. rewrite <- (Hx p Hp). rewrite (expand l V B x p HV). fold y. assert (L : l = (min r l + (l - min r l))%nat) by lia. rewrite L at 2. rewrite sumn_split.
      rewrite (sumn_zero (l - min r l)).
      - rewrite Rplus_0_r. apply sumn_ext. intros j Hj. rewrite HA by lia. destruct (Nat.ltb_spec j r); [|lia]. unfold y. ring.
      - intros j Hj. rewrite HA by lia. destruct (Nat.ltb_spec (min r l + j) r); [lia|]. ring. }
    assert (N : ~ ((r <= i)%nat \/ s i = 0)) by auto. assert (Ir : (i < r)%nat) by (destruct (le_lt_dec r i); [exfalso; apply N; auto|auto]).
    assert (Z : s i * y i = 0).
    { pose (e := fun j => if (j <? min r l)%nat then s j * y j else 0).
      assert (E := orth_VtV r U (fun j => RtoC (e j)) i HU Ir).
      assert (Z1 : forall p, (p < r)%nat -> mvC r U (fun j => RtoC (e j)) p = 0%C).
      { intros p Hp. rewrite mvC_RtoC. rewrite <- (Hy p Hp). f_equal. assert (L : r = (min r l + (r - min r l))%nat) by lia. rewrite L at 1. rewrite sumn_split.
        rewrite (sumn_zero (r - min r l)).
        - rewrite Rplus_0_r. apply sumn_ext. intros j Hj. unfold e. destruct (Nat.ltb_spec j (min r l)); [auto|lia].
        - intros j Hj. unfold e. destruct (Nat.ltb_spec (min r l + j) (min r l)); [lia|ring]. }
      rewrite (mvC_zero r (Tr U) _ i Z1) in E. symmetry in E. apply RtoC_0 in E. unfold e in E. destruct (Nat.ltb_spec i (min r l)); [auto|lia]. }
    apply Rmult_integral in Z. destruct Z as [Z|Z]; auto. exfalso. apply N. auto.
  - intros i j Hj Hl Hi. rewrite HA by auto. destruct (Nat.ltb_spec j r); auto. destruct (K3 ltac:(lia)) as [Q|Q]; [lia|].
    pose proof (Hs k j Hj Hl ltac:(lia)). replace (s j) with 0 by lra. ring.
Qed.
Lemma qrt_reveals r l B V U P : pivotedQR l r (fun i j => B j i) V U P -> revealing r l B V.
Proof.
  intros (HP & HV & HU & HA & Hp). split; auto.
  (** (B V)(P_j, k) = U k j *)
  assert (BV : forall j k, (j < r)%nat -> (k < l)%nat -> sumn l (fun q => B (nth j P 0%nat) q * V q k) = U k j).
  { intros j k Hj Hk. rewrite (sumn_ext l _ (fun q => sumn l (fun i => V q i * U i j) * V q k)) by (intros q Hq; rewrite HA by auto; auto).
    rewrite (sumn_ext l _ (fun q => sumn l (fun i => U i j * (V q i * V q k)))) by (intros q Hq; rewrite <- sumn_scal_r; apply sumn_ext; intros; ring).
    rewrite sumn_swap. rewrite (sumn_single l k); auto.
    - rewrite sumn_scal. rewrite (proj1 (HV k k Hk Hk)), Nat.eqb_refl. ring.
    - intros i Hi Hne. rewrite sumn_scal. rewrite (proj1 (HV i k Hi Hk)). destruct (Nat.eqb_spec i k); [congruence|ring]. }
  destruct (first_zero (fun i => (r <= i)%nat \/ U i i = 0)) with (l := l) as (k & K1 & K2 & K3).
  { intros i. destruct (le_lt_dec r i); [left; left; auto|]. destruct (Req_EM_T (U i i) 0); [left; auto|right; intros [|]; [lia|auto]]. }
  exists k. split; auto. split.
  - intros x Hx. set (y := fun k => sumn l (fun j => V j k * x j)).
    assert (Hy : forall j, (j < r)%nat -> sumn l (fun i => U i j * y i) = 0).
    { intros j Hj. rewrite <- (Hx (nth j P 0%nat)).
      - rewrite (expand l V B x _ HV). apply sumn_ext. intros i Hi. rewrite BV by auto. reflexivity.
      - apply perm_range; auto. }
    assert (G : forall i, (i < k)%nat -> y i = 0).
    { induction i as [i IH] using (well_founded_induction lt_wf). intros Hi. assert (N : ~ ((r <= i)%nat \/ U i i = 0)) by auto. assert (Ir : (i < r)%nat) by (destruct (le_lt_dec r i); [exfalso; apply N; auto|auto]).
      pose proof (Hy i Ir) as E. rewrite (sumn_single l i) in E; [|lia|].
      - apply Rmult_integral in E. destruct E as [E|E]; auto. exfalso. apply N. auto.
      - intros q Hq Hne. destruct (lt_dec q i) as [L|L]; [rewrite IH by lia; ring|]. rewrite HU by lia. ring. }
    exact G.
  - intros i j Hj Hl Hi.
    assert (I : In i P) by (apply (Permutation_in _ (Permutation_sym HP)), in_seq; lia).
    apply In_nth with (d := 0%nat) in I. destruct I as (c & Hc & <-). rewrite (Permutation_length HP), seq_length in Hc. rewrite BV by auto.
    destruct (lt_dec c k) as [L|L]; [apply HU; lia|]. destruct (K3 ltac:(lia)) as [Q|Q]; [lia|].
    pose proof (Hp k c ltac:(lia) ltac:(lia) Hc) as S. rewrite Q in S. replace (0 * 0) with 0 in S by ring.
    assert (Z : sumn (l - k) (fun i => U (k + i)%nat c * U (k + i)%nat c) = 0) by (apply Rle_antisym; auto; apply sumn_nonneg; intros; nra).
    pose proof (sumsq_zero (l - k) (fun i => U (k + i)%nat c)) as S0. specialize (S0 Z (j - k)%nat ltac:(lia)). cbn beta in S0. replace (k + (j - k))%nat with j in S0 by lia. auto.
Qed.

(** ** The QR step *)
Section Reduce.
  Variables (X : lapack R) (rows N cut : nat) (M : rmatrix).
  Hypothesis HX : lapackOK X.
  Hypothesis Hcut : (cut <= N)%nat.
  Let l := (N - cut)%nat.
  Let M1 := @qrStep R R_num X rows cut M.
  Let Q := fst (lqr X rows cut M).
  Lemma qrStep_eq i j : (i < rows)%nat -> (j < N)%nat -> M1 i j = sumn rows (fun k => Q k i * M k j).
  Proof.
    intros Hi Hj. destruct HX as (HQ & _). specialize (HQ rows cut M). unfold M1, qrStep. fold Q in HQ. destruct (lqr X rows cut M) as [Q' U] eqn:E. cbn [fst snd] in *. fold Q.
    destruct (Nat.ltb_spec j cut) as [L|L]; [|rewrite msum_R; reflexivity]. destruct HQ as (HO & HU & HA).
    rewrite (sumn_ext rows _ (fun k => sumn rows (fun p => U p j * (Q k i * Q k p)))) by (intros k Hk; rewrite HA, <- sumn_scal by auto; apply sumn_ext; intros; ring).
    rewrite sumn_swap. rewrite (sumn_single rows i); auto.
    - rewrite sumn_scal, (proj1 (HO i i Hi Hi)), Nat.eqb_refl. ring.
    - intros p Hp Hne. rewrite sumn_scal, (proj1 (HO i p Hi Hp)). destruct (Nat.eqb_spec i p); [congruence|ring].
  Qed.
  Lemma qrStep_upper i j : (i < rows)%nat -> (j < cut)%nat -> (j < i)%nat -> M1 i j = 0.
  Proof.
    intros Hi Hj L. destruct HX as (HQ & _). specialize (HQ rows cut M). unfold M1, qrStep. destruct (lqr X rows cut M) as [Q' U]. cbn [fst snd] in *.
    destruct (Nat.ltb_spec j cut); [|lia]. apply HQ; auto.
  Qed.
  Lemma qrStep_null u : (forall i, (i < rows)%nat -> mvC N M u i = 0%C) -> forall i, (i < rows)%nat -> mvC N M1 u i = 0%C.
  Proof.
    intros H i Hi. rewrite (mvC_ext N M1 (fun i j => sumn rows (fun k => Tr Q i k * M k j)) u u) by (auto; intros j Hj; apply qrStep_eq; auto).
    rewrite <- mvC_mul. apply mvC_zero. auto.
  Qed.
  Lemma qrStep_null_back u : (forall i, (i < rows)%nat -> mvC N M1 u i = 0%C) -> forall i, (i < rows)%nat -> mvC N M u i = 0%C.
  Proof.
    intros H i Hi. assert (HO : orthogonal rows Q) by (destruct HX as (HQ & _); apply (HQ rows cut M)).
    rewrite <- (orth_VVt rows Q (mvC N M u) i HO Hi). apply mvC_zero. intros j Hj. rewrite mvC_mul. rewrite <- (H j Hj). apply mvC_ext; auto. intros c Hc. symmetry. apply qrStep_eq; auto.
  Qed.
  Let B : rmatrix := fun i j => M1 (cut + i)%nat (cut + j)%nat.
  Lemma split_mv u i : mvC N M1 u i = (csum cut (fun j => RtoC (M1 i j) * u j) + csum l (fun j => RtoC (M1 i (cut + j)%nat) * u (cut + j)%nat))%C.
  Proof. unfold mvC. replace N with (cut + l)%nat at 1 by (unfold l; lia). apply csum_split. Qed.
  Lemma low_null u : (forall i, (i < rows)%nat -> mvC N M1 u i = 0%C) -> forall i, (i < rows - cut)%nat -> mvC l B (fun j => u (cut + j)%nat) i = 0%C.
  Proof.
    intros H i Hi. specialize (H (cut + i)%nat ltac:(lia)). rewrite split_mv in H. rewrite csum_zero in H.
    - rewrite Cplus_0_l in H. exact H.
    - intros j Hj. rewrite qrStep_upper by lia. ring.
  Qed.

  (** *** svd and qrt *)
  Variables (getQ : nat -> nat -> rmatrix -> rmatrix) (bez : nat) (mc : R).
  Hypothesis Hrev : forall r c A, revealing r c A (getQ r c A).
  Hypothesis Hbez : (1 <= bez <= l)%nat.
  Let V := getQ (rows - cut)%nat l B.
  Lemma reduceWith_ok E Q2 : @reduceWith R R_num X getQ rows N M cut bez mc = MOk (E, Q2) ->
    (cut < rows)%nat /\ (forall i, (i < cut)%nat -> M1 i i <> 0) /\ Q2 = (fun i j => V i (l - bez + j)%nat) /\
    triSolved cut bez M1 (fun i j => sumn l (fun k => M1 i (cut + k)%nat * V k (l - bez + j)%nat)) E /\ lcond X rows cut M <> None.
  Proof.
    unfold reduceWith. fold l. fold M1. destruct (tooBig _ _) eqn:T; [discriminate|]. destruct (Nat.ltb_spec cut rows) as [L|L]; [|discriminate]. fold B. fold V.
    destruct HX as (_ & _ & _ & _ & HT & _). set (M3 := @colStep R R_num cut l V M1). specialize (HT cut bez M3 (fun i j => M3 i (N - bez + j)%nat)).
    destruct (ltri X cut bez M3 _) as [E'|]; [|discriminate]. intros H. injection H as -> <-. destruct HT as [Hd Ht].
    assert (M3l : forall i j, (j < cut)%nat -> M3 i j = M1 i j) by (intros i j Hj; unfold M3, colStep; destruct (Nat.leb_spec cut j); [lia|]; rewrite andb_false_r; auto).
    split; auto. split; [intros i Hi; rewrite <- M3l by auto; apply Hd; auto|]. split; auto. split.
    - intros i c Hi Hc. specialize (Ht i c Hi Hc). cbn beta in Ht. unfold M3 at 2 in Ht. unfold colStep in Ht. destruct (Nat.ltb_spec i cut); [|lia]. destruct (Nat.leb_spec cut (N - bez + c)); [|unfold l in *; lia]. cbn [andb] in Ht.
      rewrite msum_R in Ht. replace (N - bez + c - cut)%nat with (l - bez + c)%nat in Ht by (unfold l in *; lia). etransitivity; [|exact Ht]. apply sumn_ext. intros j Hj. destruct (i <=? j)%nat; auto. rewrite M3l by auto. reflexivity.
    - intros E0. rewrite E0 in T. discriminate.
  Qed.
  Section Reduced.
    Variables (E Q2 : rmatrix).
    Hypothesis Hok : @reduceWith R R_num X getQ rows N M cut bez mc = MOk (E, Q2).
    Hypothesis Hnull : nullityAtMost rows N M bez.
    Lemma reveal_rank k : (k <= l)%nat -> (forall i j, (k <= j)%nat -> (j < l)%nat -> (i < rows - cut)%nat -> sumn l (fun q => B i q * V q j) = 0) -> (l - bez <= k)%nat.
    Proof.
      intros Hk HB. destruct (le_lt_dec (l - bez) k) as [|Lt]; auto. exfalso.
      destruct (reduceWith_ok E Q2 Hok) as (Hr & Hd & _ & _ & _). assert (HV : orthogonal l V) by apply Hrev.
      set (k0 := (l - bez - 1)%nat).
      (** the columns k0 .. l-1 of V, completed to null vectors *)
      destruct HX as (_ & _ & _ & _ & HT & _). specialize (HT cut (S bez) M1 (fun i q => sumn l (fun k => M1 i (cut + k)%nat * V k (k0 + q)%nat))).
      destruct (ltri X cut (S bez) M1 _) as [G|]; [|destruct HT as (i & Hi & Z); apply (Hd i); auto]. destruct HT as [_ HT].
      destruct (Hnull (fun q j => if (j <? cut)%nat then - G j q else V (j - cut)%nat (k0 + q)%nat)) as (a & (q0 & Hq0 & Ha) & Hdep).
      { intros q i Hq Hi. apply RtoC_0. rewrite <- mvC_RtoC. revert i Hi. apply qrStep_null_back. intros i Hi. rewrite split_mv.
        rewrite (csum_ext cut _ (fun j => RtoC (M1 i j * - G j q))) by (intros j Hj; destruct (Nat.ltb_spec j cut); [|lia]; rewrite RtoC_mult; reflexivity).
        rewrite (csum_ext l _ (fun j => RtoC (M1 i (cut + j)%nat * V j (k0 + q)%nat))) by (intros j Hj; destruct (Nat.ltb_spec (cut + j) cut); [lia|]; replace (cut + j - cut)%nat with j by lia; rewrite RtoC_mult; reflexivity).
        rewrite (csum_RtoC cut (fun j => M1 i j * - G j q)), (csum_RtoC l (fun j => M1 i (cut + j)%nat * V j (k0 + q)%nat)), <- RtoC_plus. f_equal.
        destruct (lt_dec i cut) as [L|L].
        - rewrite <- (HT i q L ltac:(lia)). rewrite <- sumn_plus. apply sumn_zero. intros j Hj. destruct (Nat.leb_spec i j); [ring|]. rewrite qrStep_upper by lia. ring.
        - rewrite (sumn_zero cut) by (intros j Hj; rewrite qrStep_upper by lia; ring). rewrite Rplus_0_l.
          pose proof (HB (i - cut)%nat (k0 + q)%nat ltac:(unfold k0; lia) ltac:(unfold k0; lia) ltac:(lia)) as Z. unfold B in Z. replace (cut + (i - cut))%nat with i in Z by lia. exact Z. }
      apply Ha. assert (Ind : forall i, (i < l)%nat -> sumn (S bez) (fun q => a q * V i (k0 + q)%nat) = 0).
      { intros i Hi. rewrite <- (Hdep (cut + i)%nat ltac:(unfold l in *; lia)). apply sumn_ext. intros q Hq. destruct (Nat.ltb_spec (cut + i) cut); [lia|]. replace (cut + i - cut)%nat with i by lia. reflexivity. }
      transitivity (sumn (S bez) (fun q => a q * (if Nat.eqb (k0 + q) (k0 + q0) then 1 else 0))).
      - rewrite (sumn_single (S bez) q0); [|lia|intros q Hq Hne; destruct (Nat.eqb_spec (k0 + q) (k0 + q0)); [lia|ring]]. rewrite Nat.eqb_refl. ring.
      - rewrite (sumn_ext (S bez) _ (fun q => sumn l (fun i => a q * (V i (k0 + q)%nat * V i (k0 + q0)%nat)))) by (intros q Hq; rewrite sumn_scal; f_equal; symmetry; apply (HV (k0 + q)%nat (k0 + q0)%nat); unfold k0; lia).
        rewrite sumn_swap. apply sumn_zero. intros i Hi.
        rewrite (sumn_ext (S bez) _ (fun q => (a q * V i (k0 + q)%nat) * V i (k0 + q0)%nat)) by (intros; ring). rewrite sumn_scal_r, Ind by auto. ring.
    Qed.
    Variable u : nat -> C.
    Hypothesis Hu : forall i, (i < rows)%nat -> mvC N M u i = 0%C.
    Definition wOf (j : nat) : C := csum l (fun i => RtoC (Q2 i j) * u (cut + i)%nat)%C.
    Lemma reduce_low i : (i < l)%nat -> u (cut + i)%nat = mvC bez Q2 wOf i.
    Proof.
      intros Hi. destruct (reduceWith_ok E Q2 Hok) as (Hr & Hd & EQ & _ & _). destruct (Hrev (rows - cut)%nat l B) as (HV & k & K1 & K2 & K3). fold V in HV, K2, K3.
      pose proof (reveal_rank k K1 (fun i j A B C => K3 i j A B C)) as Kb.
      set (y := mvC l (Tr V) (fun j => u (cut + j)%nat)).
      assert (Y : forall p, (p < l - bez)%nat -> y p = 0%C).
      { intros p Hp. pose proof (low_null u (qrStep_null u Hu)) as Z. unfold y. assert (G : forall f, linR f -> f (mvC l (Tr V) (fun j => u (cut + j)%nat) p) = 0).
        { intros f Hf. rewrite (mvC_lin f) by auto. apply (K2 (fun j => f (u (cut + j)%nat))); [|lia]. intros q Hq. rewrite <- (mvC_lin f l B (fun j => u (cut + j)%nat) q Hf). rewrite (Z q Hq). apply linR_0; auto. }
        apply C_ext; [rewrite (G Re linR_Re)|rewrite (G Im linR_Im)]; reflexivity. }
      rewrite <- (orth_VVt l V (fun j => u (cut + j)%nat) i HV Hi). fold y. unfold mvC at 1. assert (L : l = (l - bez + bez)%nat) by lia. rewrite L at 1. rewrite csum_split.
      rewrite csum_zero by (intros p Hp; rewrite Y by auto; ring). rewrite Cplus_0_l. unfold mvC. apply csum_ext. intros j Hj. rewrite EQ. f_equal. unfold y, mvC, wOf. apply csum_ext. intros p Hp. rewrite EQ. reflexivity.
    Qed.
    Lemma reduce_high i : (i < cut)%nat -> u i = (- mvC bez E wOf i)%C.
    Proof.
      destruct (reduceWith_ok E Q2 Hok) as (Hr & Hd & EQ & HT & _). revert i. apply (tri_back cut bez M1 _ E u wOf Hd HT). intros i Hi.
      etransitivity; [|exact (qrStep_null u Hu i ltac:(lia))]. rewrite split_mv. f_equal.
      - apply csum_ext. intros j Hj. destruct (Nat.leb_spec i j); auto. rewrite qrStep_upper by lia. ring.
      - rewrite (csum_ext l _ (fun j => RtoC (M1 i (cut + j)%nat) * mvC bez Q2 wOf j)%C) by (intros j Hj; rewrite <- reduce_low by auto; auto).
        change (csum l (fun j => RtoC (M1 i (cut + j)%nat) * mvC bez Q2 wOf j)%C) with (mvC l (fun i j => M1 i (cut + j)%nat) (mvC bez Q2 wOf) i). rewrite mvC_mul. rewrite EQ. reflexivity.
    Qed.
  End Reduced.
End Reduce.
