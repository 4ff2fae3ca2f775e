(** * Properties of householder, condeig and condeigs (C92) *)
From Coq Require Import List Arith Bool Reals Lia Lra.
From Coquelicot Require Import Complex.
From Coq Require Import List.
From Verif Require Import Num RSum OneDSpec OneDModel OneDProofs CondModel CondProofs.
Import ListNotations.
Local Open Scope R_scope.
Local Open Scope C_scope.

(** ** Specification ([inner] y^H x, [cnorm], [mv] M x, [adj] M^H, [inverse] M N = I are in CondModel.v and CondProofs.v) *)
Definition nonzero (n : nat) (x : cvec) : Prop := exists i, (i < n)%nat /\ x i <> 0.
(** A x = eig x *)
Definition rightEig (n : nat) (A : cmat) (eig : C) (x : cvec) : Prop := forall i, (i < n)%nat -> csum n (fun j => A i j * x j) = eig * x i.
(** y^H A = eig y^H *)
Definition leftEig (n : nat) (A : cmat) (eig : C) (y : cvec) : Prop := forall j, (j < n)%nat -> csum n (fun i => Cconj (y i) * A i j) = eig * Cconj (y j).
(** qr of m x m matrices: M = P R with P unitary (that R is triangular is not needed) *)
Definition qrOK (m : nat) (qrR : nat -> cmat -> cmat) : Prop :=
  forall M, exists P, inverse m (adj P) P /\ inverse m P (adj P) /\ forall i j, (i < m)%nat -> (j < m)%nat -> M i j = csum m (fun k => P i k * qrR m M k j).
(** solve_triangular(R, b, trans=2): the answer solves R^H v = b; no answer precisely for a singular matrix *)
Definition kernelTrivial (m : nat) (R : cmat) : Prop := forall t, (forall j, (j < m)%nat -> csum m (fun i => Cconj (R i j) * t i) = 0) -> forall i, (i < m)%nat -> t i = 0.
Definition triOK (m : nat) (solveTri : nat -> cmat -> cvec -> option cvec) : Prop :=
  forall R b, (forall v, solveTri m R b = Some v -> forall j, (j < m)%nat -> csum m (fun i => Cconj (R i j) * v i) = b j) /\ (solveTri m R b <> None <-> kernelTrivial m R).

(** C92: the reflector is Hermitian and unitary and sends x to a multiple of the first unit vector, of the same length. *)
Theorem C92_householder : forall n x, (1 <= n)%nat -> nonzero n x -> exists Q, householder n x = Some Q /\
  (forall i j, Q j i = Cconj (Q i j)) /\ inverse n Q (adj Q) /\ inverse n (adj Q) Q /\
  exists k, Cmod k = cnorm n x /\ forall i, (i < n)%nat -> mv n Q x i = match i with O => k | S _ => 0 end.
Proof.
  intros n x Hn Hx. eexists. split; [apply house_eq; auto|]. split; [intros; apply house_herm|]. split; [|split].
  - intros i j Hi Hj. rewrite <- (house_inverse n x Hn Hx i j Hi Hj). apply csum_ext. intros k Hk. rewrite house_adj. reflexivity.
  - apply house_unitary; auto.
  - exists (- (phase (x 0%nat) * RtoC (cnorm n x))). split; [|intros i Hi; apply house_x; auto]. rewrite Cmod_opp, Cmod_mult, phase_mod, Cmod_R, Rabs_pos_eq by apply cnorm_pos. ring.
Qed.
Print Assumptions C92_householder.
(** Only the zero vector has no reflector. *)
Theorem C92_householder_of_zero : forall n x, (1 <= n)%nat -> householder n x = None <-> ~ nonzero n x.
Proof.
  intros n x Hn. split.
  - intros E N. rewrite (house_eq n x Hn N) in E. discriminate.
  - intros N. assert (Z : forall i, (i < n)%nat -> x i = 0) by (intros i Hi; destruct (Ceq_dec (x i) 0); auto; exfalso; apply N; exists i; auto).
    unfold householder. assert (E : cnorm n x = 0%R) by (apply cnorm_0; auto). rewrite E.
    destruct Req_EM_T as [_|F]; [reflexivity|]. exfalso. apply F. apply cnorm_0. intros [|i] Hi; rewrite Z by auto; [ring|auto].
Qed.
Print Assumptions C92_householder_of_zero.

Section Conj.
  Variables (n : nat) (A Q : cmat) (eig : C) (x : cvec) (k : C).
  Hypothesis Hn : (1 <= n)%nat.
  Hypothesis Hherm : forall i j, Q j i = Cconj (Q i j).
  Hypothesis Hinv : inverse n Q Q.
  Hypothesis Hk : k <> 0.
  Hypothesis HQ : forall i, (i < n)%nat -> mv n Q x i = match i with O => k | S _ => 0 end.
  Let B := conjugated n Q A.
  Lemma Q_unit : inverse n (adj Q) Q.
  Proof. intros i j Hi Hj. rewrite <- (Hinv i j Hi Hj). apply csum_ext. intros l Hl. unfold adj. rewrite <- Hherm. reflexivity. Qed.
  Lemma first_col l : (l < n)%nat -> Q l 0%nat * k = x l.
  Proof.
    intros Hl. rewrite <- (mv_inverse n Q Q x l Hinv Hl). unfold mv at 1. rewrite (csum_one n _ 0%nat); [rewrite HQ by lia; reflexivity|lia|]. intros j Hj Nj. rewrite HQ by auto. destruct j; [congruence|ring].
  Qed.
  Lemma B_col : rightEig n A eig x -> forall i, (i < n)%nat -> B i 0%nat = match i with O => eig | S _ => 0 end.
  Proof.
    intros HA i Hi. assert (E : B i 0%nat * k = eig * mv n Q x i).
    { unfold B, conjugated. rewrite <- csum_scal_r. rewrite (csum_ext n _ (fun l => csum n (fun h => Cconj (Q h i) * A h l * x l))).
      - rewrite csum_swap. unfold mv. rewrite <- csum_scal. apply csum_ext. intros h Hh. rewrite (csum_ext n _ (fun l => Cconj (Q h i) * (A h l * x l))) by (intros; ring). rewrite csum_scal, HA by auto. rewrite <- Hherm. ring.
      - intros l Hl. rewrite <- Cmult_assoc, first_col by auto. rewrite <- csum_scal_r. reflexivity. }
    rewrite HQ in E by auto. replace (B i 0%nat) with (B i 0%nat * k / k) by (field; auto). rewrite E. destruct i; field; auto.
  Qed.
  (** y^H A Q = (Q y)^H B *)
  Lemma B_left z j : csum n (fun i => Cconj (z i) * B i j) = csum n (fun l => csum n (fun h => Cconj (mv n Q z h) * A h l) * Q l j).
  Proof.
    unfold B, conjugated. rewrite (csum_ext n _ (fun i => csum n (fun l => csum n (fun h => Cconj (z i) * Cconj (Q h i) * A h l) * Q l j))).
    - rewrite csum_swap. apply csum_ext. intros l Hl. rewrite csum_scal_r. f_equal. rewrite csum_swap. apply csum_ext. intros h Hh. rewrite csum_scal_r. f_equal.
      unfold mv. rewrite conj_csum. apply csum_ext. intros i Hi. rewrite conj_mult. ring.
    - intros i Hi. rewrite <- csum_scal. apply csum_ext. intros l Hl. rewrite Cmult_assoc, <- csum_scal. f_equal. apply csum_ext. intros; ring.
  Qed.
  Lemma conj_mv z j : csum n (fun l => Cconj (z l) * Q l j) = Cconj (mv n Q z j).
  Proof. unfold mv. rewrite conj_csum. apply csum_ext. intros l Hl. rewrite conj_mult, <- Hherm. ring. Qed.
  Lemma left_iff y : leftEig n A eig (mv n Q y) <-> leftEig n B eig y.
  Proof.
    split.
    - intros H j Hj. rewrite B_left. rewrite (csum_ext n _ (fun l => eig * (Cconj (mv n Q y l) * Q l j))) by (intros l Hl; rewrite H by auto; ring). rewrite csum_scal, conj_mv, mv_inverse by auto. reflexivity.
    - intros H l Hl.
      set (r := fun l => csum n (fun h => Cconj (mv n Q y h) * A h l) - eig * Cconj (mv n Q y l)).
      assert (Z : forall j, (j < n)%nat -> csum n (fun l => r l * Q l j) = 0).
      { intros j Hj. unfold r. rewrite (csum_ext n _ (fun l => csum n (fun h => Cconj (mv n Q y h) * A h l) * Q l j - eig * (Cconj (mv n Q y l) * Q l j))) by (intros; ring).
        rewrite csum_minus, csum_scal, conj_mv, mv_inverse, <- B_left, H by auto. ring. }
      assert (R0 : r l = 0).
      { rewrite <- (csum_delta n l r Hl). rewrite (csum_ext n _ (fun m => csum n (fun j => r m * Q m j * Q j l))).
        - rewrite csum_swap. apply csum_zero. intros j Hj. rewrite csum_scal_r, Z by auto. ring.
        - intros m Hm. replace (delta l m) with (delta m l) by (unfold delta; rewrite Nat.eqb_sym; reflexivity). rewrite <- (Hinv m l Hm Hl). rewrite Cmult_comm, <- csum_scal. apply csum_ext. intros; ring. }
      unfold r in R0. replace (csum n (fun i => Cconj (mv n Q y i) * A i l)) with (eig * Cconj (mv n Q y l) + (csum n (fun h => Cconj (mv n Q y h) * A h l) - eig * Cconj (mv n Q y l))) by ring. rewrite R0. ring.
  Qed.
End Conj.

(** the left eigenvectors of [[eig, b], [0, B1]]: z' (B1 - eig) = - z_0 b *)
Lemma block_left m (B : cmat) (eig : C) (z : cvec) : (forall i, (i < S m)%nat -> B i 0%nat = match i with O => eig | S _ => 0 end) ->
  (leftEig (S m) B eig z <-> forall j, (j < m)%nat -> csum m (fun i => Cconj (z (S i)) * (B (S i) (S j) - eig * (if Nat.eqb i j then 1 else 0))) = - (Cconj (z 0%nat) * B 0%nat (S j))).
Proof.
  intros HB. assert (E : forall j, (j < m)%nat -> csum m (fun i => Cconj (z (S i)) * (B (S i) (S j) - eig * (if Nat.eqb i j then 1 else 0))) = csum (S m) (fun i => Cconj (z i) * B i (S j)) - Cconj (z 0%nat) * B 0%nat (S j) - eig * Cconj (z (S j))).
  { intros j Hj. rewrite csum_first. rewrite (csum_ext m _ (fun i => Cconj (z (S i)) * B (S i) (S j) - eig * (delta j i * Cconj (z (S i))))).
    - rewrite csum_minus, csum_scal, csum_delta by auto. ring.
    - intros i Hi. unfold delta. rewrite (Nat.eqb_sym j i). ring. }
  split.
  - intros H j Hj. rewrite E by auto. rewrite H by lia. ring.
  - intros H j Hj. destruct j as [|j].
    + rewrite (csum_one (S m) _ 0%nat); [rewrite HB by lia; ring|lia|]. intros i Hi Ni. rewrite HB by auto. destruct i; [congruence|ring].
    + specialize (H j ltac:(lia)). rewrite E in H by lia. replace (csum (S m) (fun i => Cconj (z i) * B i (S j))) with (csum (S m) (fun i => Cconj (z i) * B i (S j)) - Cconj (z 0%nat) * B 0%nat (S j) - eig * Cconj (z (S j)) + Cconj (z 0%nat) * B 0%nat (S j) + eig * Cconj (z (S j))) by ring. rewrite H. ring.
Qed.
(** ... through M = P R: R^H (P^H z') = - conj(z_0 b) *)
Lemma through_qr m (M P R : cmat) (z : cvec) j : (forall i j, (i < m)%nat -> (j < m)%nat -> M i j = csum m (fun k => P i k * R k j)) -> (j < m)%nat ->
  csum m (fun i => Cconj (z i) * M i j) = Cconj (csum m (fun k => Cconj (R k j) * mv m (adj P) z k)).
Proof.
  intros HM Hj. rewrite (csum_ext m _ (fun i => csum m (fun k => Cconj (z i) * P i k * R k j))) by (intros i Hi; rewrite HM by auto; rewrite <- csum_scal; apply csum_ext; intros; ring).
  rewrite csum_swap, conj_csum. apply csum_ext. intros k Hk. rewrite csum_scal_r, conj_mult, conj_conj. rewrite Cmult_comm. f_equal. unfold mv, adj. rewrite conj_csum. apply csum_ext. intros i Hi. rewrite conj_mult, conj_conj. ring.
Qed.

Section Cond.
  Variables (qrR : nat -> cmat -> cmat) (solveTri : nat -> cmat -> cvec -> option cvec) (svdMin : nat -> cmat -> R).
  Variable m : nat.
  Hypothesis Hqr : qrOK m qrR.
  Hypothesis Htri : triOK m solveTri.
  Variables (A : cmat) (eig : C) (x : cvec).
  Hypothesis Hx : nonzero (S m) x.
  Hypothesis HA : rightEig (S m) A eig x.
  Let n := S m.
  Lemma cond_unfold : exists Q P R k, (forall i j, Q j i = Cconj (Q i j)) /\ inverse n Q Q /\ Cmod k = cnorm n x /\ k <> 0 /\
    (forall i, (i < n)%nat -> mv n Q x i = match i with O => k | S _ => 0 end) /\
    inverse m (adj P) P /\ inverse m P (adj P) /\
    (forall i j, (i < m)%nat -> (j < m)%nat -> conjugated n Q A (S i) (S j) - eig * (if Nat.eqb i j then 1 else 0) = csum m (fun k => P i k * R k j)) /\
    condeig qrR solveTri svdMin n A eig x = match solveTri m R (fun i => - Cconj (conjugated n Q A 0%nat (S i))) with None => CLinAlg | Some v => COk (sqrt (1 + cnorm m v * cnorm m v))%R end.
  Proof.
    destruct (C92_householder n x ltac:(lia) Hx) as (Q & E & Hh & HI & _ & k & Hk & HQ).
    destruct (Hqr (fun i j => conjugated n Q A (S i) (S j) - eig * (if Nat.eqb i j then 1 else 0))) as (P & P1 & P2 & P3).
    exists Q, P, (qrR m (fun i j => conjugated n Q A (S i) (S j) - eig * (if Nat.eqb i j then 1 else 0))), k. split; [auto|]. split; [|split; [auto|split; [|split; [auto|split; [auto|split; [auto|split; [auto|]]]]]]].
    - intros i j Hi Hj. rewrite <- (HI i j Hi Hj). apply csum_ext. intros l Hl. unfold adj. rewrite <- Hh. reflexivity.
    - intros K. rewrite K, Cmod_0 in Hk. symmetry in Hk. rewrite cnorm_0 in Hk. destruct Hx as (i & Hi & N). apply N. auto.
    - unfold condeig, condeigPair. rewrite E. replace (n - 1)%nat with m by (unfold n; lia). destruct solveTri; reflexivity.
  Qed.
  Lemma cond_value c : condeig qrR solveTri svdMin n A eig x = COk c ->
    (exists y, leftEig n A eig y /\ inner n y x <> 0) /\
    forall y, leftEig n A eig y -> inner n y x <> 0 -> c = (cnorm n y * cnorm n x / Cmod (inner n y x))%R.
  Proof.
    destruct cond_unfold as (Q & P & R & k & Hh & HI & Hk & K0 & HQ & P1 & P2 & P3 & E). rewrite E. intros EC.
    set (B := conjugated n Q A) in *. destruct (solveTri m R (fun i => - Cconj (B 0%nat (S i)))) as [v|] eqn:ES; [|discriminate].
    assert (c = sqrt (1 + cnorm m v * cnorm m v)) as -> by congruence. clear EC E.
    destruct (Htri R (fun i => - Cconj (B 0%nat (S i)))) as [T1 T2]. specialize (T1 v ES). assert (KT : kernelTrivial m R) by (apply T2; rewrite ES; discriminate).
    pose proof (B_col n A Q eig x k ltac:(lia) Hh HI K0 HQ HA) as BC.
    pose proof (Q_unit n Q Hh HI) as QU.
    (* inner products with x *)
    assert (IX : forall y, inner n y x = Cconj (mv n Q y 0%nat) * k).
    { intros y. rewrite <- (inner_unitary n Q y x QU). unfold inner. rewrite (csum_one n _ 0%nat); [rewrite HQ by lia; reflexivity|lia|]. intros i Hi Ni. rewrite HQ by auto. destruct i; [congruence|ring]. }
    (* a vector with z_0 = s is a left eigenvector when P^H z' = s v *)
    assert (LZ : forall z, leftEig n B eig z <-> forall i, (i < m)%nat -> mv m (adj P) (fun i => z (S i)) i = z 0%nat * v i).
    { intros z. unfold n in *. rewrite (block_left m B eig z BC). split.
      - intros H. assert (G : forall i, (i < m)%nat -> mv m (adj P) (fun i => z (S i)) i - z 0%nat * v i = 0).
        { apply KT. intros j Hj. rewrite (csum_ext m _ (fun i => Cconj (R i j) * mv m (adj P) (fun i => z (S i)) i - z 0%nat * (Cconj (R i j) * v i))) by (intros; ring). rewrite csum_minus, csum_scal, T1 by auto.
          specialize (H j Hj). rewrite (through_qr m (fun i j => B (S i) (S j) - eig * (if Nat.eqb i j then 1 else 0)) P R (fun i => z (S i)) j P3 Hj) in H.
          apply (f_equal Cconj) in H. rewrite conj_conj in H. rewrite H. rewrite conj_opp, conj_mult, conj_conj. ring. }
        intros i Hi. replace (mv m (adj P) (fun i => z (S i)) i) with (mv m (adj P) (fun i => z (S i)) i - z 0%nat * v i + z 0%nat * v i) by ring. rewrite G by auto. ring.
      - intros H j Hj. rewrite (through_qr m (fun i j => B (S i) (S j) - eig * (if Nat.eqb i j then 1 else 0)) P R (fun i => z (S i)) j P3 Hj).
        rewrite (csum_ext m _ (fun i => z 0%nat * (Cconj (R i j) * v i))) by (intros i Hi; rewrite H by auto; ring). rewrite csum_scal, T1 by auto. rewrite conj_mult, conj_opp, conj_conj. ring. }
    assert (PA : inverse m (adj (adj P)) (adj P)). { intros i j Hi Hj. rewrite <- (P2 i j Hi Hj). apply csum_ext. intros l Hl. rewrite adj_adj. reflexivity. }
    split.
    - set (z := fun i => match i with O => RtoC 1 | S i' => mv m P v i' end). exists (mv n Q z). split.
      + apply (left_iff n A Q eig Hh HI). apply LZ. intros i Hi. change (mv m (adj P) (mv m P v) i = 1 * v i). rewrite (mv_inverse m (adj P) P v i P1 Hi). ring.
      + rewrite IX. rewrite (mv_inverse n Q Q z 0%nat HI) by lia. cbn. rewrite conj_R. intros F. apply K0. rewrite <- F. ring.
    - intros y Hy Ny. set (z := mv n Q y).
      assert (Ly : leftEig n B eig z).
      { apply (left_iff n A Q eig Hh HI). intros j Hj. rewrite (csum_ext n _ (fun i => Cconj (y i) * A i j)) by (intros i Hi; unfold z; rewrite mv_inverse by auto; reflexivity). unfold z. rewrite mv_inverse by auto. apply Hy. auto. }
      pose proof (proj1 (LZ z) Ly) as Hz. rewrite IX in *. fold z in Ny |- *.
      assert (N0 : z 0%nat <> 0) by (intros F; apply Ny; rewrite F, conj_R; ring).
      assert (NZ : (cnorm n y * cnorm n y = Cmod (z 0%nat) * Cmod (z 0%nat) * (1 + cnorm m v * cnorm m v))%R).
      { rewrite <- (norm_unitary n Q y QU). fold z. apply RtoC_inj. rewrite <- inner_self. unfold inner, n. rewrite csum_first. fold (inner m (fun i => z (S i)) (fun i => z (S i))).
        rewrite <- (inner_unitary m (adj P) _ _ PA). rewrite (inner_ext m _ (fun i => z 0%nat * v i) _ (fun i => z 0%nat * v i) Hz Hz). rewrite conj_sq.
        replace (inner m (fun i => z 0%nat * v i) (fun i => z 0%nat * v i)) with (Cconj (z 0%nat) * z 0%nat * inner m v v).
        - rewrite conj_sq, inner_self. rewrite !RtoC_mult, !RtoC_plus, !RtoC_mult. ring.
        - unfold inner. rewrite <- csum_scal. apply csum_ext. intros i Hi. rewrite conj_mult. ring. }
      assert (Z0 : (0 < Cmod (z 0%nat))%R) by (apply Cmod_gt_0; auto).
      assert (S0 : (0 <= 1 + cnorm m v * cnorm m v)%R) by (pose proof (Rle_0_sqr (cnorm m v)); unfold Rsqr in *; lra).
      assert (NY : (cnorm n y = Cmod (z 0%nat) * sqrt (1 + cnorm m v * cnorm m v))%R).
      { apply Rsqr_inj; [apply cnorm_pos|apply Rmult_le_pos; [lra|apply sqrt_pos]|]. unfold Rsqr. rewrite NZ. replace (Cmod (z 0%nat) * sqrt (1 + cnorm m v * cnorm m v) * (Cmod (z 0%nat) * sqrt (1 + cnorm m v * cnorm m v)))%R with (Cmod (z 0%nat) * Cmod (z 0%nat) * (sqrt (1 + cnorm m v * cnorm m v) * sqrt (1 + cnorm m v * cnorm m v)))%R by ring. rewrite sqrt_sqrt; auto. }
      rewrite NY, Cmod_mult, Hk. assert (CM : Cmod (Cconj (z 0%nat)) = Cmod (z 0%nat)) by (unfold Cmod, Cconj; cbn [fst snd]; f_equal; ring). rewrite CM. field. split; [|lra]. rewrite <- Hk. intros F. apply K0, Cmod_eq_0. auto.
  Qed.
  Lemma cond_singular : condeig qrR solveTri svdMin n A eig x = CLinAlg <-> exists y, nonzero n y /\ leftEig n A eig y /\ inner n y x = 0.
  Proof.
    destruct cond_unfold as (Q & P & R & k & Hh & HI & Hk & K0 & HQ & P1 & P2 & P3 & E). rewrite E.
    set (B := conjugated n Q A) in *. destruct (Htri R (fun i => - Cconj (B 0%nat (S i)))) as [_ T2].
    pose proof (B_col n A Q eig x k ltac:(lia) Hh HI K0 HQ HA) as BC. pose proof (Q_unit n Q Hh HI) as QU.
    assert (IX : forall y, inner n y x = Cconj (mv n Q y 0%nat) * k).
    { intros y. rewrite <- (inner_unitary n Q y x QU). unfold inner. rewrite (csum_one n _ 0%nat); [rewrite HQ by lia; reflexivity|lia|]. intros i Hi Ni. rewrite HQ by auto. destruct i; [congruence|ring]. }
    assert (PA : inverse m (adj (adj P)) (adj P)). { intros i j Hi Hj. rewrite <- (P2 i j Hi Hj). apply csum_ext. intros l Hl. rewrite adj_adj. reflexivity. }
    transitivity (~ kernelTrivial m R).
    { rewrite <- T2. destruct solveTri; split; intros H; try discriminate; auto. exfalso. apply H. discriminate. }
    split.
    - intros NK.
      assert (X : exists t, nonzero m t /\ forall j, (j < m)%nat -> csum m (fun i => Cconj (R i j) * t i) = 0).
      { apply Classical_Prop.NNPP. intros NX. apply NK. intros t Ht i Hi. apply Classical_Prop.NNPP. intros Ni. apply NX. exists t. split; auto. exists i; auto. }
      destruct X as (t & (i0 & Hi0 & N0) & Ht). set (z := fun i => match i with O => RtoC 0 | S i' => mv m P t i' end).
      exists (mv n Q z). split; [|split].
      + 
        apply Classical_Prop.NNPP. intros NN. assert (Z : forall i, (i < n)%nat -> mv n Q z i = 0) by (intros i Hi; destruct (Ceq_dec (mv n Q z i) 0); auto; exfalso; apply NN; exists i; auto).
        assert (Z2 : forall i, (i < n)%nat -> z i = 0) by (intros i Hi; rewrite <- (mv_inverse n Q Q z i HI Hi); unfold mv at 1; apply csum_zero; intros j Hj; rewrite Z by auto; ring).
        apply N0. rewrite <- (mv_inverse m (adj P) P t i0 P1 Hi0). unfold mv at 1. apply csum_zero. intros j Hj. change (mv m P t j) with (z (S j)). rewrite Z2 by (unfold n; lia). ring.
      + apply (left_iff n A Q eig Hh HI). unfold n in *. apply (block_left m B eig z BC). intros j Hj.
        rewrite (through_qr m (fun i j => B (S i) (S j) - eig * (if Nat.eqb i j then 1 else 0)) P R (fun i => z (S i)) j P3 Hj).
        rewrite (csum_ext m _ (fun i => Cconj (R i j) * t i)) by (intros i Hi; change (Cconj (R i j) * mv m (adj P) (mv m P t) i = Cconj (R i j) * t i); rewrite (mv_inverse m (adj P) P t i P1 Hi); reflexivity).
        rewrite Ht by auto. unfold z. rewrite !conj_R. ring.
      + rewrite IX, (mv_inverse n Q Q z 0%nat HI) by lia. cbn. rewrite conj_R. ring.
    - intros (y & Ny & Hy & Iy) KT. set (z := mv n Q y). rewrite IX in Iy. fold z in Iy.
      assert (Z0 : z 0%nat = 0). { rewrite <- (conj_conj (z 0%nat)), <- (conj_R 0). f_equal. replace (Cconj (z 0%nat)) with (Cconj (z 0%nat) * k / k) by (field; auto). rewrite Iy. field. auto. }
      assert (Ly : leftEig n B eig z).
      { apply (left_iff n A Q eig Hh HI). intros j Hj. rewrite (csum_ext n _ (fun i => Cconj (y i) * A i j)) by (intros i Hi; unfold z; rewrite mv_inverse by auto; reflexivity). unfold z. rewrite mv_inverse by auto. apply Hy. auto. }
      unfold n in *. pose proof (proj1 (block_left m B eig z BC) Ly) as H.
      assert (T0 : forall i, (i < m)%nat -> mv m (adj P) (fun i => z (S i)) i = 0).
      { apply KT. intros j Hj. specialize (H j Hj). rewrite (through_qr m (fun i j => B (S i) (S j) - eig * (if Nat.eqb i j then 1 else 0)) P R (fun i => z (S i)) j P3 Hj) in H. rewrite Z0 in H.
        apply (f_equal Cconj) in H. rewrite conj_conj in H. rewrite H, conj_R. rewrite conj_opp, conj_mult, conj_R. ring. }
      destruct Ny as (i & Hi & Ni). apply Ni. rewrite <- (mv_inverse (S m) Q Q y i HI Hi). unfold mv at 1. apply csum_zero. intros j Hj. fold z. destruct j as [|j]; [rewrite Z0; ring|].
      assert (ZS : z (S j) = 0). { rewrite <- (mv_inverse m P (adj P) (fun i => z (S i)) j P2) by lia. unfold mv at 1. apply csum_zero. intros l Hl. rewrite T0 by auto. ring. }
      rewrite ZS. ring.
  Qed.
End Cond.

(** ** condeig *)
(** C92: the docstring's condition number.  Whenever condeig answers, a left eigenvector y not orthogonal to x exists, and the answer is
    |y| |x| / |y^H x| for every such y. *)
Theorem C92_condition_number : forall qrR solveTri svdMin n A eig x c, qrOK (n - 1) qrR -> triOK (n - 1) solveTri -> (2 <= n)%nat ->
  nonzero n x -> rightEig n A eig x -> condeig qrR solveTri svdMin n A eig x = COk c ->
  (exists y, leftEig n A eig y /\ inner n y x <> 0) /\
  forall y, leftEig n A eig y -> inner n y x <> 0 -> c = (cnorm n y * cnorm n x / Cmod (inner n y x))%R.
Proof. intros qrR solveTri svdMin [|m] A eig x c H1 H2 Hn Hx HA E; [lia|]. replace (S m - 1)%nat with m in * by lia. eapply cond_value; eauto. Qed.
Print Assumptions C92_condition_number.

(** C92: it raises LinAlgError precisely when the condition number is infinite, i.e. when a left eigenvector is orthogonal to x ... *)
Theorem C92_infinite_condition_number : forall qrR solveTri svdMin n A eig x, qrOK (n - 1) qrR -> triOK (n - 1) solveTri -> (2 <= n)%nat ->
  nonzero n x -> rightEig n A eig x ->
  condeig qrR solveTri svdMin n A eig x = CLinAlg <-> exists y, nonzero n y /\ leftEig n A eig y /\ inner n y x = 0.
Proof. intros qrR solveTri svdMin [|m] A eig x H1 H2 Hn Hx HA; [lia|]. replace (S m - 1)%nat with m in * by lia. eapply cond_singular; eauto. Qed.
Print Assumptions C92_infinite_condition_number.
(** ... and ValueError precisely for the zero vector. *)
Theorem C92_zero_vector : forall qrR solveTri svdMin n A eig x, (2 <= n)%nat -> condeig qrR solveTri svdMin n A eig x = CValueError <-> ~ nonzero n x.
Proof.
  intros qrR solveTri svdMin n A eig x Hn. rewrite <- (C92_householder_of_zero n x) by lia. unfold condeig, condeigPair. destruct householder; [|tauto].
  destruct solveTri; split; intros F; discriminate F.
Qed.
Print Assumptions C92_zero_vector.

(** ** condvec=True *)
(** the smallest singular value: the least |M w| / |w| *)
Definition svdOK (m : nat) (svdMin : nat -> cmat -> R) : Prop := forall M,
  (forall w, (svdMin m M * cnorm m w <= cnorm m (mv m M w))%R) /\ exists w, nonzero m w /\ cnorm m (mv m M w) = (svdMin m M * cnorm m w)%R.
(** the part of u orthogonal to x *)
Definition perp (n : nat) (x u : cvec) : cvec := fun i => u i - inner n x u / inner n x x * x i.
(** (A - eig) w *)
Definition shifted (n : nat) (A : cmat) (eig : C) (w : cvec) : cvec := fun i => mv n A w i - eig * w i.

Section Vec.
  Variables (qrR : nat -> cmat -> cmat) (solveTri : nat -> cmat -> cvec -> option cvec) (svdMin : nat -> cmat -> R).
  Variable m : nat.
  Hypothesis Hqr : qrOK m qrR.
  Hypothesis Hsvd : svdOK m svdMin.
  Variables (A : cmat) (eig : C) (x : cvec).
  Hypothesis Hx : nonzero (S m) x.
  Hypothesis HA : rightEig (S m) A eig x.
  Let n := S m.
  Lemma vec_value c : condeigPair qrR solveTri svdMin n A eig x = COk c -> exists s, snd c = (1 / s)%R /\
    (forall w, inner n x w = 0 -> (s * cnorm n w <= cnorm n (perp n x (shifted n A eig w)))%R) /\
    exists w, nonzero n w /\ inner n x w = 0 /\ cnorm n (perp n x (shifted n A eig w)) = (s * cnorm n w)%R.
  Proof.
    destruct (C92_householder n x ltac:(lia) Hx) as (Q & E & Hh & HI & QU & k & Hk & HQ).
    set (B := conjugated n Q A). set (M := fun i j => B (S i) (S j) - eig * (if Nat.eqb i j then 1 else 0)).
    destruct (Hqr M) as (P & P1 & P2 & P3). destruct (Hsvd (qrR m M)) as [S1 S2].
    unfold condeigPair. rewrite E. replace (n - 1)%nat with m by (unfold n; lia). fold B M. destruct solveTri as [v|]; [|discriminate]. intros EC.
    assert (Ec : snd c = (1 / svdMin m (qrR m M))%R) by (injection EC as <-; reflexivity). clear EC.
    assert (QQ : inverse n Q Q). { intros i j Hi Hj. rewrite <- (HI i j Hi Hj). apply csum_ext. intros l Hl. unfold adj. rewrite <- Hh. reflexivity. }
    assert (K0 : k <> 0). { intros K. rewrite K, Cmod_0 in Hk. symmetry in Hk. rewrite cnorm_0 in Hk. destruct Hx as (i & Hi & N). apply N. auto. }
    assert (CK : Cconj k <> 0) by (intros F; apply K0; apply conj_0; exact F).
    assert (IX : forall u, inner n x u = Cconj k * mv n Q u 0%nat).
    { intros u. rewrite <- (inner_unitary n Q x u QU). unfold inner. rewrite (csum_one n _ 0%nat); [rewrite HQ by lia; reflexivity|lia|]. intros i Hi Ni. rewrite HQ by auto. destruct i; [congruence|rewrite conj_R; ring]. }
    (* multiplication by B is multiplication by A seen through Q *)
    assert (BQ : forall z i, mv n B z i = mv n Q (mv n A (mv n Q z)) i).
    { intros z i. unfold mv at 1, B, conjugated. rewrite (csum_ext n _ (fun j => csum n (fun l => csum n (fun h => Cconj (Q h i) * A h l) * Q l j * z j))) by (intros; rewrite csum_scal_r; reflexivity).
      rewrite csum_swap. unfold mv at 1. rewrite (csum_ext n (fun j => Q i j * _) (fun j => csum n (fun l => Cconj (Q j i) * A j l * mv n Q z l))).
      - symmetry. rewrite csum_swap. symmetry. apply csum_ext. intros l Hl. rewrite csum_scal_r. unfold mv. rewrite <- csum_scal. apply csum_ext. intros j Hj. ring.
      - intros j Hj. unfold mv at 1. rewrite <- csum_scal. apply csum_ext. intros l Hl. rewrite <- Hh. ring. }
    (* the part orthogonal to x of u has the length of the tail of Q u *)
    assert (PT : forall u, cnorm n (perp n x u) = cnorm m (fun i => mv n Q u (S i))).
    { intros u. rewrite <- (norm_unitary n Q (perp n x u) QU). apply cnorm_eq. unfold inner at 1, n. rewrite csum_first. fold n.
      assert (T : forall i, (i < n)%nat -> mv n Q (perp n x u) i = mv n Q u i - inner n x u / inner n x x * mv n Q x i).
      { intros i Hi. unfold mv, perp. rewrite (csum_ext n _ (fun j => Q i j * u j - inner n x u / inner n x x * (Q i j * x j))) by (intros; ring). rewrite csum_minus, csum_scal. reflexivity. }
      rewrite (T 0%nat) by lia. rewrite (IX u), (IX x), HQ by lia. replace (mv n Q u 0%nat - Cconj k * mv n Q u 0%nat / (Cconj k * k) * k) with (RtoC 0) by (field; auto).
      rewrite conj_R. unfold inner. replace (0 * 0) with (RtoC 0) by ring. rewrite Cplus_0_l. apply csum_ext. intros i Hi. rewrite T by (unfold n; lia). rewrite HQ by (unfold n; lia).
      replace (mv n Q u (S i) - inner n x u / inner n x x * 0) with (mv n Q u (S i)) by ring. reflexivity. }
    (* for w orthogonal to x: the tail of Q (A - eig) w is M times the tail of Q w *)
    assert (MW : forall w i, mv n Q w 0%nat = 0 -> (i < m)%nat -> mv n Q (shifted n A eig w) (S i) = mv m M (fun j => mv n Q w (S j)) i).
    { intros w i Z Hi. assert (T : mv n Q (shifted n A eig w) (S i) = mv n B (mv n Q w) (S i) - eig * mv n Q w (S i)).
      { rewrite BQ. unfold shifted. unfold mv at 1. rewrite (csum_ext n _ (fun j => Q (S i) j * mv n A w j - eig * (Q (S i) j * w j))) by (intros; ring). rewrite csum_minus, csum_scal. f_equal.
        unfold mv at 2. apply csum_ext. intros j Hj. f_equal. unfold mv at 1 2. apply csum_ext. intros l Hl. f_equal. rewrite mv_inverse by auto. reflexivity. }
      rewrite T. unfold mv at 1. unfold n at 1. rewrite csum_first. rewrite Z.
      assert (T2 : mv m M (fun j => mv n Q w (S j)) i = csum m (fun j => B (S i) (S j) * mv n Q w (S j) - eig * (delta i j * mv n Q w (S j)))) by (unfold mv at 1, M; apply csum_ext; intros j Hj; unfold delta; ring).
      rewrite T2. rewrite csum_minus, csum_scal, csum_delta by auto. ring. }
    assert (MR : forall w, cnorm m (mv m M w) = cnorm m (mv m (qrR m M) w)).
    { intros w. rewrite <- (norm_unitary m P (mv m (qrR m M) w) P1). apply cnorm_ext. intros i Hi. rewrite mv_mv. unfold mv. apply csum_ext. intros j Hj. f_equal. apply P3; auto. }
    assert (NW : forall w, mv n Q w 0%nat = 0 -> cnorm n w = cnorm m (fun j => mv n Q w (S j))).
    { intros w Z. rewrite <- (norm_unitary n Q w QU). apply cnorm_eq. unfold inner at 1, n. rewrite csum_first. fold n. rewrite Z, conj_R. unfold inner. ring. }
    exists (svdMin m (qrR m M)). split; [auto|]. split.
    - intros w Hw. assert (Z : mv n Q w 0%nat = 0). { rewrite IX in Hw. replace (mv n Q w 0%nat) with (Cconj k * mv n Q w 0%nat / Cconj k) by (field; auto). rewrite Hw. field. auto. }
      rewrite PT, NW by auto. rewrite (cnorm_ext m (fun i => mv n Q (shifted n A eig w) (S i)) (mv m M (fun j => mv n Q w (S j)))) by (intros i Hi; apply MW; auto). rewrite MR. apply S1.
    - destruct S2 as (t & (i0 & Hi0 & N0) & Et). set (z := fun i => match i with O => RtoC 0 | S j => t j end).
      assert (QZ : forall i, (i < n)%nat -> mv n Q (mv n Q z) i = z i) by (intros i Hi; apply mv_inverse; auto).
      exists (mv n Q z). split; [|split].
      + apply Classical_Prop.NNPP. intros NN. apply N0. change (t i0) with (z (S i0)). rewrite <- QZ by (unfold n; lia). unfold mv at 1. apply csum_zero. intros j Hj.
        destruct (Ceq_dec (mv n Q z j) 0) as [->|N]; [ring|]. exfalso. apply NN. exists j; auto.
      + rewrite IX, QZ by lia. cbn. ring.
      + assert (Z : mv n Q (mv n Q z) 0%nat = 0) by (rewrite QZ by lia; reflexivity).
        rewrite PT, (NW (mv n Q z) Z). rewrite (cnorm_ext m (fun i => mv n Q (shifted n A eig (mv n Q z)) (S i)) (mv m M (fun j => mv n Q (mv n Q z) (S j)))) by (intros i Hi; apply MW; auto). rewrite MR.
        assert (TT : forall j, (j < m)%nat -> mv n Q (mv n Q z) (S j) = t j) by (intros j Hj; rewrite QZ by (unfold n; lia); reflexivity).
        rewrite (cnorm_ext m (fun j => mv n Q (mv n Q z) (S j)) t TT). rewrite <- Et. apply cnorm_ext. intros i Hi. unfold mv at 1 4. apply csum_ext. intros j Hj. rewrite TT by auto. reflexivity.
  Qed.
End Vec.

(** C92, condvec=True: the second number is 1/s where s is the least length, over the unit vectors w orthogonal to x, of the part of (A - eig) w
    orthogonal to x: s measures the distance of eig to the other eigenvalues. *)
Theorem C92_vector_condition_number : forall qrR solveTri svdMin n A eig x c, qrOK (n - 1) qrR -> svdOK (n - 1) svdMin -> (2 <= n)%nat ->
  nonzero n x -> rightEig n A eig x -> condeigPair qrR solveTri svdMin n A eig x = COk c -> exists s, snd c = (1 / s)%R /\
  (forall w, inner n x w = 0 -> (s * cnorm n w <= cnorm n (perp n x (shifted n A eig w)))%R) /\
  exists w, nonzero n w /\ inner n x w = 0 /\ cnorm n (perp n x (shifted n A eig w)) = (s * cnorm n w)%R.
Proof. intros qrR solveTri svdMin [|m] A eig x c H1 H2 Hn Hx HA E; [lia|]. replace (S m - 1)%nat with m in * by lia. eapply vec_value; eauto. Qed.
Print Assumptions C92_vector_condition_number.

(** ** condeigs *)
Lemma collectC_ok {A} (f : nat -> cres A) l r : collectC f l = COk r -> length r = length l /\ forall i d, (i < length l)%nat -> f (nth i l 0%nat) = COk (nth i r d).
Proof.
  revert r. induction l as [|a l IH]; cbn; intros r E.
  - injection E as <-. split; [reflexivity|]. intros; lia.
  - destruct (f a) eqn:F; try discriminate. destruct (collectC f l) eqn:G; try discriminate. injection E as <-. destruct (IH _ eq_refl) as [L H]. split; [cbn; lia|].
    intros [|i] d Hi; [exact F|]. cbn. apply H. lia.
Qed.
(** C92: condeigs gives, in order, the condition number of eigenvalue i for column i of v. *)
Theorem C92_all_condition_numbers : forall qrR solveTri svdMin n A w v cs, qrOK (n - 1) qrR -> triOK (n - 1) solveTri -> (2 <= n)%nat ->
  (forall i, (i < n)%nat -> nonzero n (fun k => v k i) /\ rightEig n A (w i) (fun k => v k i)) -> condeigs qrR solveTri svdMin n A w v = COk cs ->
  length cs = n /\ forall i y, (i < n)%nat -> leftEig n A (w i) y -> inner n y (fun k => v k i) <> 0 ->
    nth i cs 0%R = (cnorm n y * cnorm n (fun k => v k i) / Cmod (inner n y (fun k => v k i)))%R.
Proof.
  intros qrR solveTri svdMin n A w v cs H1 H2 Hn Hv E. apply collectC_ok in E. rewrite seq_length in E. destruct E as [L H]. split; [exact L|].
  intros i y Hi Hy Ny. specialize (H i 0%R Hi). rewrite seq_nth in H by auto. cbn in H. destruct (Hv i Hi) as [N R].
  exact (proj2 (C92_condition_number qrR solveTri svdMin n A (w i) _ _ H1 H2 Hn N R H) y Hy Ny).
Qed.
Print Assumptions C92_all_condition_numbers.

(** ** A concrete case: the matrix [[1, 1], [0, 2]], its eigenvalue 1 with x = (1, 0), and its eigenvalue 2 with x = (1, 1) *)
Definition exA : cmat := fun i j => match i, j with O, _ => 1 | S O, S O => 2 | _, _ => 0 end.
Definition ex_qr : nat -> cmat -> cmat := fun m M => M.
Definition ex_tri : nat -> cmat -> cvec -> option cvec := fun m R b => if Ceq_dec (R 0%nat 0%nat) 0 then None else Some (fun i => b i / Cconj (R 0%nat 0%nat)).
Definition ex_svd : nat -> cmat -> R := fun m M => Cmod (M 0%nat 0%nat).
Lemma csum_1 f : csum 1 f = f 0%nat.
Proof. rewrite (csum_one 1 f 0%nat); auto. intros i Hi Ni. lia. Qed.
Example C92_contracts : qrOK 1 ex_qr /\ triOK 1 ex_tri /\ svdOK 1 ex_svd.
Proof.
  split; [|split].
  - intros M. exists (fun i j => if Nat.eqb i j then 1 else 0). assert (I1 : forall i j, (i < 1)%nat -> (j < 1)%nat -> i = 0%nat /\ j = 0%nat) by (intros; lia). split; [|split].
    + intros i j Hi Hj. destruct (I1 i j Hi Hj) as [-> ->]. rewrite csum_1. unfold adj, delta. cbn [Nat.eqb]. rewrite conj_R. ring.
    + intros i j Hi Hj. destruct (I1 i j Hi Hj) as [-> ->]. rewrite csum_1. unfold adj, delta. cbn [Nat.eqb]. rewrite conj_R. ring.
    + intros i j Hi Hj. destruct (I1 i j Hi Hj) as [-> ->]. rewrite csum_1. unfold ex_qr. cbn [Nat.eqb]. ring.
  - intros R b. unfold ex_tri. destruct Ceq_dec as [Z|N].
    + split; [discriminate|]. split; [congruence|]. intros K. exfalso. specialize (K (fun _ => 1)). assert (F : RtoC 1 = 0).
      { apply (K) with (i := 0%nat); [|lia]. intros j Hj. replace j with 0%nat by lia. rewrite csum_1, Z, conj_R. ring. } apply C1_nz. exact F.
    + assert (CN : Cconj (R 0%nat 0%nat) <> 0) by (intros F; apply N; apply conj_0; exact F). split.
      * intros v E j Hj. injection E as <-. replace j with 0%nat by lia. rewrite csum_1. field. auto.
      * split; [|discriminate]. intros _ t Ht i Hi. specialize (Ht 0%nat ltac:(lia)). rewrite csum_1 in Ht. replace i with 0%nat by lia. replace (t 0%nat) with (Cconj (R 0%nat 0%nat) * t 0%nat / Cconj (R 0%nat 0%nat)) by (field; auto). rewrite Ht. field. auto.
  - assert (N1 : forall w, cnorm 1 w = Cmod (w 0%nat)) by (intros w; unfold cnorm; cbn; rewrite Rplus_0_l; apply sqrt_square, Cmod_ge_0).
    assert (NM : forall M w, cnorm 1 (mv 1 M w) = (Cmod (M 0%nat 0%nat) * Cmod (w 0%nat))%R) by (intros M w; rewrite N1; unfold mv; rewrite csum_1, Cmod_mult; reflexivity).
    intros M. split.
    + intros w. rewrite NM, N1. unfold ex_svd. lra.
    + exists (fun _ => 1). split; [exists 0%nat; split; [lia|apply C1_nz]|]. rewrite NM, N1. reflexivity.
Qed.
(** eigenvalue 2, x = (1, 1), y = (0, 1): the condition number is sqrt 2 *)
Example C92_condition_number_at : forall c, condeig ex_qr ex_tri ex_svd 2 exA 2 (fun _ => 1) = COk c -> c = sqrt 2.
Proof.
  intros c E. destruct C92_contracts as (H1 & H2 & _).
  assert (R : rightEig 2 exA 2 (fun _ => 1)). { intros i Hi. cbn [csum exA]. destruct i as [|[|i]]; [| |lia]; cbn; rewrite ?two_C; ring. }
  assert (L : leftEig 2 exA 2 (fun i => match i with O => 0 | S _ => 1 end)). { intros j Hj. cbn [csum]. destruct j as [|[|j]]; [| |lia]; cbn; rewrite !conj_R, ?two_C; ring. }
  assert (I : inner 2 (fun i => match i with O => 0 | S _ => 1 end) (fun _ => 1) = 1). { unfold inner. cbn [csum]. rewrite !conj_R. ring. }
  destruct (C92_condition_number ex_qr ex_tri ex_svd 2 exA 2 (fun _ => 1) c H1 H2 ltac:(lia)) as [_ V]; auto.
  { exists 0%nat. split; [lia|apply C1_nz]. }
  rewrite (V _ L) by (rewrite I; apply C1_nz). rewrite I. unfold cnorm. cbn [sumn]. rewrite !Cmod_1, !Cmod_0. replace (0 + 0 * 0 + 1 * 1)%R with 1%R by ring. replace (0 + 1 * 1 + 1 * 1)%R with 2%R by ring. rewrite sqrt_1. field.
Qed.
(** it does answer: no left eigenvector for 2 is orthogonal to x *)
Example C92_answers : exists c, condeig ex_qr ex_tri ex_svd 2 exA 2 (fun _ => 1) = COk c.
Proof.
  destruct C92_contracts as (H1 & H2 & _). destruct (condeig ex_qr ex_tri ex_svd 2 exA 2 (fun _ => 1)) as [c| |] eqn:E; [eauto| |].
  - exfalso. apply C92_zero_vector in E; [|lia]. apply E. exists 0%nat. split; [lia|apply C1_nz].
  - exfalso. apply C92_infinite_condition_number in E; auto; [|exists 0%nat; split; [lia|apply C1_nz]|].
    + destruct E as (y & (i & Hi & Ni) & L & I). assert (L0 := L 0%nat ltac:(lia)). cbn [csum exA] in L0. unfold inner in I. cbn [csum] in I.
      assert (Y0 : Cconj (y 0%nat) = 0). { replace (Cconj (y 0%nat)) with (2 * Cconj (y 0%nat) - (0 + Cconj (y 0%nat) * 1 + Cconj (y 1%nat) * 0)) by (rewrite two_C; ring). rewrite L0. ring. }
      assert (Y1 : Cconj (y 1%nat) = 0). { replace (Cconj (y 1%nat)) with (0 + Cconj (y 0%nat) * 1 + Cconj (y 1%nat) * 1 - Cconj (y 0%nat)) by ring. rewrite I, Y0. ring. }
      apply Ni. apply conj_0. destruct i as [|[|i]]; [exact Y0|exact Y1|lia].
    + intros i Hi. cbn [csum exA]. destruct i as [|[|i]]; [| |lia]; cbn; rewrite ?two_C; ring.
Qed.
