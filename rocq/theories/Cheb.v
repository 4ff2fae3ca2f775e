(** * Chebyshev polynomials (specification) *)
From Coq Require Import Reals List Lia Lra Arith.
From Verif Require Import RSum.
Import ListNotations.
Local Open Scope R_scope.

(** Chebyshev polynomials of the first kind, T_0 = 1, T_1 = x, T_{n+2} = 2x T_{n+1} - T_n. *)
Fixpoint chebTp (n : nat) (x : R) : R * R :=   (* (T_n, T_{n+1}) *)
  match n with
  | O => (1, x)
  | S k => let (a, b) := chebTp k x in (b, 2 * x * b - a)
  end.
Definition chebT (n : nat) (x : R) : R := fst (chebTp n x).

Lemma chebTp_eq n x : chebTp n x = (chebT n x, chebT (S n) x).
Proof. unfold chebT. simpl. destruct (chebTp n x); reflexivity. Qed.
Lemma chebT_0 x : chebT 0 x = 1. Proof. reflexivity. Qed.
Lemma chebT_1 x : chebT 1 x = x. Proof. reflexivity. Qed.
Lemma chebT_SS n x : chebT (S (S n)) x = 2 * x * chebT (S n) x - chebT n x.
Proof.
  unfold chebT at 1. change (chebTp (S (S n)) x) with (let (a,b) := chebTp (S n) x in (b, 2*x*b-a)).
  rewrite chebTp_eq. simpl fst.
  unfold chebT at 1. change (chebTp (S (S n)) x) with (let (a,b) := chebTp (S n) x in (b, 2*x*b-a)).
  change (chebTp (S n) x) with (let (a,b) := chebTp n x in (b, 2*x*b-a)). rewrite chebTp_eq. reflexivity.
Qed.
Lemma chebT_2 x : chebT 2 x = 2 * x * x - 1.
Proof. rewrite chebT_SS, chebT_1, chebT_0. ring. Qed.

(** two-step induction *)
Lemma nat_ind2 (P : nat -> Prop) : P O -> P 1%nat -> (forall n, P n -> P (S n) -> P (S (S n))) -> forall n, P n.
Proof.
  intros H0 H1 HS n. enough (P n /\ P (S n)) by tauto.
  induction n; [auto|]. destruct IHn. split; auto.
Qed.

Lemma chebT_cos n t : chebT n (cos t) = cos (INR n * t).
Proof.
  induction n as [| |n IH0 IH1] using nat_ind2.
  - rewrite chebT_0. simpl. rewrite Rmult_0_l, cos_0. reflexivity.
  - rewrite chebT_1. simpl. rewrite Rmult_1_l. reflexivity.
  - rewrite chebT_SS, IH0, IH1.
    replace (INR (S (S n)) * t) with (INR (S n) * t + t) by (rewrite (S_INR (S n)); ring).
    replace (INR n * t) with (INR (S n) * t - t) by (rewrite (S_INR n); ring).
    rewrite cos_plus, cos_minus. ring.
Qed.

Lemma chebT_bound n x : -1 <= x <= 1 -> Rabs (chebT n x) <= 1.
Proof.
  intros H. rewrite <- (cos_acos x) by auto. rewrite chebT_cos.
  apply Rabs_le. apply COS_bound.
Qed.
Lemma chebT_bound2 n x : -1 <= x <= 1 -> -1 <= chebT n x <= 1.
Proof. intros H. apply (chebT_bound n) in H. unfold Rabs in H. destruct Rcase_abs; lra. Qed.

(** x T_n *)
Lemma chebT_mul2x n x : 2 * x * chebT (S n) x = chebT (S (S n)) x + chebT n x.
Proof. rewrite chebT_SS. ring. Qed.

(** [V_n = U_{n-1}]: V_0 = 0, V_1 = 1, V_{n+2} = 2x V_{n+1} - V_n. *)
Fixpoint chebVp (n : nat) (x : R) : R * R :=
  match n with
  | O => (0, 1)
  | S k => let (a, b) := chebVp k x in (b, 2 * x * b - a)
  end.
Definition chebV (n : nat) (x : R) : R := fst (chebVp n x).
Lemma chebVp_eq n x : chebVp n x = (chebV n x, chebV (S n) x).
Proof. unfold chebV. simpl. destruct (chebVp n x); reflexivity. Qed.
Lemma chebV_0 x : chebV 0 x = 0. Proof. reflexivity. Qed.
Lemma chebV_1 x : chebV 1 x = 1. Proof. reflexivity. Qed.
Lemma chebV_SS n x : chebV (S (S n)) x = 2 * x * chebV (S n) x - chebV n x.
Proof.
  unfold chebV at 1. change (chebVp (S (S n)) x) with (let (a,b) := chebVp (S n) x in (b, 2*x*b-a)).
  rewrite chebVp_eq. simpl fst.
  unfold chebV at 1. change (chebVp (S (S n)) x) with (let (a,b) := chebVp (S n) x in (b, 2*x*b-a)).
  change (chebVp (S n) x) with (let (a,b) := chebVp n x in (b, 2*x*b-a)). rewrite chebVp_eq. reflexivity.
Qed.
(** U_{n} = x U_{n-1} + T_n *)
Lemma chebV_T n x : chebV (S n) x = x * chebV n x + chebT n x.
Proof.
  induction n as [| |n IH0 IH1] using nat_ind2.
  - rewrite chebV_1, chebV_0, chebT_0. ring.
  - rewrite chebV_SS, chebV_1, chebV_0, chebT_1. ring.
  - rewrite (chebV_SS (S n)), chebT_SS.
    replace (chebT (S n) x) with (chebV (S (S n)) x - x * chebV (S n) x) by (rewrite IH1; ring).
    replace (chebT n x) with (chebV (S n) x - x * chebV n x) by (rewrite IH0; ring).
    rewrite (chebV_SS n). ring.
Qed.
Lemma chebV_bound n x : -1 <= x <= 1 -> Rabs (chebV n x) <= INR n.
Proof.
  intros H. induction n.
  - rewrite chebV_0, Rabs_R0. simpl. lra.
  - rewrite chebV_T, S_INR. eapply Rle_trans; [apply Rabs_triang|].
    rewrite Rabs_mult. pose proof (chebT_bound n x H).
    assert (Rabs x <= 1) by (apply Rabs_le; auto).
    pose proof (Rabs_pos x). pose proof (Rabs_pos (chebV n x)). pose proof (pos_INR n). nra.
Qed.

(** Evaluation of a 1-D coefficient list in the Chebyshev basis. *)
Definition cheb1 (c : list R) (x : R) : R := sumn (length c) (fun i => nth i c 0 * chebT i x).

(** Linear recurrences with a perturbation: e_{n+2} = 2y e_{n+1} - e_n + d_{n+1}. *)
Lemma recurrence_conv (e d : nat -> R) (y : R) :
  e O = 0 -> e 1%nat = d O ->
  (forall n, e (S (S n)) = 2 * y * e (S n) - e n + d (S n)) ->
  forall n, e n = sumn n (fun j => chebV (n - j) y * d j).
Proof.
  intros H0 H1 HS n. induction n as [| |n IH0 IH1] using nat_ind2.
  - auto.
  - rewrite H1. simpl. rewrite chebV_1. ring.
  - rewrite HS, IH0, IH1.
    rewrite (sumn_ext (S (S n)) _ (fun j => if Nat.eqb j (S n) then d j else
      2 * y * (chebV (S n - j) y * d j) - chebV (n - j) y * d j)).
    + change (sumn (S (S n)) ?f) with (sumn (S n) f + f (S n)).
      cbv beta. rewrite Nat.eqb_refl.
      rewrite (sumn_ext (S n) (fun j => if Nat.eqb j (S n) then d j else _)
         (fun j => 2 * y * (chebV (S n - j) y * d j) - chebV (n - j) y * d j)).
      * rewrite sumn_minus, sumn_scal.
        change (sumn (S n) (fun i => chebV (n - i) y * d i)) with
          (sumn n (fun i => chebV (n - i) y * d i) + chebV (n - n) y * d n).
        rewrite Nat.sub_diag, chebV_0. ring.
      * intros i Hi. destruct (Nat.eqb_spec i (S n)); [lia|reflexivity].
    + intros j Hj. destruct (Nat.eqb_spec j (S n)).
      * subst. replace (S (S n) - S n)%nat with 1%nat by lia. rewrite chebV_1. ring.
      * destruct (Nat.eq_dec j (S n)); [lia|].
        replace (S (S n) - j)%nat with (S (S (n - j))) by lia.
        replace (S n - j)%nat with (S (n - j)) by lia.
        rewrite chebV_SS. ring.
Qed.

Lemma recurrence_bound (e d : nat -> R) (y tau : R) :
  -1 <= y <= 1 -> e O = 0 -> e 1%nat = d O ->
  (forall n, e (S (S n)) = 2 * y * e (S n) - e n + d (S n)) ->
  d O = 0 -> (forall n, Rabs (d n) <= tau) ->
  forall n, Rabs (e (S n)) <= INR n * INR (S n) / 2 * tau.
Proof.
  intros Hy H0 H1 HS Hd0 Hd n. rewrite (recurrence_conv e d y H0 H1 HS).
  rewrite sumn_S_l, Hd0, Rmult_0_r, Rplus_0_l.
  assert (0 <= tau) by (eapply Rle_trans; [apply Rabs_pos | apply (Hd O)]).
  eapply Rle_trans; [apply sumn_abs|].
  apply Rle_trans with (sumn n (fun i => INR (n - i) * tau)).
  - apply sumn_le. intros i Hi. rewrite Rabs_mult. apply Rmult_le_compat; try apply Rabs_pos; auto.
    replace (S n - S i)%nat with (n - i)%nat by lia. apply chebV_bound; auto.
  - rewrite sumn_scal_r. apply Rmult_le_compat_r; auto. right.
    clear. induction n; [simpl; lra|].
    rewrite sumn_S_l. rewrite (sumn_ext _ _ (fun i => INR (n - i))) by (intros; f_equal; lia).
    rewrite IHn, Nat.sub_0_r, !S_INR. field.
Qed.

(** Multiplication of a Chebyshev series by 2x (with boundary terms). *)
Definition shift2x (a : nat -> R) (i : nat) : R :=
  match i with
  | O => a 1%nat
  | S O => 2 * a O + a 2%nat
  | S (S k) => a (S k) + a (S (S (S k)))
  end.
Lemma sum_shift2x (a : nat -> R) x n :
  sumn (S (S n)) (fun i => shift2x a i * chebT i x) =
  2 * x * sumn (S (S n)) (fun i => a i * chebT i x)
  + a (S (S n)) * chebT (S n) x - a (S n) * chebT (S (S n)) x.
Proof.
  induction n.
  - cbn [sumn]. rewrite chebT_0, chebT_1, chebT_2. simpl. ring.
  - change (sumn (S (S (S n))) ?f) with (sumn (S (S n)) f + f (S (S n))).
    cbv beta. rewrite IHn. rewrite (chebT_SS (S n)). simpl shift2x.
    rewrite (chebT_SS n). ring.
Qed.
