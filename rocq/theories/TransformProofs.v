(** * Proofs about the 1-D Chebyshev change of variables *)
From Coq Require Import Reals List Lia Lra Arith Bool ZArith.
From Verif Require Import Num Tensor RSum Cheb PolySpec TransformModel.
Import ListNotations.
Local Open Scope R_scope.

(** ** Perturbed recurrences on a bounded range *)
Fixpoint recp (d : nat -> R) (y : R) (n : nat) : R * R :=
  match n with
  | O => (0, d O)
  | S k => let (a, b) := recp d y k in (b, 2 * y * b - a + d (S k))
  end.
Definition recE d y n := fst (recp d y n).
Lemma recp_eq d y n : recp d y n = (recE d y n, recE d y (S n)).
Proof. unfold recE. simpl. destruct (recp d y n); reflexivity. Qed.
Lemma recE_SS d y n : recE d y (S (S n)) = 2 * y * recE d y (S n) - recE d y n + d (S n).
Proof.
  unfold recE at 1. change (recp d y (S (S n))) with (let (a,b) := recp d y (S n) in (b, 2*y*b-a + d (S (S n)))).
  rewrite recp_eq. simpl fst.
  unfold recE at 1. change (recp d y (S (S n))) with (let (a,b) := recp d y (S n) in (b, 2*y*b-a + d (S (S n)))).
  change (recp d y (S n)) with (let (a,b) := recp d y n in (b, 2*y*b-a + d (S n))). rewrite recp_eq. reflexivity.
Qed.

Lemma recurrence_bound_upto (e : nat -> R) (y tau : R) K :
  -1 <= y <= 1 -> 0 <= tau -> e O = 0 -> e 1%nat = 0 ->
  (forall n, (S (S n) < K)%nat -> Rabs (e (S (S n)) - (2 * y * e (S n) - e n)) <= tau) ->
  forall n, (n < K)%nat -> Rabs (e n) <= INR n * INR (n - 1) / 2 * tau.
Proof.
  intros Hy Ht H0 H1 HS.
  set (d := fun j => match j with O => 0 | S j' => if Nat.ltb (S (S j')) K then e (S (S j')) - (2 * y * e (S j') - e j') else 0 end).
  assert (Hd : forall n, Rabs (d n) <= tau).
  { intros [|n]; simpl; [rewrite Rabs_R0; auto|]. destruct (Nat.ltb_spec (S (S n)) K); [apply HS; auto|rewrite Rabs_R0; auto]. }
  assert (HE : forall n, (n < K)%nat -> e n = recE d y n).
  { intros n. induction n as [| |n IH0 IH1] using nat_ind2; intros Hn.
    - rewrite H0; reflexivity.
    - rewrite H1; reflexivity.
    - rewrite recE_SS, <- IH0, <- IH1 by lia. unfold d. cbn iota beta.
      destruct (Nat.ltb_spec (S (S n)) K); [ring|lia]. }
  intros n Hn. rewrite HE by auto. destruct n.
  - change (recE d y 0) with 0. rewrite Rabs_R0. simpl. lra.
  - eapply Rle_trans; [apply (recurrence_bound (recE d y) d y tau); auto|].
    + intros. apply recE_SS.
    + replace (S n - 1)%nat with n by lia. right. field.
Qed.

(** ** Columns of the transformation matrix *)
Definition form (alpha beta : R) (a1 a2 : nat -> R) (i : nat) : R :=
  - a1 i + alpha * shift2x a2 i + 2 * beta * a2 i.

Lemma sum_form alpha beta a1 a2 x n : a2 (S n) = 0 -> a2 (S (S n)) = 0 ->
  sumn (S (S n)) (fun i => form alpha beta a1 a2 i * chebT i x) =
  2 * (alpha * x + beta) * sumn (S (S n)) (fun i => a2 i * chebT i x)
  - sumn (S (S n)) (fun i => a1 i * chebT i x).
Proof.
  intros H1 H2.
  rewrite (sumn_ext _ _ (fun i => alpha * (shift2x a2 i * chebT i x)
     + ((2 * beta) * (a2 i * chebT i x) - a1 i * chebT i x))).
  2:{ intros; unfold form; ring. }
  rewrite sumn_plus, sumn_minus, !sumn_scal, sum_shift2x, H1, H2. ring.
Qed.

(** value at x of the Chebyshev series with coefficient list l, summed to N+1 terms *)
Definition P (N : nat) (l : list R) (x : R) : R := sumn (S N) (fun i => nth i l 0 * chebT i x).
Lemma P_cheb1 N l x : length l = N -> P N l x = cheb1 l x.
Proof.
  intros H. unfold P, cheb1. rewrite H. apply sumn_extend; [lia|].
  intros i Hi. rewrite nth_overflow by lia. ring.
Qed.

(** the two arrays after entries 0..j-1 have been processed *)
Definition upto (F : nat -> R) (c : R) (a3 tc0 : list R) (j : nat) (p : list R * list R) : Prop :=
  length (fst p) = length a3 /\ length (snd p) = length tc0 /\
  (forall i, nth i (fst p) 0 = if Nat.ltb i j then F i else nth i a3 0) /\
  (forall i, nth i (snd p) 0 = if Nat.ltb i j then nth i tc0 0 + c * F i else nth i tc0 0).

Lemma upto_put F c a3 tc0 j p v : upto F c a3 tc0 j p ->
  (j < length a3)%nat -> length tc0 = length a3 -> v = F j ->
  upto F c a3 tc0 (S j) (@put R R_num c j v p).
Proof.
  intros (L1 & L2 & E1 & E2) Hj Hl ->. unfold put, upto; simpl. rnum.
  rewrite !upd_length. repeat split; auto; intros i.
  - rewrite nth_upd by lia. destruct (Nat.eqb_spec i j).
    + subst. destruct (Nat.ltb_spec j (S j)); [auto|lia].
    + rewrite E1. destruct (Nat.ltb_spec i j), (Nat.ltb_spec i (S j)); auto; lia.
  - rewrite nth_upd by lia. destruct (Nat.eqb_spec i j).
    + subst. destruct (Nat.ltb_spec j (S j)); [|lia]. unfold g. change (@n0 R R_num) with 0.
      rewrite E2. destruct (Nat.ltb_spec j j); [lia|auto].
    + rewrite E2. destruct (Nat.ltb_spec i j), (Nat.ltb_spec i (S j)); auto; lia.
Qed.

Lemma upto_fold F c a3 tc0 v m : forall j p, upto F c a3 tc0 j p ->
  (j + m <= length a3)%nat -> length tc0 = length a3 ->
  (forall i, (j <= i < j + m)%nat -> v i = F i) ->
  upto F c a3 tc0 (j + m) (fold_left (fun p i => @put R R_num c i (v i) p) (seq j m) p).
Proof.
  induction m; intros j p H Hl Ht Hv; simpl.
  - rewrite Nat.add_0_r; auto.
  - rewrite Nat.add_succ_r, <- Nat.add_succ_l. apply IHm; auto; try lia.
    + apply upto_put; auto; try lia. apply Hv; lia.
    + intros; apply Hv; lia.
Qed.

(** What one pass of the column loop does, as functions. *)
Definition tau16 : R := nlit 1 10000000000000000.
Definition tau32 : R := nlit 1 100000000000000000000000000000000.

Definition suppT (m : nat) (l : list R) : Prop := forall i, (m <= i)%nat -> nth i l 0 = 0.

Lemma shift2x_ge2 a i : (2 <= i)%nat -> shift2x a i = a (i - 1)%nat + a (i + 1)%nat.
Proof.
  intros H. destruct i as [|[|i]]; try lia. simpl. replace (i + 1)%nat with (S i) by lia. reflexivity.
Qed.

Lemma tstep_spec N alpha beta st c :
  length (t1 st) = N -> length (t2 st) = N -> length (t3 st) = N -> length (tc st) = N ->
  suppT (mr st) (t1 st) -> suppT (mr st) (t2 st) -> suppT (mr st) (t3 st) ->
  (2 <= mr st < N)%nat ->
  let st' := @tstep R R_num alpha beta st c in
  let fv := alpha * nth (mr st - 1) (t2 st) 0 in
  let keep := Rltb tau16 (Rabs fv) in
  t1 st' = t2 st /\ t3 st' = t1 st /\
  length (t2 st') = N /\ length (tc st') = N /\
  mr st' = (if keep then S (mr st) else mr st) /\
  (forall i, nth i (t2 st') 0 =
     if Nat.eqb i (mr st) then (if keep then fv else 0)
     else form alpha beta (fun i => nth i (t1 st) 0) (fun i => nth i (t2 st) 0) i) /\
  (forall i, nth i (tc st') 0 = nth i (tc st) 0 + c * nth i (t2 st') 0).
Proof.
  destruct st as [a1 a2 a3 tc0 m]; cbn [t1 t2 t3 tc mr]. intros L1 L2 L3 L4 S1 S2 S3 Hm.
  set (F := form alpha beta (fun i => nth i a1 0) (fun i => nth i a2 0)).
  cbv zeta.
  assert (HF : forall i, (m < i)%nat -> F i = 0).
  { intros i Hi. unfold F, form. rewrite shift2x_ge2 by lia.
    rewrite (S1 i), (S2 i), (S2 (i-1)%nat), (S2 (i+1)%nat) by lia. ring. }
  assert (HFm : F m = alpha * nth (m - 1) a2 0).
  { unfold F, form. rewrite shift2x_ge2 by lia.
    rewrite (S1 m), (S2 m), (S2 (m+1)%nat) by lia. ring. }
  unfold tstep; cbn [t1 t2 t3 tc mr].
  set (p0 := put c 0 _ _).
  assert (U0 : upto F c a3 tc0 1 p0).
  { apply upto_put.
    - repeat split; auto.
    - lia.
    - lia.
    - unfold g. rnum. rewrite n2_R. unfold F, form, shift2x. ring. }
  clearbody p0.
  set (p1 := if Nat.ltb 2 m then _ else p0).
  assert (U1 : upto F c a3 tc0 (if Nat.ltb 2 m then 2 else 1) p1).
  { unfold p1. destruct (Nat.ltb_spec 2 m); auto. apply upto_put; auto; try lia.
    unfold g. rnum. rewrite n2_R. unfold F, form, shift2x. ring. }
  clearbody p1.
  set (p2 := fold_left _ _ p1).
  assert (U2 : upto F c a3 tc0 (m - 1) p2).
  { unfold p2. destruct (Nat.ltb_spec 2 m).
    - replace (m - 1)%nat with (2 + (m - 1 - 2))%nat at 1 by lia.
      apply upto_fold; auto; try lia.
      intros i Hi. unfold g. rnum. rewrite n2_R. unfold F, form. rewrite shift2x_ge2 by lia. ring.
    - replace m with 2%nat in * by lia. simpl. auto. }
  clearbody p2.
  set (p3 := put c (m - 1) _ p2).
  assert (U3 : upto F c a3 tc0 m p3).
  { unfold p3. replace m with (S (m - 1))%nat at 1 by lia. apply upto_put; auto; try lia.
    unfold g. rnum. rewrite n2_R. unfold F, form.
    destruct (Nat.eqb_spec (m - 1) 1) as [E|E].
    - rewrite E. simpl shift2x. rewrite (S2 2%nat) by lia. simpl. ring.
    - rewrite shift2x_ge2 by lia. replace (m - 1 + 1)%nat with m by lia. rewrite (S2 m) by lia. ring. }
  clearbody p3.
  unfold g, ngtb. rnum. fold tau16.
  set (fv := alpha * nth (m - 1) a2 0) in *.
  destruct (Rltb tau16 (Rabs fv)) eqn:K; cbn [t1 t2 t3 tc mr].
  - assert (U4 : upto F c a3 tc0 (S m) (@put R R_num c m fv p3)) by (apply upto_put; auto; lia).
    destruct U4 as (A1 & A2 & A3 & A4). rnum.
    assert (E : forall i, nth i (fst (put c m fv p3)) 0 = if Nat.eqb i m then fv else F i).
    { intros i. rewrite A3. destruct (Nat.eqb_spec i m).
      - subst. rewrite <- HFm. destruct (Nat.ltb_spec m (S m)); auto; lia.
      - destruct (Nat.ltb_spec i (S m)); auto. rewrite S3, HF by lia. auto. }
    repeat split; auto; try lia.
    intros i. rewrite E, A4. destruct (Nat.eqb_spec i m).
    + subst. rewrite <- HFm. destruct (Nat.ltb_spec m (S m)); auto; lia.
    + destruct (Nat.ltb_spec i (S m)); auto. rewrite HF by lia. ring.
  - destruct U3 as (A1 & A2 & A3 & A4).
    assert (E : forall i, nth i (fst p3) 0 = if Nat.eqb i m then 0 else F i).
    { intros i. rewrite A3. destruct (Nat.eqb_spec i m).
      - subst. destruct (Nat.ltb_spec m m); [lia|]. apply S3; lia.
      - destruct (Nat.ltb_spec i m); auto. rewrite S3, HF by lia. auto. }
    repeat split; auto; try lia.
    intros i. rewrite E, A4. destruct (Nat.eqb_spec i m).
    + subst. destruct (Nat.ltb_spec m m); [lia|]. ring.
    + destruct (Nat.ltb_spec i m); auto. rewrite HF by lia. ring.
Qed.

(** ** Abstract column loop: accumulated error *)
Section Run.
  Context {S0 : Type} (stepf : S0 -> R -> S0) (A1 A2 TC : S0 -> list R).
  Variables (N : nat) (x y : R) (Inv : nat -> S0 -> Prop) (bnd : nat -> S0 -> R).
  Definition stk (l : list R) (s0 : S0) (k : nat) : S0 := fold_left stepf (firstn k l) s0.
  Hypothesis Hstep : forall k s c, Inv k s -> (k + 2 < N)%nat ->
    Inv (S k) (stepf s c) /\ A1 (stepf s c) = A2 s /\
    Rabs (P N (A2 (stepf s c)) x - (2 * y * P N (A2 s) x - P N (A1 s) x)) <= bnd (S k) (stepf s c) /\
    P N (TC (stepf s c)) x = P N (TC s) x + c * P N (A2 (stepf s c)) x.

  Lemma firstn_S_nth (l : list R) k : (k < length l)%nat -> firstn (S k) l = firstn k l ++ [nth k l 0].
  Proof.
    revert k; induction l; intros [|k] H; simpl in *; try lia; auto.
    f_equal. rewrite <- IHl by lia. reflexivity.
  Qed.
  Lemma stk_S l s0 k : (k < length l)%nat -> stk l s0 (S k) = stepf (stk l s0 k) (nth k l 0).
  Proof. intros H. unfold stk. rewrite firstn_S_nth by auto. rewrite fold_left_app. reflexivity. Qed.

  Lemma run_inv l s0 : (length l + 2 <= N)%nat -> Inv 0 s0 -> forall k, (k <= length l)%nat -> Inv k (stk l s0 k).
  Proof.
    intros Hl H0 k. induction k; intros Hk; [exact H0|].
    rewrite stk_S by lia. apply Hstep; [apply IHk; lia | lia].
  Qed.

  Lemma run_spec c s0 : length c = N -> (2 <= N)%nat -> Inv 0 s0 ->
    P N (A1 s0) x = 1 -> P N (A2 s0) x = y -> P N (TC s0) x = nth 0 c 0 + nth 1 c 0 * y ->
    exists e : nat -> R, e O = 0 /\ e 1%nat = 0 /\
      (forall n, (S (S n) < N)%nat ->
        Rabs (e (S (S n)) - (2 * y * e (S n) - e n)) <= bnd (S n) (stk (skipn 2 c) s0 (S n))) /\
      P N (TC (fold_left stepf (skipn 2 c) s0)) x =
        sumn N (fun j => nth j c 0 * (chebT j y + e j)).
  Proof.
    intros Hc HN H0 E1 E2 E3. set (l := skipn 2 c).
    assert (Hl : length l = (N - 2)%nat) by (unfold l; rewrite skipn_length; lia).
    assert (Hln : forall k, nth k l 0 = nth (S (S k)) c 0).
    { intros k. unfold l. destruct c as [|u [|v w]]; simpl in *; try lia. reflexivity. }
    set (col := fun j => match j with O => P N (A1 s0) x | S j => P N (A2 (stk l s0 j)) x end).
    assert (HI : forall k, (k <= N - 2)%nat -> Inv k (stk l s0 k)) by (intros; apply run_inv; auto; lia).
    assert (HA1 : forall k, (k <= N - 2)%nat -> P N (A1 (stk l s0 k)) x = col k).
    { intros [|k] Hk; [reflexivity|]. rewrite stk_S by lia.
      destruct (Hstep k (stk l s0 k) (nth k l 0)) as (_ & -> & _); auto; [apply HI; lia | lia]. }
    exists (fun j => col j - chebT j y). repeat split.
    - unfold col. rewrite E1. cbn. ring.
    - unfold col. change (stk l s0 0) with s0. rewrite E2. cbn. ring.
    - intros n Hn.
      destruct (Hstep n (stk l s0 n) (nth n l 0)) as (_ & _ & HB & _); [apply HI; lia | lia |].
      rewrite <- stk_S in HB by lia. rewrite HA1 in HB by lia.
      rewrite chebT_SS. unfold col. unfold col in HB.
      replace (_ - _) with
        (P N (A2 (stk l s0 (S n))) x - (2 * y * P N (A2 (stk l s0 n)) x -
            match n with O => P N (A1 s0) x | S j => P N (A2 (stk l s0 j)) x end)) by ring.
      exact HB.
    - assert (HT : forall k, (k <= N - 2)%nat -> P N (TC (stk l s0 k)) x = sumn (S (S k)) (fun j => nth j c 0 * col j)).
      { induction k; intros Hk.
        - change (stk l s0 0) with s0. rewrite E3. cbn [sumn]. unfold col.
          change (stk l s0 0) with s0. rewrite E1, E2. ring.
        - rewrite stk_S by lia.
          destruct (Hstep k (stk l s0 k) (nth k l 0)) as (_ & _ & _ & HB); [apply HI; lia | lia |].
          rewrite HB, IHk by lia. rewrite <- stk_S by lia. rewrite Hln. reflexivity. }
      replace (fold_left stepf l s0) with (stk l s0 (N - 2)).
      2:{ unfold stk. rewrite firstn_all2 by lia. reflexivity. }
      rewrite HT by lia. replace (S (S (N - 2))) with N by lia.
      apply sumn_ext. intros. ring.
  Qed.
End Run.

Lemma err_sum N c e tau : 0 <= tau ->
  (forall j, (j < N)%nat -> Rabs (e j) <= INR j * INR (j - 1) / 2 * tau) ->
  Rabs (sumn N (fun j => nth j c 0 * e j)) <= tau * (INR (N - 1) * INR (N - 2) / 2) * sumn N (fun j => Rabs (nth j c 0)).
Proof.
  intros Ht He. eapply Rle_trans; [apply sumn_abs|].
  rewrite <- sumn_scal. apply sumn_le. intros j Hj. rewrite Rabs_mult, Rmult_comm.
  apply Rmult_le_compat_r; [apply Rabs_pos|]. eapply Rle_trans; [apply He; auto|].
  rewrite (Rmult_comm _ tau). apply Rmult_le_compat_l; auto.
  assert (INR j * INR (j - 1) <= INR (N - 1) * INR (N - 2)); [|lra].
  apply Rmult_le_compat; try apply pos_INR; apply le_INR; lia.
Qed.

(** ** The plain transform *)
Record tinv (N : nat) (alpha : R) (k : nat) (st : tst) : Prop := {
  ti_1 : length (t1 st) = N; ti_2 : length (t2 st) = N;
  ti_3 : length (t3 st) = N; ti_c : length (tc st) = N;
  ti_s1 : suppT (mr st) (t1 st); ti_s2 : suppT (mr st) (t2 st); ti_s3 : suppT (mr st) (t3 st);
  ti_sc : suppT (mr st) (tc st);
  ti_m : (2 <= mr st <= k + 2)%nat;
  ti_top : mr st = (k + 2)%nat -> nth (k + 1) (t2 st) 0 = alpha ^ (k + 1)
}.

Lemma tau16_pos : 0 < tau16.
Proof. unfold tau16. rewrite nlit_R. apply Rdiv_lt_0_compat; apply IZR_lt; lia. Qed.
Lemma tau32_pos : 0 < tau32.
Proof. unfold tau32. rewrite nlit_R. apply Rdiv_lt_0_compat; apply IZR_lt; lia. Qed.

Lemma tinv_step N alpha beta k st c : tinv N alpha k st -> (k + 2 < N)%nat ->
  tinv N alpha (S k) (@tstep R R_num alpha beta st c).
Proof.
  intros [L1 L2 L3 L4 S1 S2 S3 SC Hm HT] Hk.
  pose proof (tstep_spec N alpha beta st c L1 L2 L3 L4 S1 S2 S3 ltac:(lia)) as H. cbv zeta in H.
  destruct H as (E1 & E3 & L2' & L4' & Em & E2 & Ec).
  set (st' := @tstep R R_num alpha beta st c) in *. clearbody st'.
  assert (Hsup : suppT (mr st') (t2 st')).
  { intros i Hi. rewrite E2, Em in *. destruct (Rltb _ _).
    - destruct (Nat.eqb_spec i (mr st)); [lia|]. unfold form. rewrite shift2x_ge2 by lia.
      rewrite (S1 i), (S2 i), (S2 (i-1)%nat), (S2 (i+1)%nat) by lia. ring.
    - destruct (Nat.eqb_spec i (mr st)); auto. unfold form. rewrite shift2x_ge2 by lia.
      rewrite (S1 i), (S2 i), (S2 (i-1)%nat), (S2 (i+1)%nat) by lia. ring. }
  assert (Hmr : (mr st <= mr st' <= S (mr st))%nat) by (rewrite Em; destruct (Rltb _ _); lia).
  constructor; rewrite ?E1, ?E3; auto.
  - intros i Hi. apply S2; lia.
  - intros i Hi. apply S1; lia.
  - intros i Hi. rewrite Ec, SC, Hsup by lia. ring.
  - lia.
  - intros Hf. assert (Hk2 : mr st = (k + 2)%nat) by lia.
    rewrite E2. destruct (Nat.eqb_spec (S k + 1) (mr st)); [|lia].
    assert (Hkeep : Rltb tau16 (Rabs (alpha * nth (mr st - 1) (t2 st) 0)) = true).
    { destruct (Rltb _ _); auto. lia. }
    rewrite Hkeep. rewrite Hk2. replace (k + 2 - 1)%nat with (k + 1)%nat by lia.
    rewrite HT by auto. replace (S k + 1)%nat with (S (k + 1)) by lia.
    simpl. ring.
Qed.

Lemma P_ext N l1 l2 x : (forall i, nth i l1 0 = nth i l2 0) -> P N l1 x = P N l2 x.
Proof. intros H. apply sumn_ext. intros; rewrite H; auto. Qed.
Lemma P_lin N l1 l2 l3 c x : (forall i, nth i l1 0 = nth i l2 0 + c * nth i l3 0) ->
  P N l1 x = P N l2 x + c * P N l3 x.
Proof.
  intros H. unfold P. rewrite <- sumn_scal, <- sumn_plus. apply sumn_ext. intros; rewrite H; ring.
Qed.

(** a list whose entries differ from F at finitely many places *)
Lemma sum_one N (F : nat -> R) m v x : (m < N)%nat ->
  sumn N (fun i => (if Nat.eqb i m then v else F i) * chebT i x) =
  sumn N (fun i => F i * chebT i x) + (v - F m) * chebT m x.
Proof.
  intros H. rewrite (sumn_ext N _ (fun i => F i * chebT i x + (if Nat.eqb i m then v - F m else 0) * chebT i x)).
  - rewrite sumn_plus. f_equal. rewrite (sumn_single N m); auto.
    + rewrite Nat.eqb_refl. reflexivity.
    + intros i Hi Hn. destruct (Nat.eqb_spec i m); [contradiction|ring].
  - intros i Hi. destruct (Nat.eqb_spec i m); subst; ring.
Qed.

Definition tbnd (k : nat) (st : @tst R) : R := if Nat.eqb (mr st) (k + 2) then 0 else tau16.

Lemma trun_step N alpha beta x k st c : -1 <= x <= 1 \/ mr (@tstep R R_num alpha beta st c) = (S k + 2)%nat ->
  tinv N alpha k st -> (k + 2 < N)%nat ->
  let s' := @tstep R R_num alpha beta st c in
  t1 s' = t2 st /\
  Rabs (P N (t2 s') x - (2 * (alpha * x + beta) * P N (t2 st) x - P N (t1 st) x)) <= tbnd (S k) s' /\
  P N (tc s') x = P N (tc st) x + c * P N (t2 s') x.
Proof.
  intros Hx [L1 L2 L3 L4 S1 S2 S3 SC Hm HT] Hk.
  pose proof (tstep_spec N alpha beta st c L1 L2 L3 L4 S1 S2 S3 ltac:(lia)) as H. cbv zeta in H.
  destruct H as (E1 & E3 & L2' & L4' & Em & E2 & Ec). cbv zeta.
  set (st' := @tstep R R_num alpha beta st c) in *. clearbody st'.
  split; auto. split; [|apply P_lin; auto].
  assert (EP : P N (t2 st') x = sumn (S N) (fun i => (if Nat.eqb i (mr st) then
     (if Rltb tau16 (Rabs (alpha * nth (mr st - 1) (t2 st) 0)) then alpha * nth (mr st - 1) (t2 st) 0 else 0)
      else form alpha beta (fun i => nth i (t1 st) 0) (fun i => nth i (t2 st) 0) i) * chebT i x)).
  { unfold P. apply sumn_ext. intros; rewrite E2; auto. }
  rewrite EP, sum_one by lia.
  assert (Hf : sumn (S N) (fun i => form alpha beta (fun i0 => nth i0 (t1 st) 0) (fun i0 => nth i0 (t2 st) 0) i * chebT i x)
     = 2 * (alpha * x + beta) * P N (t2 st) x - P N (t1 st) x).
  { unfold P. replace (S N) with (S (S (N - 1))) by lia.
    apply sum_form; apply nth_overflow; lia. }
  rewrite Hf.
  assert (HFm : form alpha beta (fun i => nth i (t1 st) 0) (fun i => nth i (t2 st) 0) (mr st) = alpha * nth (mr st - 1) (t2 st) 0).
  { unfold form. rewrite shift2x_ge2 by lia.
    rewrite (S1 (mr st)), (S2 (mr st)), (S2 (mr st+1)%nat) by lia. ring. }
  rewrite HFm. unfold tbnd. rewrite Em in *.
  destruct (Rltb tau16 (Rabs (alpha * nth (mr st - 1) (t2 st) 0))) eqn:K.
  - match goal with |- Rabs ?e <= _ => replace e with 0 by ring end. rewrite Rabs_R0.
    destruct (Nat.eqb _ _); [lra|]. left; apply tau16_pos.
  - destruct (Nat.eqb_spec (mr st) (S k + 2)); [lia|].
    destruct Hx as [Hx|Hx]; [|lia]. apply Rltb_false in K.
    match goal with |- Rabs ?e <= _ => replace e with (- (alpha * nth (mr st - 1) (t2 st) 0 * chebT (mr st) x)) by ring end.
    rewrite Rabs_Ropp, Rabs_mult. pose proof (chebT_bound (mr st) x Hx).
    pose proof (Rabs_pos (chebT (mr st) x)). pose proof (Rabs_pos (alpha * nth (mr st - 1) (t2 st) 0)). nra.
Qed.

Definition tinit (c : list R) (alpha beta : R) : @tst R :=
  let z := repeat 0 (length c) in
  mkTst (upd z 0 1) (upd (upd z 0 beta) 1 alpha) z
    (upd (upd (upd z 0 (nth 0 c 0)) 0 (nth 0 c 0 + beta * nth 1 c 0)) 1 (alpha * nth 1 c 0)) 2.

Lemma nth_repeat0 n i : nth i (repeat 0 n) 0 = 0.
Proof. revert i; induction n; intros [|i]; simpl; auto. Qed.

Lemma transform1D_unfold c alpha beta : (2 <= length c)%nat ->
  @transform1D R R_num c alpha beta =
  firstn (mr (fold_left (tstep alpha beta) (skipn 2 c) (tinit c alpha beta)))
         (tc (fold_left (tstep alpha beta) (skipn 2 c) (tinit c alpha beta))).
Proof.
  intros H. destruct c as [|u [|v w]]; simpl in H; try lia. unfold transform1D, tinit.
  cbn [length repeat upd skipn g nth]. rnum. rewrite Rplus_0_l. reflexivity.
Qed.

Lemma tinit_inv c alpha beta : (2 <= length c)%nat -> tinv (length c) alpha 0 (tinit c alpha beta).
Proof.
  intros H. constructor; unfold tinit; cbn [t1 t2 t3 tc mr]; rewrite ?upd_length, ?repeat_length; auto.
  - intros i Hi. rewrite nth_upd_neq by lia. apply nth_repeat0.
  - intros i Hi. rewrite !nth_upd_neq by lia. apply nth_repeat0.
  - intros i Hi. apply nth_repeat0.
  - intros i Hi. rewrite !nth_upd_neq by lia. apply nth_repeat0.
  - intros _. rewrite nth_upd_eq by (rewrite upd_length, repeat_length; lia). simpl. ring.
Qed.

Lemma P_two N l a b x : (2 <= N)%nat -> nth 0 l 0 = a -> nth 1 l 0 = b ->
  suppT 2 l -> P N l x = a + b * x.
Proof.
  intros HN Ha Hb Hs. unfold P. rewrite (sumn_extend 2) by (try lia; intros i Hi; rewrite Hs by lia; ring).
  cbn [sumn]. rewrite Ha, Hb, chebT_0, chebT_1. ring.
Qed.

Lemma tinit_vals c alpha beta x : (2 <= length c)%nat ->
  P (length c) (t1 (tinit c alpha beta)) x = 1 /\
  P (length c) (t2 (tinit c alpha beta)) x = alpha * x + beta /\
  P (length c) (tc (tinit c alpha beta)) x = nth 0 c 0 + nth 1 c 0 * (alpha * x + beta).
Proof.
  intros H. destruct (tinit_inv c alpha beta H) as [_ _ _ _ S1 S2 _ SC _ _].
  destruct c as [|u [|v w]]; simpl in H; try lia. repeat split.
  - rewrite (P_two _ _ 1 0); auto; simpl; try lia; ring.
  - rewrite (P_two _ _ beta alpha); auto; simpl; try lia; ring.
  - rewrite (P_two _ _ (u + beta * v) (alpha * v)); auto; simpl; try lia; ring.
Qed.

Definition tfinal c alpha beta := fold_left (@tstep R R_num alpha beta) (skipn 2 c) (tinit c alpha beta).

Lemma tfinal_inv c alpha beta k : (2 <= length c)%nat -> (k <= length c - 2)%nat ->
  tinv (length c) alpha k (stk (@tstep R R_num alpha beta) (skipn 2 c) (tinit c alpha beta) k).
Proof.
  intros H Hk.
  enough (Hg : forall k, (k <= length c - 2)%nat -> tinv (length c) alpha k (stk (@tstep R R_num alpha beta) (skipn 2 c) (tinit c alpha beta) k)) by auto.
  clear k Hk. induction k; intros Hk; [apply tinit_inv; auto|].
  rewrite stk_S by (rewrite skipn_length; lia). apply tinv_step; [apply IHk; lia | lia].
Qed.
Lemma stk_all {S0} (f : S0 -> R -> S0) l s k : (length l <= k)%nat -> stk f l s k = fold_left f l s.
Proof. intros H. unfold stk. rewrite firstn_all2; auto. Qed.

(** cutting zeros off the end does not change the value *)
Lemma P_firstn N l m x : length l = N -> suppT m l -> P N l x = cheb1 (firstn m l) x.
Proof.
  intros Hl Hs. rewrite P_cheb1 by auto. unfold cheb1. rewrite firstn_length.
  rewrite (sumn_extend (Nat.min m (length l))) by (try lia; intros i Hi; rewrite Hs by lia; ring).
  apply sumn_ext. intros i Hi. f_equal.
  rewrite <- (firstn_skipn m l) at 1. rewrite app_nth1; auto. rewrite firstn_length. auto.
Qed.

Lemma length_transform1D c alpha beta : (2 <= length c)%nat ->
  length (@transform1D R R_num c alpha beta) = mr (tfinal c alpha beta) /\ (2 <= mr (tfinal c alpha beta) <= length c)%nat.
Proof.
  intros H. pose proof (tfinal_inv c alpha beta (length c - 2) H (Nat.le_refl _)) as HI.
  rewrite stk_all in HI by (rewrite skipn_length; lia). fold (tfinal c alpha beta) in HI.
  destruct HI as [_ _ _ HC _ _ _ _ Hm _].
  rewrite transform1D_unfold by auto. fold (tfinal c alpha beta). rewrite firstn_length. lia.
Qed.

(** every intermediate maxRow is full if the final one is *)
Lemma mr_step_mono alpha beta st c : (mr (@tstep R R_num alpha beta st c) <= S (mr st))%nat.
Proof. unfold tstep. cbn [mr]. destruct (ngtb _ _); lia. Qed.
Lemma mr_full c alpha beta k : (2 <= length c)%nat -> (k <= length c - 2)%nat ->
  mr (tfinal c alpha beta) = length c ->
  mr (stk (@tstep R R_num alpha beta) (skipn 2 c) (tinit c alpha beta) k) = (k + 2)%nat.
Proof.
  intros H Hk Hf.
  assert (Hg : forall j, (j <= length c - 2)%nat ->
     mr (stk (@tstep R R_num alpha beta) (skipn 2 c) (tinit c alpha beta) (length c - 2 - j)) = (length c - j)%nat).
  { induction j; intros Hj.
    - rewrite stk_all by (rewrite skipn_length; lia). fold (tfinal c alpha beta). lia.
    - pose proof (mr_step_mono alpha beta (stk (tstep alpha beta) (skipn 2 c) (tinit c alpha beta) (length c - 2 - S j)) (nth (length c - 2 - S j) (skipn 2 c) 0)) as Hs.
      rewrite <- stk_S in Hs by (rewrite skipn_length; lia).
      replace (S (length c - 2 - S j)) with (length c - 2 - j)%nat in Hs by lia. rewrite IHj in Hs by lia.
      pose proof (ti_m _ _ _ _ (tfinal_inv c alpha beta (length c - 2 - S j) H ltac:(lia))). lia. }
  specialize (Hg (length c - 2 - k)%nat ltac:(lia)).
  replace (length c - 2 - (length c - 2 - k))%nat with k in Hg by lia. lia.
Qed.

Lemma transform1D_exact c alpha beta x : (2 <= length c)%nat ->
  length (@transform1D R R_num c alpha beta) = length c ->
  cheb1 (@transform1D R R_num c alpha beta) x = cheb1 c (alpha * x + beta).
Proof.
  intros H Hfull. destruct (length_transform1D c alpha beta H) as [HL HM]. rewrite HL in Hfull.
  destruct (tinit_vals c alpha beta x H) as (V1 & V2 & V3).
  pose proof (tfinal_inv c alpha beta (length c - 2) H (Nat.le_refl _)) as HI.
  rewrite stk_all in HI by (rewrite skipn_length; lia). fold (tfinal c alpha beta) in HI.
  rewrite transform1D_unfold by auto. fold (tfinal c alpha beta).
  rewrite <- (P_firstn (length c)) by apply HI.
  set (I := fun k s => s = stk (@tstep R R_num alpha beta) (skipn 2 c) (tinit c alpha beta) k).
  (* run the loop with the concrete coefficients *)
  pose (f := @tstep R R_num alpha beta).
  assert (Hg : forall k, (k <= length c - 2)%nat ->
     P (length c) (t1 (stk f (skipn 2 c) (tinit c alpha beta) k)) x = chebT k (alpha * x + beta) /\
     P (length c) (t2 (stk f (skipn 2 c) (tinit c alpha beta) k)) x = chebT (S k) (alpha * x + beta) /\
     P (length c) (tc (stk f (skipn 2 c) (tinit c alpha beta) k)) x = sumn (k + 2) (fun j => nth j c 0 * chebT j (alpha * x + beta))).
  { induction k; intros Hk.
    - change (stk f (skipn 2 c) (tinit c alpha beta) 0) with (tinit c alpha beta). rewrite V1, V2, V3.
      cbn. repeat split; ring.
    - destruct IHk as (I1 & I2 & I3); [lia|].
      assert (Hmr := mr_full c alpha beta (S k) H ltac:(lia) Hfull).
      rewrite stk_S in * by (rewrite skipn_length; lia). unfold f in *.
      destruct (trun_step (length c) alpha beta x k _ _ (or_intror Hmr) (tfinal_inv c alpha beta k H ltac:(lia)) ltac:(lia))
        as (B1 & B2 & B3).
      rewrite B1, B3, I2, I3. rewrite I1, I2 in B2. unfold tbnd in B2. rewrite Hmr, Nat.eqb_refl in B2.
      assert (E : P (length c) (t2 (tstep alpha beta (stk (tstep alpha beta) (skipn 2 c) (tinit c alpha beta) k) (nth k (skipn 2 c) 0))) x
              = chebT (S (S k)) (alpha * x + beta)).
      { rewrite chebT_SS. pose proof (Rabs_pos (P (length c) (t2 (tstep alpha beta (stk (tstep alpha beta) (skipn 2 c) (tinit c alpha beta) k) (nth k (skipn 2 c) 0))) x - (2 * (alpha * x + beta) * chebT (S k) (alpha * x + beta) - chebT k (alpha * x + beta)))).
        assert (E0 := Rle_antisym _ _ B2 H0). revert E0; unfold Rabs; destruct Rcase_abs; intros; lra. }
      rewrite E. repeat split; auto.
      replace (S k + 2)%nat with (S (k + 2)) by lia. cbn [sumn]. f_equal.
      replace (nth k (skipn 2 c) 0) with (nth (k + 2) c 0). replace (k + 2)%nat with (S (S k)) by lia. reflexivity.
      clear - H. destruct c as [|u [|v w]]; simpl in *; try lia. replace (k + 2)%nat with (S (S k)) by lia. reflexivity. }
  destruct (Hg (length c - 2)%nat (Nat.le_refl _)) as (_ & _ & E).
  rewrite stk_all in E by (rewrite skipn_length; lia). unfold f in E. fold (tfinal c alpha beta) in E. rewrite E.
  replace (length c - 2 + 2)%nat with (length c) by lia. reflexivity.
Qed.

Lemma transform1D_bound c alpha beta x : (2 <= length c)%nat ->
  -1 <= x <= 1 -> -1 <= alpha * x + beta <= 1 ->
  Rabs (cheb1 (@transform1D R R_num c alpha beta) x - cheb1 c (alpha * x + beta))
    <= tau16 * (INR (length c - 1) * INR (length c - 2) / 2) * sumn (length c) (fun j => Rabs (nth j c 0)).
Proof.
  intros H Hx Hy. destruct (tinit_vals c alpha beta x H) as (V1 & V2 & V3).
  pose proof (tfinal_inv c alpha beta (length c - 2) H (Nat.le_refl _)) as HI.
  rewrite stk_all in HI by (rewrite skipn_length; lia). fold (tfinal c alpha beta) in HI.
  rewrite transform1D_unfold by auto. fold (tfinal c alpha beta).
  rewrite <- (P_firstn (length c)) by apply HI.
  destruct (run_spec (@tstep R R_num alpha beta) t1 t2 tc (length c) x (alpha * x + beta) (tinv (length c) alpha) tbnd)
    with (c := c) (s0 := tinit c alpha beta) as (e & e0 & e1 & eS & E); auto.
  - intros k s v Hs Hk. split; [apply tinv_step; auto|]. apply (trun_step (length c) alpha beta x k s v); auto.
  - apply tinit_inv; auto.
  - unfold tfinal. rewrite E. unfold cheb1.
    rewrite (sumn_ext _ (fun j => nth j c 0 * (chebT j (alpha * x + beta) + e j))
       (fun j => nth j c 0 * chebT j (alpha * x + beta) + nth j c 0 * e j)) by (intros; ring).
    rewrite sumn_plus. match goal with |- Rabs ?v <= _ => replace v with (sumn (length c) (fun j => nth j c 0 * e j)) by ring end.
    apply err_sum; [left; apply tau16_pos|].
    apply (recurrence_bound_upto e (alpha * x + beta)); auto; [left; apply tau16_pos|].
    intros n Hn. eapply Rle_trans; [apply eS; auto|]. unfold tbnd.
    destruct (Nat.eqb _ _); [left; apply tau16_pos | lra].
Qed.
