(** * The error-free versions of the 1-D transform, over the reals *)
From Coq Require Import Reals List Lia Lra Arith Bool ZArith.
From Verif Require Import Num Tensor RSum Cheb PolySpec TransformModel TransformProofs.
Import ListNotations.
Local Open Scope R_scope.

Lemma TwoSum_R a b : @TwoSum R R_num a b = (a + b, 0).
Proof. unfold TwoSum. rnum. f_equal. ring. Qed.
Lemma Split_R a : @Split R R_num a = (a, 0).
Proof. unfold Split. rnum. f_equal; ring. Qed.
Lemma TwoProdWithSplit_R a b : @TwoProdWithSplit R R_num a b a 0 = (a * b, 0).
Proof. unfold TwoProdWithSplit. rewrite Split_R. rnum. f_equal. ring. Qed.
Lemma TwoProd_R a b : @TwoProd R R_num a b = (a * b, 0).
Proof. unfold TwoProd. rewrite !Split_R. rnum. f_equal. ring. Qed.

Ltac csplit := repeat match goal with |- _ /\ _ => split end.
Definition zeroL (l : list R) : Prop := forall i, nth i l 0 = 0.

Definition uptoE (F : nat -> R) (c : R) (a3 tc0 : list R) (j : nat) (p : list R * list R * list R) : Prop :=
  let '(u, e, t) := p in
  length u = length a3 /\ length e = length a3 /\ length t = length tc0 /\ zeroL e /\
  (forall i, nth i u 0 = if Nat.ltb i j then F i else nth i a3 0) /\
  (forall i, nth i t 0 = if Nat.ltb i j then nth i tc0 0 + c * F i else nth i tc0 0).

Lemma uptoE_put F c a3 tc0 j p v e : uptoE F c a3 tc0 j p ->
  (j < length a3)%nat -> length tc0 = length a3 -> v = F j -> e = 0 ->
  uptoE F c a3 tc0 (S j) (@putE R R_num c j v e p).
Proof.
  destruct p as [[u e0] t]. intros (L1 & L2 & L3 & Z & E1 & E2) Hj Hl -> ->. unfold putE, uptoE; simpl. rnum.
  rewrite !upd_length. csplit; auto; try intros i.
  - rewrite nth_upd by lia. destruct (Nat.eqb _ _); auto.
  - rewrite nth_upd by lia. destruct (Nat.eqb_spec i j).
    + subst. destruct (Nat.ltb_spec j (S j)); [auto|lia].
    + rewrite E1. destruct (Nat.ltb_spec i j), (Nat.ltb_spec i (S j)); auto; lia.
  - rewrite nth_upd by lia. destruct (Nat.eqb_spec i j).
    + subst. destruct (Nat.ltb_spec j (S j)); [|lia]. unfold g. change (@n0 R R_num) with 0.
      rewrite E2. destruct (Nat.ltb_spec j j); [lia|]. ring.
    + rewrite E2. destruct (Nat.ltb_spec i j), (Nat.ltb_spec i (S j)); auto; lia.
Qed.

Lemma uptoE_fold F c a3 tc0 (h : list R * list R * list R -> nat -> list R * list R * list R) m : forall j p,
  uptoE F c a3 tc0 j p ->
  (forall i p, (j <= i < j + m)%nat -> uptoE F c a3 tc0 i p -> uptoE F c a3 tc0 (S i) (h p i)) ->
  uptoE F c a3 tc0 (j + m) (fold_left h (seq j m) p).
Proof.
  induction m; intros j p H Hh; simpl.
  - rewrite Nat.add_0_r; auto.
  - rewrite Nat.add_succ_r, <- Nat.add_succ_l. apply IHm.
    + apply Hh; auto; lia.
    + intros; apply Hh; auto; lia.
Qed.

(** The column written by one pass when column k-1 is [a2] and k-2 is [a1]. *)
Definition ecol (alpha beta : R) (a1 a2 : nat -> R) (m i : nat) : R :=
  if Nat.ltb m i then 0
  else if Nat.eqb i m then alpha * a2 (m - 1)%nat
  else if Nat.eqb i (m - 1) then form alpha beta a1 a2 i - alpha * a2 m
  else form alpha beta a1 a2 i.

Definition espec (N : nat) (alpha beta c : R) (st st' : @est R) : Prop :=
  let fv := alpha * nth (er st - 1) (e2 st) 0 in
  e1 st' = e2 st /\ e3 st' = e1 st /\ f1 st' = f2 st /\ f3 st' = f1 st /\
  length (e2 st') = N /\ length (ec st') = N /\ length (f2 st') = N /\ zeroL (f2 st') /\
  er st' = (if Rltb tau32 (Rabs fv) then S (er st) else er st) /\
  (forall i, nth i (e2 st') 0 = ecol alpha beta (fun i => nth i (e1 st) 0) (fun i => nth i (e2 st) 0) (er st) i) /\
  (forall i, nth i (ec st') 0 = nth i (ec st) 0 + c * nth i (e2 st') 0).

Record epre (N : nat) (st : @est R) : Prop := {
  ep_1 : length (e1 st) = N; ep_2 : length (e2 st) = N; ep_3 : length (e3 st) = N; ep_c : length (ec st) = N;
  ep_f1 : length (f1 st) = N; ep_f2 : length (f2 st) = N; ep_f3 : length (f3 st) = N;
  ep_z1 : zeroL (f1 st); ep_z2 : zeroL (f2 st); ep_z3 : zeroL (f3 st);
  ep_s1 : suppT (S (er st)) (e1 st); ep_s2 : suppT (S (er st)) (e2 st); ep_s3 : suppT (S (er st)) (e3 st);
  ep_m : (2 <= er st < N)%nat }.

Lemma ecol_lt alpha beta a1 a2 m i : (i < m - 1)%nat -> ecol alpha beta a1 a2 m i = form alpha beta a1 a2 i.
Proof.
  intros H. unfold ecol. destruct (Nat.ltb_spec m i); [lia|]. destruct (Nat.eqb_spec i m); [lia|].
  destruct (Nat.eqb_spec i (m - 1)); [lia|reflexivity].
Qed.
Lemma ecol_m1 alpha beta a1 a2 m : (2 <= m)%nat -> ecol alpha beta a1 a2 m (m - 1) = form alpha beta a1 a2 (m - 1) - alpha * a2 m.
Proof.
  intros H. unfold ecol. destruct (Nat.ltb_spec m (m - 1)); [lia|]. destruct (Nat.eqb_spec (m - 1) m); [lia|].
  rewrite Nat.eqb_refl; reflexivity.
Qed.
Lemma ecol_m alpha beta a1 a2 m : ecol alpha beta a1 a2 m m = alpha * a2 (m - 1)%nat.
Proof. unfold ecol. destruct (Nat.ltb_spec m m); [lia|]. rewrite Nat.eqb_refl. reflexivity. Qed.

Lemma finish_espec N alpha beta c st a3 a3E t keepv :
  epre N st ->
  uptoE (ecol alpha beta (fun i => nth i (e1 st) 0) (fun i => nth i (e2 st) 0) (er st)) c (e3 st) (ec st) (S (er st)) (a3, a3E, t) ->
  keepv = Rabs (alpha * nth (er st - 1) (e2 st) 0) ->
  espec N alpha beta c st
    (mkEst (e2 st) a3 (e1 st) (f2 st) a3E (f1 st) t (if Rltb tau32 keepv then S (er st) else er st)).
Proof.
  intros H (L1 & L2 & L3 & Z & E1 & E2) ->. destruct H as [? ? ? ? ? ? ? ? ? ? ? ? S3' ?].
  unfold espec; cbn [e1 e2 e3 f1 f2 f3 ec er]. csplit; auto; try lia.
  - intros i. rewrite E1. destruct (Nat.ltb_spec i (S (er st))); auto.
    rewrite S3' by lia. unfold ecol. destruct (Nat.ltb_spec (er st) i); [auto|lia].
  - intros i. rewrite E1, E2. destruct (Nat.ltb_spec i (S (er st))); auto.
    rewrite S3' by lia. ring.
Qed.

Ltac eft := rewrite ?TwoProdWithSplit_R, ?TwoSum_R; cbv beta iota zeta.

Lemma estep_spec N alpha beta st c : epre N st ->
  espec N alpha beta c st (@estep R R_num alpha beta st c).
Proof.
  intros H. pose proof H as H'. destruct H' as [L1 L2 L3 L4 L5 L6 L7 Z1 Z2 Z3 S1 S2 S3 Hm].
  destruct st as [a1 a2 a3 b1 b2 b3 tc0 m]; cbn [e1 e2 e3 f1 f2 f3 ec er] in *.
  set (F := ecol alpha beta (fun i => nth i a1 0) (fun i => nth i a2 0) m).
  unfold estep. rewrite !Split_R. cbn [e1 e2 e3 f1 f2 f3 ec er]. cbv zeta.
  eft.
  set (p0 := putE c 0 _ _ _).
  assert (U0 : uptoE F c a3 tc0 1 p0).
  { apply uptoE_put; try lia.
    - unfold uptoE; csplit; auto; congruence.
    - unfold g. rnum. rewrite n2_R. unfold F. destruct (Nat.eq_dec m 1); [lia|].
      rewrite ecol_lt by lia. unfold form, shift2x. ring.
    - unfold g. rnum. rewrite !Z1, !Z2. ring. }
  clearbody p0.
  set (p1 := if Nat.ltb 2 m then _ else p0).
  assert (U1 : uptoE F c a3 tc0 (if Nat.ltb 2 m then 2 else 1) p1).
  { unfold p1. destruct (Nat.ltb_spec 2 m); auto. eft. apply uptoE_put; auto; try lia.
    - unfold g. rnum. rewrite n2_R. unfold F. rewrite ecol_lt by lia. unfold form, shift2x. ring.
    - unfold g. rnum. rewrite !Z1, !Z2. ring. }
  clearbody p1.
  set (p2 := fold_left _ _ p1).
  assert (U2 : uptoE F c a3 tc0 (m - 1) p2).
  { unfold p2. destruct (Nat.ltb_spec 2 m).
    - replace (m - 1)%nat with (2 + (m - 1 - 2))%nat at 1 by lia.
      apply uptoE_fold; auto. intros i p Hi Hp. eft. apply uptoE_put; auto; try lia.
      + unfold g. rnum. rewrite n2_R. unfold F. rewrite ecol_lt by lia. unfold form. rewrite shift2x_ge2 by lia. ring.
      + unfold g. rnum. rewrite !Z1, !Z2. ring.
    - replace m with 2%nat in * by lia. simpl. auto. }
  clearbody p2.
  set (p3 := putE c (m - 1) _ _ p2).
  assert (U3 : uptoE F c a3 tc0 m p3).
  { unfold p3. replace m with (S (m - 1))%nat at 1 by lia. apply uptoE_put; auto; try lia.
    - unfold g. rnum. rewrite n2_R. unfold F. rewrite ecol_m1 by lia. unfold form.
      destruct (Nat.eqb_spec (m - 1) 1) as [E|E].
      + rewrite E. replace m with 2%nat by lia. simpl. ring.
      + rewrite shift2x_ge2 by lia. replace (m - 1 + 1)%nat with m by lia. ring.
    - unfold g. rnum. rewrite !Z1, !Z2. ring. }
  clearbody p3.
  set (p4 := putE c m _ _ p3).
  assert (U4 : uptoE F c a3 tc0 (S m) p4).
  { unfold p4. apply uptoE_put; auto; try lia.
    - unfold g. rnum. unfold F. rewrite ecol_m. reflexivity.
    - unfold g. rnum. rewrite !Z2. ring. }
  clearbody p4. destruct p4 as [[u v] w].
  apply (finish_espec N alpha beta c (mkEst a1 a2 a3 b1 b2 b3 tc0 m)); auto.
  cbn [e1 e2 er]. unfold g. rnum. rewrite Z2. f_equal. ring.
Qed.

Lemma sstep_spec N bs st c : epre N st ->
  espec N (/ 2) (bs / 2) c st (@sstep R R_num bs st c).
Proof.
  intros H. pose proof H as H'. destruct H' as [L1 L2 L3 L4 L5 L6 L7 Z1 Z2 Z3 S1 S2 S3 Hm].
  destruct st as [a1 a2 a3 b1 b2 b3 tc0 m]; cbn [e1 e2 e3 f1 f2 f3 ec er] in *.
  set (F := ecol (/ 2) (bs / 2) (fun i => nth i a1 0) (fun i => nth i a2 0) m).
  unfold sstep. cbn [e1 e2 e3 f1 f2 f3 ec er]. cbv zeta.
  eft.
  set (p0 := putE c 0 _ _ _).
  assert (U0 : uptoE F c a3 tc0 1 p0).
  { apply uptoE_put; try lia.
    - unfold uptoE; csplit; auto; congruence.
    - unfold g. rnum. rewrite n2_R. unfold F. rewrite ecol_lt by lia. unfold form, shift2x. field.
    - unfold g. rnum. rewrite !Z1, !Z2, n2_R. field. }
  clearbody p0.
  set (p1 := if Nat.ltb 2 m then _ else p0).
  assert (U1 : uptoE F c a3 tc0 (if Nat.ltb 2 m then 2 else 1) p1).
  { unfold p1. destruct (Nat.ltb_spec 2 m); auto. eft. apply uptoE_put; auto; try lia.
    - unfold g. rnum. rewrite n2_R. unfold F. rewrite ecol_lt by lia. unfold form, shift2x. field.
    - unfold g. rnum. rewrite !Z1, !Z2, n2_R. field. }
  clearbody p1.
  set (p2 := fold_left _ _ p1).
  assert (U2 : uptoE F c a3 tc0 (m - 1) p2).
  { unfold p2. destruct (Nat.ltb_spec 2 m).
    - replace (m - 1)%nat with (2 + (m - 1 - 2))%nat at 1 by lia.
      apply uptoE_fold; auto. intros i p Hi Hp. eft. apply uptoE_put; auto; try lia.
      + unfold g. rnum. rewrite n2_R. unfold F. rewrite ecol_lt by lia. unfold form. rewrite shift2x_ge2 by lia. field.
      + unfold g. rnum. rewrite !Z1, !Z2, n2_R. field.
    - replace m with 2%nat in * by lia. simpl. auto. }
  clearbody p2.
  set (p3 := putE c (m - 1) _ _ p2).
  assert (U3 : uptoE F c a3 tc0 m p3).
  { unfold p3. replace m with (S (m - 1))%nat at 1 by lia. apply uptoE_put; auto; try lia.
    - unfold g. rnum. rewrite nlit_R. unfold F. rewrite ecol_m1 by lia. unfold form.
      destruct (Nat.eqb_spec (m - 1) 1) as [E|E].
      + rewrite E. replace m with 2%nat by lia. simpl. field.
      + rewrite shift2x_ge2 by lia. replace (m - 1 + 1)%nat with m by lia. field.
    - unfold g. rnum. rewrite !Z1, !Z2. ring. }
  clearbody p3.
  set (p4 := putE c m _ _ p3).
  assert (U4 : uptoE F c a3 tc0 (S m) p4).
  { unfold p4. apply uptoE_put; auto; try lia.
    - unfold g. rnum. rewrite n2_R. unfold F. rewrite ecol_m. field.
    - unfold g. rnum. rewrite !Z2, n2_R. field. }
  clearbody p4. destruct p4 as [[u v] w].
  apply (finish_espec N (/ 2) (bs / 2) c (mkEst a1 a2 a3 b1 b2 b3 tc0 m)); auto.
  cbn [e1 e2 er]. unfold g. rnum. rewrite Z2, n2_R. f_equal. field.
Qed.

(** ** The loop of the exact versions *)
Record einv (N : nat) (alpha : R) (k : nat) (st : @est R) : Prop := {
  ei_pre : length (e1 st) = N /\ length (e2 st) = N /\ length (e3 st) = N /\ length (ec st) = N /\
           length (f1 st) = N /\ length (f2 st) = N /\ length (f3 st) = N /\
           zeroL (f1 st) /\ zeroL (f2 st) /\ zeroL (f3 st);
  ei_s1 : suppT (S (er st)) (e1 st); ei_s2 : suppT (S (er st)) (e2 st); ei_s3 : suppT (S (er st)) (e3 st);
  ei_sc : suppT (S (er st)) (ec st);
  ei_d1 : Rabs (nth (er st) (e1 st) 0) <= tau32; ei_d2 : Rabs (nth (er st) (e2 st) 0) <= tau32;
  ei_m : (2 <= er st <= k + 2)%nat;
  ei_full : er st = (k + 2)%nat -> suppT (er st) (e1 st) /\ suppT (er st) (e2 st) /\ suppT (er st) (ec st) /\
            nth (k + 1) (e2 st) 0 = alpha ^ (k + 1) }.

Lemma einv_pre N alpha k st : einv N alpha k st -> (k + 2 < N)%nat -> epre N st.
Proof.
  intros [P0 S1 S2 S3 SC D1 D2 Hm HF] Hk.
  decompose [and] P0. constructor; auto; lia.
Qed.

Lemma einv_step N alpha beta k st c st' : einv N alpha k st -> (k + 2 < N)%nat ->
  espec N alpha beta c st st' -> einv N alpha (S k) st'.
Proof.
  intros [P0 S1 S2 S3 SC D1 D2 Hm HF] Hk. unfold espec. cbv zeta.
  intros (E1 & E3 & F1 & F3 & LE & LC & LF & ZF & Em & E2 & Ec). decompose [and] P0. clear P0.
  assert (Hmr : (er st <= er st' <= S (er st))%nat) by (rewrite Em; destruct (Rltb _ _); lia).
  assert (Hs2 : suppT (S (er st)) (e2 st')).
  { intros i Hi. rewrite E2. unfold ecol. destruct (Nat.ltb_spec (er st) i); [auto|lia]. }
  constructor; rewrite ?E1, ?E3, ?F1, ?F3; auto.
  - csplit; auto.
  - intros i Hi. apply S2; lia.
  - intros i Hi. apply Hs2; lia.
  - intros i Hi. apply S1; lia.
  - intros i Hi. rewrite Ec, SC, Hs2 by lia. ring.
  - rewrite Em. destruct (Rltb _ _); auto. rewrite S2 by lia. rewrite Rabs_R0. left; apply tau32_pos.
  - rewrite Em. destruct (Rltb _ _) eqn:K.
    + rewrite Hs2 by lia. rewrite Rabs_R0. left; apply tau32_pos.
    + rewrite E2, ecol_m. apply Rltb_false; auto.
  - lia.
  - intros Hfull. assert (Hk2 : er st = (k + 2)%nat) by lia. destruct (HF Hk2) as (A1 & A2 & A3 & A4).
    csplit.
    + intros i Hi. apply A2; lia.
    + intros i Hi. apply Hs2; lia.
    + intros i Hi. rewrite Ec, A3, Hs2 by lia. ring.
    + rewrite E2. replace (S k + 1)%nat with (er st) by lia. rewrite ecol_m. rewrite Hk2.
      replace (k + 2 - 1)%nat with (k + 1)%nat by lia. rewrite A4. replace (k + 2)%nat with (S (k + 1)) by lia. reflexivity.
Qed.

Definition ebnd (k : nat) (st : @est R) : R := if Nat.eqb (er st) (k + 2) then 0 else 3 * tau32.

Lemma erun_step N alpha beta x k st c st' :
  (-1 <= x <= 1 /\ -1 <= alpha * x + beta <= 1) \/ er st' = (S k + 2)%nat ->
  einv N alpha k st -> (k + 2 < N)%nat -> espec N alpha beta c st st' ->
  e1 st' = e2 st /\
  Rabs (P N (e2 st') x - (2 * (alpha * x + beta) * P N (e2 st) x - P N (e1 st) x)) <= ebnd (S k) st' /\
  P N (ec st') x = P N (ec st) x + c * P N (e2 st') x.
Proof.
  intros Hx HI Hk. pose proof HI as [P0 S1 S2 S3 SC D1 D2 Hm HF]. intros HS. pose proof HS as HS'.
  revert HS'. unfold espec. cbv zeta.
  intros (E1 & E3 & F1 & F3 & LE & LC & LF & ZF & Em & E2 & Ec). decompose [and] P0. clear P0.
  split; auto. split; [|apply P_lin; auto].
  set (m := er st) in *.
  set (b1 := fun i => nth i (e1 st) 0). set (b2 := fun i => nth i (e2 st) 0).
  assert (Hf : sumn (S (S N)) (fun i => form alpha beta b1 b2 i * chebT i x)
     = 2 * (alpha * x + beta) * P N (e2 st) x - P N (e1 st) x).
  { rewrite sum_form by (apply nth_overflow; lia). unfold P.
    change (sumn (S (S N)) ?f) with (sumn (S N) f + f (S N)). cbv beta. unfold b1, b2.
    rewrite !(nth_overflow _ _ (n := S N)) by lia. ring. }
  assert (EP : P N (e2 st') x = sumn (S (S N)) (fun i => form alpha beta b1 b2 i * chebT i x)
       - alpha * b2 m * chebT (m - 1) x - alpha * b2 m * chebT (m + 1) x - (2 * beta * b2 m - b1 m) * chebT m x).
  { unfold P. rewrite <- (sumn_extend (S N) (S (S N)) (fun i => nth i (e2 st') 0 * chebT i x)).
    2: lia. 2:{ intros i Hi. rewrite nth_overflow by lia. ring. }
    rewrite (sumn_ext _ _ (fun i => (if Nat.eqb i m then alpha * b2 (m - 1)%nat else
        if Nat.eqb i (m - 1) then form alpha beta b1 b2 (m - 1) - alpha * b2 m else
        if Nat.eqb i (m + 1) then 0 else form alpha beta b1 b2 i) * chebT i x)).
    - rewrite sum_one by lia.
      destruct (Nat.eqb_spec m (m - 1)); [lia|]. destruct (Nat.eqb_spec m (m + 1)); [lia|].
      rewrite (sum_one _ (fun i => if Nat.eqb i (m + 1) then 0 else form alpha beta b1 b2 i)) by lia.
      destruct (Nat.eqb_spec (m - 1) (m + 1)); [lia|].
      rewrite (sum_one _ (fun i => form alpha beta b1 b2 i)) by lia.
      assert (X1 : form alpha beta b1 b2 (m + 1) = alpha * b2 m).
      { unfold form. rewrite shift2x_ge2 by lia. unfold b1, b2.
        rewrite (S1 (m + 1)%nat), (S2 (m + 1)%nat), (S2 (m + 1 + 1)%nat) by lia.
        replace (m + 1 - 1)%nat with m by lia. ring. }
      assert (X2 : form alpha beta b1 b2 m = alpha * b2 (m - 1)%nat + 2 * beta * b2 m - b1 m).
      { unfold form. rewrite shift2x_ge2 by lia. unfold b1, b2. rewrite (S2 (m + 1)%nat) by lia. ring. }
      rewrite X1, X2. ring.
    - intros i Hi. rewrite E2. f_equal. fold b1 b2. unfold ecol.
      destruct (Nat.eqb_spec i m).
      + subst i. destruct (Nat.ltb_spec m m); [lia|auto].
      + destruct (Nat.eqb_spec i (m - 1)).
        * subst i. destruct (Nat.ltb_spec m (m - 1)); [lia|auto].
        * destruct (Nat.eqb_spec i (m + 1)).
          -- subst i. destruct (Nat.ltb_spec m (m + 1)); [auto|lia].
          -- destruct (Nat.ltb_spec m i); auto. unfold form. rewrite shift2x_ge2 by lia. unfold b1, b2.
             rewrite (S1 i), (S2 i), (S2 (i - 1)%nat), (S2 (i + 1)%nat) by lia. ring. }
  rewrite EP, Hf. unfold ebnd.
  assert (HT : chebT (m + 1) x = 2 * x * chebT m x - chebT (m - 1) x).
  { replace (m + 1)%nat with (S (S (m - 1))) by lia. rewrite chebT_SS. replace (S (m - 1)) with m by lia. reflexivity. }
  rewrite HT.
  match goal with |- Rabs ?v <= _ => replace v with (- (2 * (alpha * x + beta) * b2 m * chebT m x) + b1 m * chebT m x) by ring end.
  destruct (Nat.eqb_spec (er st') (S k + 2)).
  - assert (Hm2 : m = (k + 2)%nat) by (rewrite Em in e; destruct (Rltb _ _); lia).
    destruct (HF Hm2) as (B1 & B2 & _). unfold b1, b2. rewrite (B1 m), (B2 m) by lia.
    match goal with |- Rabs ?v <= _ => replace v with 0 by ring end. rewrite Rabs_R0; lra.
  - destruct Hx as [[Hx Hy]|Hx]; [|contradiction].
    eapply Rle_trans; [apply Rabs_triang|]. rewrite Rabs_Ropp, !Rabs_mult.
    fold (b1 m) in D1. fold (b2 m) in D2.
    pose proof (chebT_bound m x Hx). pose proof (Rabs_pos (chebT m x)).
    assert (Rabs (alpha * x + beta) <= 1) by (apply Rabs_le; lra).
    pose proof (Rabs_pos (alpha * x + beta)). pose proof (Rabs_pos (b1 m)). pose proof (Rabs_pos (b2 m)).
    rewrite (Rabs_pos_eq 2) by lra. pose proof tau32_pos.
    assert (Rabs (alpha * x + beta) * Rabs (b2 m) <= 1 * tau32) by (apply Rmult_le_compat; auto).
    assert (0 <= Rabs (alpha * x + beta) * Rabs (b2 m)) by (apply Rmult_le_pos; auto).
    assert (Rabs (alpha * x + beta) * Rabs (b2 m) * Rabs (chebT m x) <= 1 * tau32 * 1) by (apply Rmult_le_compat; auto).
    assert (Rabs (b1 m) * Rabs (chebT m x) <= tau32 * 1) by (apply Rmult_le_compat; auto). lra.
Qed.

(** Abstract exact run: [f] is a step obeying [espec] *)
Section ERun.
  Variables (f : @est R -> R -> @est R) (c : list R) (alpha beta : R).
  Hypothesis Hc : (2 <= length c)%nat.
  Hypothesis Hf : forall st v, epre (length c) st -> espec (length c) alpha beta v st (f st v).
  Definition einit : @est R :=
    let z := repeat 0 (length c) in let t := tinit c alpha beta in
    mkEst (t1 t) (t2 t) z z z z (tc t) 2.
  Definition efinal := fold_left f (skipn 2 c) einit.

  Lemma einit_inv : einv (length c) alpha 0 einit.
  Proof.
    destruct (tinit_inv c alpha beta Hc) as [L1 L2 L3 L4 S1 S2 S3 SC Hm HT].
    constructor; unfold einit; cbn [e1 e2 e3 f1 f2 f3 ec er]; rewrite ?repeat_length; auto.
    - csplit; auto; intros i; apply nth_repeat0.
    - intros i Hi; apply S1; simpl; lia.
    - intros i Hi; apply S2; simpl; lia.
    - intros i Hi; apply nth_repeat0.
    - intros i Hi; apply SC; simpl; lia.
    - rewrite S1 by (simpl; lia). rewrite Rabs_R0. left; apply tau32_pos.
    - rewrite S2 by (simpl; lia). rewrite Rabs_R0. left; apply tau32_pos.
  Qed.

  Lemma einv_all k : (k <= length c - 2)%nat -> einv (length c) alpha k (stk f (skipn 2 c) einit k).
  Proof.
    induction k; intros Hk; [apply einit_inv|].
    rewrite stk_S by (rewrite skipn_length; lia).
    eapply einv_step; [apply IHk; lia | lia |]. apply Hf. apply (einv_pre _ alpha k); [apply IHk; lia | lia].
  Qed.
  Lemma efinal_inv : einv (length c) alpha (length c - 2) efinal.
  Proof.
    pose proof (einv_all (length c - 2) (Nat.le_refl _)) as H.
    rewrite stk_all in H by (rewrite skipn_length; lia). exact H.
  Qed.
  Lemma length_erun : length (firstn (er efinal) (ec efinal)) = er efinal /\ (2 <= er efinal <= length c)%nat.
  Proof.
    pose proof efinal_inv as [P0 _ _ _ _ _ _ Hm _]. decompose [and] P0. rewrite firstn_length. lia.
  Qed.

  Lemma er_full k : (k <= length c - 2)%nat -> er efinal = length c ->
    er (stk f (skipn 2 c) einit k) = (k + 2)%nat.
  Proof.
    intros Hk Hfull.
    assert (Hg : forall j, (j <= length c - 2)%nat ->
       er (stk f (skipn 2 c) einit (length c - 2 - j)) = (length c - j)%nat).
    { induction j; intros Hj.
      - rewrite stk_all by (rewrite skipn_length; lia). fold efinal. lia.
      - pose proof (einv_all (length c - 2 - S j) ltac:(lia)) as HI.
        pose proof (Hf _ (nth (length c - 2 - S j) (skipn 2 c) 0) (einv_pre _ _ _ _ HI ltac:(lia))) as HS.
        unfold espec in HS. cbv zeta in HS. decompose [and] HS.
        rewrite <- stk_S in * by (rewrite skipn_length; lia).
        replace (S (length c - 2 - S j)) with (length c - 2 - j)%nat in * by lia. rewrite IHj in * by lia.
        pose proof (ei_m _ _ _ _ HI). destruct (Rltb _ _); lia. }
    specialize (Hg (length c - 2 - k)%nat ltac:(lia)).
    replace (length c - 2 - (length c - 2 - k))%nat with k in Hg by lia. lia.
  Qed.

  Lemma einit_vals x :
    P (length c) (e1 einit) x = 1 /\ P (length c) (e2 einit) x = alpha * x + beta /\
    P (length c) (ec einit) x = nth 0 c 0 + nth 1 c 0 * (alpha * x + beta).
  Proof. apply (tinit_vals c alpha beta x Hc). Qed.


  Lemma erun_exact x : er efinal = length c ->
    cheb1 (firstn (er efinal) (ec efinal)) x = cheb1 c (alpha * x + beta).
  Proof.
    intros Hfull. destruct (einit_vals x) as (V1 & V2 & V3).
    pose proof efinal_inv as [P0 _ _ _ _ _ _ _ HF]. decompose [and] P0.
    destruct HF as (_ & _ & SC & _); [lia|].
    rewrite <- (P_firstn (length c)) by auto.
    assert (Hg : forall k, (k <= length c - 2)%nat ->
     P (length c) (e1 (stk f (skipn 2 c) einit k)) x = chebT k (alpha * x + beta) /\
     P (length c) (e2 (stk f (skipn 2 c) einit k)) x = chebT (S k) (alpha * x + beta) /\
     P (length c) (ec (stk f (skipn 2 c) einit k)) x = sumn (k + 2) (fun j => nth j c 0 * chebT j (alpha * x + beta))).
    { induction k; intros Hk.
      - change (stk f (skipn 2 c) einit 0) with einit. rewrite V1, V2, V3. cbn. csplit; ring.
      - destruct IHk as (I1 & I2 & I3); [lia|].
        assert (Hmr := er_full (S k) ltac:(lia) Hfull).
        pose proof (einv_all k ltac:(lia)) as HI.
        pose proof (Hf _ (nth k (skipn 2 c) 0) (einv_pre _ _ _ _ HI ltac:(lia))) as HS.
        rewrite stk_S in * by (rewrite skipn_length; lia).
        destruct (erun_step (length c) alpha beta x k _ _ _ (or_intror Hmr) HI ltac:(lia) HS) as (B1 & B2 & B3).
        rewrite B1, B3, I2, I3. rewrite I1, I2 in B2. unfold ebnd in B2. rewrite Hmr, Nat.eqb_refl in B2.
        set (q := P (length c) (e2 (f (stk f (skipn 2 c) einit k) (nth k (skipn 2 c) 0))) x) in *.
        assert (E : q = chebT (S (S k)) (alpha * x + beta)).
        { rewrite chebT_SS. revert B2. unfold Rabs; destruct Rcase_abs; intros; lra. }
        rewrite E. csplit; auto.
        replace (S k + 2)%nat with (S (k + 2)) by lia. cbn [sumn]. f_equal.
        replace (nth k (skipn 2 c) 0) with (nth (k + 2) c 0).
        + replace (k + 2)%nat with (S (S k)) by lia. reflexivity.
        + clear - Hc. destruct c as [|u [|v w]]; simpl in *; try lia. replace (k + 2)%nat with (S (S k)) by lia. reflexivity. }
    destruct (Hg (length c - 2)%nat (Nat.le_refl _)) as (_ & _ & E).
    rewrite stk_all in E by (rewrite skipn_length; lia). fold efinal in E. rewrite E.
    replace (length c - 2 + 2)%nat with (length c) by lia. reflexivity.
  Qed.

  (** the part of the accumulated coefficients cut off by the final slice *)
  Lemma ec_last k : (k <= length c - 2)%nat ->
    Rabs (nth (er (stk f (skipn 2 c) einit k)) (ec (stk f (skipn 2 c) einit k)) 0)
      <= tau32 * sumn (k + 2) (fun j => Rabs (nth j c 0)).
  Proof.
    induction k; intros Hk.
    - change (stk f (skipn 2 c) einit 0) with einit. pose proof einit_inv as [_ _ _ _ _ _ _ _ HF].
      destruct (HF eq_refl) as (_ & _ & SC & _). rewrite SC by lia. rewrite Rabs_R0.
      apply Rmult_le_pos; [left; apply tau32_pos|]. apply sumn_nonneg. intros; apply Rabs_pos.
    - specialize (IHk ltac:(lia)). rewrite stk_S by (rewrite skipn_length; lia).
      pose proof (einv_all k ltac:(lia)) as HI.
      pose proof (Hf _ (nth k (skipn 2 c) 0) (einv_pre _ _ _ _ HI ltac:(lia))) as HS.
      pose proof HI as [_ _ _ _ SC _ _ Hm _].
      unfold espec in HS. cbv zeta in HS.
      set (s := stk f (skipn 2 c) einit k) in *. set (s' := f s (nth k (skipn 2 c) 0)) in *.
      destruct HS as (E1 & E3 & F1 & F3 & LE & LC & LF & ZF & Em & E2 & Ec).
      assert (Hn : nth k (skipn 2 c) 0 = nth (k + 2) c 0).
      { clear - Hc. destruct c as [|u [|v w]]; simpl in *; try lia. replace (k + 2)%nat with (S (S k)) by lia. reflexivity. }
      assert (Hpos : 0 <= sumn (S k + 2) (fun j => Rabs (nth j c 0))) by (apply sumn_nonneg; intros; apply Rabs_pos).
      pose proof tau32_pos.
      rewrite Ec, Em. destruct (Rltb _ _) eqn:K.
      + rewrite SC by lia. rewrite E2. unfold ecol. destruct (Nat.ltb_spec (er s) (S (er s))); [|lia].
        match goal with |- Rabs ?v <= _ => replace v with 0 by ring end. rewrite Rabs_R0.
        apply Rmult_le_pos; lra.
      + apply Rltb_false in K. rewrite E2, ecol_m. eapply Rle_trans; [apply Rabs_triang|].
        rewrite (Rabs_mult (nth k _ _)). rewrite Hn. replace (S k + 2)%nat with (S (k + 2)) by lia. cbn [sumn].
        rewrite Rmult_plus_distr_l. apply Rplus_le_compat; auto.
        rewrite Rmult_comm. apply Rmult_le_compat_r; [apply Rabs_pos|auto].
  Qed.

  Lemma erun_bound x : -1 <= x <= 1 -> -1 <= alpha * x + beta <= 1 ->
    Rabs (cheb1 (firstn (er efinal) (ec efinal)) x - cheb1 c (alpha * x + beta))
      <= tau32 * (3 * (INR (length c - 1) * INR (length c - 2) / 2) + 1) * sumn (length c) (fun j => Rabs (nth j c 0)).
  Proof.
    intros Hx Hy. destruct (einit_vals x) as (V1 & V2 & V3).
    destruct (run_spec f e1 e2 ec (length c) x (alpha * x + beta) (einv (length c) alpha) ebnd)
      with (c := c) (s0 := einit) as (e & e0 & e1' & eS & E); auto.
    { intros k s v Hs Hk. pose proof (Hf s v (einv_pre _ _ _ _ Hs Hk)) as HS.
      split; [eapply einv_step; eauto|]. eapply erun_step; eauto. }
    { apply einit_inv. }
    fold efinal in E.
    pose proof efinal_inv as [P0 _ _ _ SC _ _ Hm _]. decompose [and] P0.
    assert (Hcut : Rabs (P (length c) (ec efinal) x - cheb1 (firstn (er efinal) (ec efinal)) x)
              <= tau32 * sumn (length c) (fun j => Rabs (nth j c 0))).
    { destruct (Nat.eq_dec (er efinal) (length c)) as [Hn|Hn].
      - rewrite (P_firstn (length c) _ (er efinal)); auto.
        + rewrite Rminus_diag_eq by auto. rewrite Rabs_R0. apply Rmult_le_pos; [left; apply tau32_pos|].
          apply sumn_nonneg; intros; apply Rabs_pos.
        + intros i Hi. apply nth_overflow. lia.
      - rewrite (P_firstn (length c) _ (S (er efinal))) by auto.
        pose proof (firstn_S_nth (ec efinal) (er efinal) ltac:(lia)) as Hfs. rewrite Hfs.
        unfold cheb1. rewrite app_length, firstn_length. simpl length. rewrite Nat.min_l by lia.
        rewrite Nat.add_1_r. cbn [sumn].
        rewrite (sumn_ext _ _ (fun i => nth i (firstn (er efinal) (ec efinal)) 0 * chebT i x)).
        2:{ intros i Hi. rewrite app_nth1; auto. rewrite firstn_length. lia. }
        rewrite app_nth2 by (rewrite firstn_length; lia). rewrite firstn_length, Nat.min_l by lia. rewrite Nat.sub_diag.
        match goal with |- Rabs ?v <= _ => replace v with (nth (er efinal) (ec efinal) 0 * chebT (er efinal) x) by (simpl; ring) end.
        rewrite Rabs_mult.
        pose proof (ec_last (length c - 2) (Nat.le_refl _)) as Hl.
        rewrite stk_all in Hl by (rewrite skipn_length; lia). fold efinal in Hl.
        replace (length c - 2 + 2)%nat with (length c) in Hl by lia.
        pose proof (chebT_bound (er efinal) x Hx). pose proof (Rabs_pos (chebT (er efinal) x)).
        pose proof (Rabs_pos (nth (er efinal) (ec efinal) 0)). nra. }
    assert (Hrun : Rabs (P (length c) (ec efinal) x - cheb1 c (alpha * x + beta))
        <= 3 * tau32 * (INR (length c - 1) * INR (length c - 2) / 2) * sumn (length c) (fun j => Rabs (nth j c 0))).
    { rewrite E. unfold cheb1.
      rewrite (sumn_ext _ (fun j => nth j c 0 * (chebT j (alpha * x + beta) + e j))
         (fun j => nth j c 0 * chebT j (alpha * x + beta) + nth j c 0 * e j)) by (intros; ring).
      rewrite sumn_plus. match goal with |- Rabs ?v <= _ => replace v with (sumn (length c) (fun j => nth j c 0 * e j)) by ring end.
      pose proof tau32_pos.
      apply err_sum; [lra|].
      apply (recurrence_bound_upto e (alpha * x + beta)); auto; [lra|].
      intros n Hn. eapply Rle_trans; [apply eS; auto|]. unfold ebnd.
      destruct (Nat.eqb _ _); lra. }
    apply Rle_trans with (Rabs (P (length c) (ec efinal) x - cheb1 (firstn (er efinal) (ec efinal)) x)
       + Rabs (P (length c) (ec efinal) x - cheb1 c (alpha * x + beta))).
    - rewrite (Rabs_minus_sym (P _ _ _) (cheb1 (firstn _ _) _)).
      eapply Rle_trans; [|apply Rabs_triang]. right. f_equal. ring.
    - lra.
  Qed.
End ERun.

(** ** Both exact transforms *)
Lemma half_R : @nlit R R_num 1 2 = / 2.
Proof. rewrite nlit_R. lra. Qed.

Lemma transformEF_cases c alpha beta : (2 <= length c)%nat ->
  exists f, (forall st v, epre (length c) st -> espec (length c) alpha beta v st (f st v)) /\
    @transform1DErrorFree R R_num c alpha beta =
      firstn (er (efinal f c alpha beta)) (ec (efinal f c alpha beta)).
Proof.
  intros Hc. unfold transform1DErrorFree. rnum. rewrite half_R.
  destruct (Reqb alpha (/ 2) && Reqb (Rabs beta) (/ 2)) eqn:K.
  - apply andb_true_iff in K. destruct K as [Ka Kb]. apply Reqb_true in Ka, Kb. subst alpha.
    set (bs := if Rltb beta 0 then - (1) else 1).
    assert (Hb : beta = bs / 2).
    { unfold bs. destruct (Rltb beta 0) eqn:Kl.
      - apply Rltb_true in Kl. rewrite Rabs_left in Kb by auto. lra.
      - apply Rltb_false in Kl. rewrite Rabs_pos_eq in Kb by auto. lra. }
    exists (@sstep R R_num bs). split.
    + intros. rewrite Hb. apply sstep_spec; auto.
    + rewrite Hb. clearbody bs. clear Kb Hb.
      destruct c as [|u [|v w]]; simpl in Hc; try lia.
      unfold transform1DErrorFreeSplit, efinal, einit, tinit.
      cbn [length repeat upd skipn g nth t1 t2 tc]. rnum. rewrite half_R, n2_R.
      replace (bs * / 2) with (bs / 2) by reflexivity.
      replace (u + bs * v / 2) with (u + bs / 2 * v) by field.
      replace (0 + v / 2) with (/ 2 * v) by field. reflexivity.
  - exists (@estep R R_num alpha beta). split.
    + intros. apply estep_spec; auto.
    + destruct c as [|u [|v w]]; simpl in Hc; try lia.
      unfold efinal, einit, tinit.
      cbn [length repeat upd skipn g nth t1 t2 tc]. rnum. rewrite Rplus_0_l. reflexivity.
Qed.

Lemma length_transformEF c alpha beta : (2 <= length c)%nat ->
  (2 <= length (@transform1DErrorFree R R_num c alpha beta) <= length c)%nat.
Proof.
  intros Hc. destruct (transformEF_cases c alpha beta Hc) as (f & Hf & ->).
  destruct (length_erun f c alpha beta Hc Hf) as [-> H]. auto.
Qed.
Lemma transformEF_exact c alpha beta x : (2 <= length c)%nat ->
  length (@transform1DErrorFree R R_num c alpha beta) = length c ->
  cheb1 (@transform1DErrorFree R R_num c alpha beta) x = cheb1 c (alpha * x + beta).
Proof.
  intros Hc. destruct (transformEF_cases c alpha beta Hc) as (f & Hf & ->).
  destruct (length_erun f c alpha beta Hc Hf) as [-> H]. intros. apply erun_exact; auto.
Qed.
Lemma transformEF_bound c alpha beta x : (2 <= length c)%nat ->
  -1 <= x <= 1 -> -1 <= alpha * x + beta <= 1 ->
  Rabs (cheb1 (@transform1DErrorFree R R_num c alpha beta) x - cheb1 c (alpha * x + beta))
    <= tau32 * (3 * (INR (length c - 1) * INR (length c - 2) / 2) + 1) * sumn (length c) (fun j => Rabs (nth j c 0)).
Proof.
  intros Hc. destruct (transformEF_cases c alpha beta Hc) as (f & Hf & ->).
  apply erun_bound; auto.
Qed.

(** sufficient condition for nothing to be dropped *)
Lemma transform1D_full c alpha beta : (2 <= length c)%nat ->
  (forall k, (2 <= k < length c)%nat -> tau16 < Rabs alpha ^ k) ->
  length (@transform1D R R_num c alpha beta) = length c.
Proof.
  intros Hc Hbig. destruct (length_transform1D c alpha beta Hc) as [-> _].
  assert (Hg : forall k, (k <= length c - 2)%nat ->
    mr (stk (@tstep R R_num alpha beta) (skipn 2 c) (tinit c alpha beta) k) = (k + 2)%nat).
  { induction k; intros Hk; [reflexivity|]. specialize (IHk ltac:(lia)).
    rewrite stk_S by (rewrite skipn_length; lia).
    pose proof (tfinal_inv c alpha beta k Hc ltac:(lia)) as HI.
    destruct HI as [L1 L2 L3 L4 S1 S2 S3 SC Hm HT].
    pose proof (tstep_spec (length c) alpha beta _ (nth k (skipn 2 c) 0) L1 L2 L3 L4 S1 S2 S3 ltac:(lia)) as H. cbv zeta in H.
    destruct H as (_ & _ & _ & _ & -> & _).
    rewrite IHk. replace (k + 2 - 1)%nat with (k + 1)%nat by lia. rewrite HT by auto.
    rewrite Rabs_mult, <- RPow_abs.
    replace (Rabs alpha * Rabs alpha ^ (k + 1)) with (Rabs alpha ^ (k + 2)) by (replace (k + 2)%nat with (S (k + 1)) by lia; reflexivity).
    destruct (Rltb tau16 (Rabs alpha ^ (k + 2))) eqn:K; [lia|].
    apply Rltb_false in K. specialize (Hbig (k + 2)%nat ltac:(lia)). lra. }
  specialize (Hg (length c - 2)%nat (Nat.le_refl _)). rewrite stk_all in Hg by (rewrite skipn_length; lia).
  fold (tfinal c alpha beta) in Hg. lia.
Qed.
Lemma transformEF_full c alpha beta : (2 <= length c)%nat ->
  (forall k, (2 <= k < length c)%nat -> tau32 < Rabs alpha ^ k) ->
  length (@transform1DErrorFree R R_num c alpha beta) = length c.
Proof.
  intros Hc Hbig. destruct (transformEF_cases c alpha beta Hc) as (f & Hf & ->).
  destruct (length_erun f c alpha beta Hc Hf) as [-> _].
  assert (Hg : forall k, (k <= length c - 2)%nat -> er (stk f (skipn 2 c) (einit c alpha beta) k) = (k + 2)%nat).
  { induction k; intros Hk; [reflexivity|]. specialize (IHk ltac:(lia)).
    rewrite stk_S by (rewrite skipn_length; lia).
    pose proof (einv_all f c alpha beta Hc Hf k ltac:(lia)) as HI.
    pose proof (Hf _ (nth k (skipn 2 c) 0) (einv_pre _ _ _ _ HI ltac:(lia))) as HS.
    unfold espec in HS. cbv zeta in HS. destruct HS as (_ & _ & _ & _ & _ & _ & _ & _ & -> & _).
    destruct (ei_full _ _ _ _ HI IHk) as (_ & _ & _ & HT). rewrite IHk.
    replace (k + 2 - 1)%nat with (k + 1)%nat by lia. rewrite HT.
    rewrite Rabs_mult, <- RPow_abs.
    replace (Rabs alpha * Rabs alpha ^ (k + 1)) with (Rabs alpha ^ (k + 2)) by (replace (k + 2)%nat with (S (k + 1)) by lia; reflexivity).
    destruct (Rltb tau32 (Rabs alpha ^ (k + 2))) eqn:K; [lia|].
    apply Rltb_false in K. specialize (Hbig (k + 2)%nat ltac:(lia)). lra. }
  specialize (Hg (length c - 2)%nat (Nat.le_refl _)). rewrite stk_all in Hg by (rewrite skipn_length; lia).
  unfold efinal. lia.
Qed.
