(** * Rounding errors of the constant-term check *)
From Coq Require Import List Arith Bool ZArith Reals Lra Lia Permutation.
From Coq Require Import Floats.
From Flocq Require Import Core Plus_error Relative.
From Flocq.IEEE754 Require Import BinarySingleNaN PrimFloat.
From Verif Require Import Num RSum Tensor PolySpec LinearModel EftProofs FloatSpec.
From Coq Require Import List.
Import ListNotations.
Local Open Scope R_scope.

Definition u64 : R := bpow radix2 (-53).
Lemma u64_pos : 0 < u64. Proof. apply bpow_gt_0. Qed.
Lemma u64_small : u64 <= 1 / 100. Proof. unfold u64. simpl bpow. lra. Qed.

#[local] Instance p53 : Prec_gt_0 53. Proof. reflexivity. Qed.
Lemma div_le1 u : 0 < u -> u / (1 + u) <= u.
Proof. intros H. apply Rmult_le_reg_r with (1 + u); [lra|]. unfold Rdiv. rewrite Rmult_assoc, Rinv_l by lra. nra. Qed.
Lemma b64_plus x y : isB64 x -> isB64 y -> Rabs (b64 (x + y) - (x + y)) <= u64 * Rabs (x + y).
Proof.
  intros Hx Hy. destruct (FLT_plus_error_N_ex radix2 (-1074) 53 (fun z => negb (Z.even z)) x y Hx Hy) as (e & He & E).
  change (b64 (x + y) = (x + y) * (1 + e)) in E. rewrite E. replace ((x + y) * (1 + e) - (x + y)) with (e * (x + y)) by ring. rewrite Rabs_mult.
  apply Rmult_le_compat_r; [apply Rabs_pos|]. eapply Rle_trans; [exact He|]. assert (EU : u_ro radix2 53 = u64) by (unfold u_ro, u64; simpl bpow; lra).
  rewrite EU. apply div_le1, u64_pos.
Qed.
Lemma b64_mono x y : x <= y -> b64 x <= b64 y.
Proof. intros H. apply round_le; auto; apply _. Qed.

(** ** Numbers that are not negative, possibly +infinity *)
Definition posF (x : PrimFloat.float) : Prop := finiteF x = true /\ 0 <= FR x.
Definition infF (x : PrimFloat.float) : Prop := Prim2B x = B754_infinity false.
Lemma SF_inf (x : binary_float prec emax) s : B2SF x = S754_infinity s -> x = B754_infinity s.
Proof. destruct x; cbn; congruence. Qed.
Lemma Bsign_true_neg (x : binary_float prec emax) : BinarySingleNaN.is_finite x = true -> Bsign x = true -> B2R x <= 0.
Proof.
  destruct x as [s|s| |s m e H]; cbn; intros F S; try discriminate; try lra. subst s. unfold F2R. cbn. 
  assert (IZR (Z.neg m) <= 0) by (apply IZR_le; lia). pose proof (bpow_gt_0 radix2 e). nra.
Qed.
Lemma B2R_lt_emax x : finiteF x = true -> Rabs (FR x) < bpow radix2 emax.
Proof. intros _. apply abs_B2R_lt_emax. Qed.

(** addition of numbers >= 0: the rounded sum, or +infinity *)
Lemma add_pos x y : posF x -> posF y -> (posF (PrimFloat.add x y) /\ FR (PrimFloat.add x y) = b64 (FR x + FR y)) \/ infF (PrimFloat.add x y).
Proof.
  intros [Fx Px] [Fy Py]. pose proof (Bplus_correct prec emax Hprec Hmax mode_NE (Prim2B x) (Prim2B y) Fx Fy) as C.
  destruct (Rlt_bool _ _) eqn:L.
  - left. destruct C as (C1 & C2 & _). assert (F : finiteF (PrimFloat.add x y) = true) by (unfold finiteF; rewrite add_equiv; exact C2).
    destruct (add_fin _ _ F) as (_ & _ & E). split; auto. split; auto. rewrite E. rewrite <- (b64_id 0); [apply b64_mono; lra|apply generic_format_0].
  - right. destruct C as [C S]. unfold infF. rewrite add_equiv. destruct (Bsign (Prim2B x)) eqn:Sx.
    + exfalso. assert (FR x <= 0) by (apply Bsign_true_neg; auto). assert (FR y <= 0) by (apply Bsign_true_neg; auto).
      assert (Z1 : FR x = 0) by lra. assert (Z2 : FR y = 0) by lra. unfold FR in Z1, Z2. rewrite Z1, Z2, Rplus_0_r, round_0, Rabs_R0 in L by apply valid_rnd_round_mode.
      rewrite Rlt_bool_true in L; [discriminate|]. apply bpow_gt_0.
    + apply SF_inf. exact C.
Qed.
Lemma add_inf_l x y : infF x -> (finiteF y = true \/ infF y) -> infF (PrimFloat.add x y).
Proof. unfold infF, finiteF. intros Ix H. rewrite add_equiv, Ix. destruct H as [H|H]; [|rewrite H; reflexivity]. destruct (Prim2B y); cbn in *; try discriminate; reflexivity. Qed.
Lemma add_inf_r x y : finiteF x = true -> infF y -> infF (PrimFloat.add x y).
Proof. unfold infF, finiteF. intros H Iy. rewrite add_equiv, Iy. destruct (Prim2B x); cbn in *; try discriminate; reflexivity. Qed.
Lemma sub_inf_l x y : infF x -> finiteF y = true -> infF (PrimFloat.sub x y).
Proof. unfold infF, finiteF. intros Ix H. rewrite sub_equiv, Ix. destruct (Prim2B y); cbn in *; try discriminate; reflexivity. Qed.
Lemma ltb_inf x y : infF x -> finiteF y = true -> PrimFloat.ltb x y = false.
Proof. unfold infF, finiteF. intros Ix H. rewrite ltb_equiv, Ix. destruct (Prim2B y) as [?|?| |? ? ? ?]; cbn in *; try discriminate; try destruct s; reflexivity. Qed.
Lemma ltb_fin x y : finiteF x = true -> finiteF y = true -> (PrimFloat.ltb x y = true <-> FR x < FR y).
Proof. intros Fx Fy. rewrite ltb_equiv, (Bltb_correct _ _ _ _ Fx Fy). fold (FR x) (FR y). split; [|apply Rlt_bool_true]. destruct (Rlt_bool_spec (FR x) (FR y)); auto; discriminate. Qed.
Lemma abs_fin x : finiteF x = true -> posF (PrimFloat.abs x) /\ FR (PrimFloat.abs x) = Rabs (FR x).
Proof.
  unfold posF, finiteF, FR. intros F. rewrite abs_equiv, is_finite_Babs, B2R_Babs. split; auto. split; auto. apply Rabs_pos.
Qed.
Lemma sub_pos x y : posF x -> posF y -> FR y <= FR x -> posF (PrimFloat.sub x y) /\ FR (PrimFloat.sub x y) = b64 (FR x - FR y).
Proof.
  intros [Fx Px] [Fy Py] L. pose proof (Bminus_correct prec emax Hprec Hmax mode_NE (Prim2B x) (Prim2B y) Fx Fy) as C.
  assert (B0 : 0 <= b64 (FR x - FR y)) by (rewrite <- (b64_id 0) by apply generic_format_0; apply b64_mono; lra).
  rewrite Rlt_bool_true in C.
  - destruct C as (C1 & C2 & _). assert (F : finiteF (PrimFloat.sub x y) = true) by (unfold finiteF; rewrite sub_equiv; exact C2).
    destruct (sub_fin _ _ F) as (_ & _ & E). split; auto. split; auto. rewrite E. exact B0.
  - change (Rabs (b64 (FR x - FR y)) < bpow radix2 emax). rewrite Rabs_pos_eq by exact B0.
    apply Rle_lt_trans with (FR x); [|pose proof (B2R_lt_emax x Fx) as H; rewrite Rabs_pos_eq in H; auto].
    rewrite <- (b64_id (FR x)) at 2 by apply FR_format. apply b64_mono. lra.
Qed.

(** ** Sums, in any order *)
Definition sumR (l : list PrimFloat.float) : R := fold_right Rplus 0 (map FR l).
Lemma sumR_app l l' : sumR (l ++ l') = sumR l + sumR l'.
Proof. unfold sumR. rewrite map_app. induction (map FR l) as [|a m IH]; cbn; [lra|]. rewrite IH. lra. Qed.
Lemma sumR_perm l l' : Permutation l l' -> sumR l = sumR l'.
Proof. unfold sumR. induction 1; cbn; try lra. Qed.
Lemma sumR_pos l : Forall posF l -> 0 <= sumR l.
Proof. unfold sumR. induction 1 as [|a l [_ H] _ IH]; cbn; lra. Qed.

Lemma sumR_in a l : In a l -> Forall posF l -> FR a <= sumR l.
Proof.
  intros Ha. induction 1 as [|x l [_ Px] Pl IH]; [destruct Ha|]. pose proof (sumR_pos _ Pl). unfold sumR in *. cbn. destruct Ha as [->|Ha]; [lra|]. specialize (IH Ha). lra.
Qed.

Lemma pow_le1 k j : (k <= j)%nat -> (1 - u64) ^ j <= (1 - u64) ^ k.
Proof. pose proof u64_pos. pose proof u64_small. induction 1 as [|j _ IH]; [lra|]. cbn [pow]. assert (0 < (1 - u64) ^ j) by (apply pow_lt; lra). assert (0 <= u64 * (1 - u64) ^ j) by (apply Rmult_le_pos; lra). lra. Qed.
Lemma FR_0 : FR 0%float = 0.
Proof. unfold FR. rewrite <- SF2R_B2SF. rewrite B2SF_Prim2B. vm_compute Prim2SF. reflexivity. Qed.

(** the computed sum is infinite, or at least every entry and at least (1-u)^k times the exact sum *)
Lemma floatSum_bound l s : floatSum l s -> Forall posF l ->
  infF s \/ (posF s /\ (forall a, In a l -> FR a <= FR s) /\ (1 - u64) ^ length l * sumR l <= FR s /\ (l = [] -> FR s = 0)).
Proof.
  pose proof u64_pos as U0. pose proof u64_small as U1.
  induction 1 as [|a|l1 l2 l s1 s2 _ IH1 _ IH2 HP]; intros HF.
  - right. split; [split; [vm_compute; reflexivity|rewrite FR_0; lra]|]. split; [intros a []|]. split; [rewrite FR_0; cbn; lra|intros _; apply FR_0].
  - right. inversion HF as [|? ? Ha _]; subst. split; auto. split; [intros b [->|[]]; lra|]. split; [|discriminate].
    unfold sumR. cbn. destruct Ha as [_ Ha]. nra.
  - assert (HF' : Forall posF (l1 ++ l2)) by (rewrite Forall_forall in *; intros x Hx; apply HF; eapply Permutation_in; [symmetry; exact HP|auto]).
    apply Forall_app in HF'. destruct HF' as [F1 F2]. specialize (IH1 F1). specialize (IH2 F2).
    destruct IH1 as [I1|(P1 & A1 & B1 & N1)].
    { left. apply add_inf_l; auto. destruct IH2 as [I2|([P2 _] & _)]; auto. }
    destruct IH2 as [I2|(P2 & A2 & B2 & N2)]; [left; apply add_inf_r; auto; apply P1|].
    destruct (add_pos _ _ P1 P2) as [[PS ES]|I]; [|auto]. right. split; auto.
    assert (G1 : FR s1 <= FR (PrimFloat.add s1 s2)). { rewrite ES. rewrite <- (b64_id (FR s1)) at 1 by apply FR_format. apply b64_mono. destruct P2; lra. }
    assert (G2 : FR s2 <= FR (PrimFloat.add s1 s2)). { rewrite ES. rewrite <- (b64_id (FR s2)) at 1 by apply FR_format. apply b64_mono. destruct P1; lra. }
    split.
    { intros a Ha. apply (Permutation_in _ HP), in_app_iff in Ha. destruct Ha as [Ha|Ha]; [specialize (A1 a Ha)|specialize (A2 a Ha)]; lra. }
    rewrite (sumR_perm _ _ HP), sumR_app, (Permutation_length HP), app_length.
    destruct l1 as [|x1 l1'].
    { split; [|intros E; subst l; apply Permutation_nil in HP; cbn in HP; subst l2; rewrite ES, (N1 eq_refl), (N2 eq_refl), Rplus_0_r; apply b64_id, generic_format_0].
      cbn [length Nat.add]. unfold sumR at 1. cbn [map fold_right]. rewrite Rplus_0_l. lra. }
    destruct l2 as [|x2 l2'].
    { split; [|intros E; subst l; apply Permutation_nil in HP; discriminate]. rewrite Nat.add_0_r. unfold sumR at 2. cbn [map fold_right]. rewrite Rplus_0_r. lra. }
    split; [|intros E; subst l; apply Permutation_nil in HP; discriminate].
    set (l1 := x1 :: l1') in *. set (l2 := x2 :: l2') in *. assert (L1 : (1 <= length l1)%nat) by (cbn; lia). assert (L2 : (1 <= length l2)%nat) by (cbn; lia).
    pose proof (b64_plus (FR s1) (FR s2) (FR_format _) (FR_format _)) as R. rewrite ES.
    destruct P1 as [_ P1], P2 as [_ P2]. rewrite (Rabs_pos_eq (FR s1 + FR s2)) in R by lra. apply Rabs_def2 in R || (apply Rabs_le_inv in R).
    pose proof (sumR_pos _ F1). pose proof (sumR_pos _ F2).
    assert (Q1 : (1 - u64) ^ (length l1 + length l2) <= (1 - u64) * (1 - u64) ^ length l1) by (apply (pow_le1 (S (length l1)) (length l1 + length l2)); lia).
    assert (Q2 : (1 - u64) ^ (length l1 + length l2) <= (1 - u64) * (1 - u64) ^ length l2) by (apply (pow_le1 (S (length l2)) (length l1 + length l2)); lia).
    assert (0 < (1 - u64) ^ length l1) by (apply pow_lt; lra). assert (0 < (1 - u64) ^ length l2) by (apply pow_lt; lra).
    apply Rle_trans with ((1 - u64) * (FR s1 + FR s2)); [|lra]. rewrite Rmult_plus_distr_l, Rmult_plus_distr_l. apply Rplus_le_compat.
    + eapply Rle_trans; [apply Rmult_le_compat_r; [|exact Q1]; auto|]. rewrite Rmult_assoc. apply Rmult_le_compat_l; lra.
    + eapply Rle_trans; [apply Rmult_le_compat_r; [|exact Q2]; auto|]. rewrite Rmult_assoc. apply Rmult_le_compat_l; lra.
Qed.
Lemma bernoulli k : 1 - INR k * u64 <= (1 - u64) ^ k.
Proof.
  pose proof u64_pos. pose proof u64_small. induction k as [|k IH]; [cbn; lra|]. rewrite S_INR. cbn [pow].
  assert (0 <= INR k) by apply pos_INR. assert (0 < (1 - u64) ^ k) by (apply pow_lt; lra). assert ((1 - u64) ^ k <= 1) by (apply (pow_le1 0 k); lia). nra.
Qed.

(** the comparison of the check, for one polynomial: [s] is the computed sum of the absolute values *)
Lemma const_float l c s e :
  Forall (fun x => finiteF x = true) l -> In c l -> posF e -> floatSum (map PrimFloat.abs l) s ->
  PrimFloat.ltb (PrimFloat.add (PrimFloat.sub s (PrimFloat.abs c)) e) (PrimFloat.abs c) = true ->
  sumR (map PrimFloat.abs l) - Rabs (FR c) + FR e < Rabs (FR c) + (INR (length l) + 2) * u64 * (sumR (map PrimFloat.abs l) + FR e).
Proof.
  intros Hl Hc He Hs Ht. pose proof u64_pos as U0. pose proof u64_small as U1.
  assert (HP : Forall posF (map PrimFloat.abs l)). { rewrite Forall_forall in *. intros x Hx. apply in_map_iff in Hx. destruct Hx as (y & <- & Hy). apply abs_fin, Hl; auto. }
  assert (Fc : finiteF c = true) by (rewrite Forall_forall in Hl; auto). destruct (abs_fin c Fc) as [Pc Ec].
  destruct (floatSum_bound _ _ Hs HP) as [I|(Ps & As & Bs & _)].
  { exfalso. rewrite ltb_inf in Ht; [discriminate| |apply Pc]. apply add_inf_l; [apply sub_inf_l; [auto|apply Pc]|left; apply He]. }
  assert (Hcs : FR (PrimFloat.abs c) <= FR s) by (apply As, in_map; auto).
  destruct (sub_pos _ _ Ps Pc Hcs) as [Pt Et]. destruct (add_pos _ _ Pt He) as [[Pu Eu]|I].
  2:{ rewrite ltb_inf in Ht; [discriminate|auto|apply Pc]. }
  apply ltb_fin in Ht; [|apply Pu|apply Pc]. rewrite Eu, Ec in Ht. rewrite Ec in Hcs, Et.
  pose proof (b64_plus (FR (PrimFloat.sub s (PrimFloat.abs c))) (FR e) (FR_format _) (FR_format _)) as R2.
  assert (R1 : Rabs (b64 (FR s + - Rabs (FR c)) - (FR s + - Rabs (FR c))) <= u64 * Rabs (FR s + - Rabs (FR c))).
  { apply b64_plus; [apply FR_format|]. rewrite <- Ec. apply generic_format_opp, FR_format. }
  change (FR s + - Rabs (FR c)) with (FR s - Rabs (FR c)) in R1. rewrite <- Et in R1.
  set (t := FR (PrimFloat.sub s (PrimFloat.abs c))) in *. set (v := b64 (t + FR e)) in *. destruct Pt as [_ Pt], He as [_ He]. fold t in Pt.
  rewrite (Rabs_pos_eq (t + FR e)) in R2 by lra. rewrite (Rabs_pos_eq (FR s - Rabs (FR c))) in R1 by lra. apply Rabs_le_inv in R1, R2.
  rewrite map_length in Bs. set (S := sumR (map PrimFloat.abs l)) in *. pose proof (sumR_pos _ HP) as HS. fold S in HS.
  pose proof (bernoulli (length l)) as HB. assert (HB' : (1 - INR (length l) * u64) * S <= FR s) by (eapply Rle_trans; [apply Rmult_le_compat_r; [exact HS|exact HB]|exact Bs]).
  pose proof (pos_INR (length l)). set (k := INR (length l)) in *. set (a := Rabs (FR c)) in *. assert (0 <= a) by apply Rabs_pos.
  (* a > v >= (1-u)(t+e), t >= (1-u)(s-a), s >= (1-ku) S *)
  assert (V : (1 - u64) * (t + FR e) <= v) by lra. assert (T : (1 - u64) * (FR s - a) <= t) by lra.
  assert (W : (1 - 2 * u64) * (FR s - a + FR e) <= v).
  { eapply Rle_trans; [|exact V]. assert ((1 - u64) * ((1 - u64) * (FR s - a) + FR e) <= (1 - u64) * (t + FR e)) by (apply Rmult_le_compat_l; lra). nra. }
  assert (AS : Rabs (FR c) <= sumR (map PrimFloat.abs l)).
  { fold a. rewrite <- Ec. apply sumR_in; auto. apply in_map; auto. }
  fold a in AS. fold S in AS.
  assert (X1 : FR s - a + FR e >= S - a + FR e - k * u64 * S) by lra.
  assert (X2 : (1 - 2 * u64) * (S - a + FR e - k * u64 * S) <= v) by (eapply Rle_trans; [|exact W]; apply Rmult_le_compat_l; lra).
  assert (X3 : 0 <= k * u64 * S) by (apply Rmult_le_pos; [apply Rmult_le_pos|]; lra).
  assert (X4 : 0 <= u64 * a) by (apply Rmult_le_pos; lra). assert (X5 : 0 <= k * u64 * FR e) by (apply Rmult_le_pos; [apply Rmult_le_pos|]; lra).
  assert (X6 : 0 <= 2 * u64 * (k * u64 * S)) by (apply Rmult_le_pos; lra). nra.
Qed.

(** the sum of the model (left to right, from 0) is one of them *)
Lemma nsum_floatSum l : floatSum l (@nsum _ F_num l).
Proof.
  unfold nsum. change (@n0 _ F_num) with 0%float.
  enough (G : forall l acc s, floatSum acc s -> floatSum (acc ++ l) (fold_left (@nadd _ F_num) l s)) by (apply (G l [] 0%float), FS_nil).
  clear l. induction l as [|a l IH]; intros acc s H; cbn [fold_left]; [rewrite app_nil_r; auto|].
  replace (acc ++ a :: l) with ((acc ++ [a]) ++ l) by (rewrite <- app_assoc; reflexivity). apply IH. apply (FS_add acc [a] _ s a); auto. apply FS_one.
Qed.
