(** * Property theorems C107: Chebyshev approximation in subdivision.py *)
From Coq Require Import Reals List Lia Lra Arith Bool.
From Verif Require Import Num Tensor RSum Cheb PolySpec LinearModel LinearProofs CombinedModel CombinedSpec ApproxModel ApproxDct ApproxInterp ApproxDegree MakerModel MakerProofs MakerRun MakerProps MakerMore.
From Verif Require Import SubApproxModel SubApproxProofs SubApproxProps.
From Verif Require PolyModel PolyArith ParseProps.
Import ListNotations.
Local Open Scope R_scope.

(** ** one approximation in any state *)
Lemma block_values f a b deg n : shp (gridValues cosR f (repeat deg n) a b) = repeat (S deg) n.
Proof. unfold gridValues. cbn [shp tbuild]. apply map_repeat_. Qed.
Lemma mirrored_blockCopy (junk0 : list nat -> R) deg n (vb values : tensor R) : (1 <= deg)%nat -> shp vb = repeat (S deg) n -> mirrored deg n vb values ->
  coeffsOf cosR (repeat deg n) values = coeffsOf cosR (repeat deg n) (blockCopy junk0 vb).
Proof.
  intros Hd Hs (S1 & G).
  assert (Hs' : shp vb = map S (repeat deg n)) by (rewrite map_repeat_; auto).
  assert (HP : Forall (fun d => (1 <= d)%nat) (repeat deg n)) by (apply repeat_pos; auto).
  unfold coeffsOf. do 3 f_equal.
  assert (E : shp values = shp (blockCopy junk0 vb)) by (rewrite (blockCopy_shape junk0 (repeat deg n)) by auto; rewrite map_repeat_; auto).
  rewrite <- E. f_equal. unfold tbuild. f_equal. apply map_ext_in. intros e He. apply in_indices in He. f_equal.
  rewrite S1 in He. rewrite G by auto. rewrite (blockCopy_get junk0 (repeat deg n)); auto. rewrite map_repeat_. auto.
Qed.
Lemma grid_max f a b D : pos D -> gridMax (callAt f) a b D (maxAbs (dat (gridValues cosR f D a b))).
Proof.
  intros HD. set (vb := gridValues cosR f D a b).
  assert (HV : forall J, inrange (map S D) J -> In (callAt f (boxPoint a b (nodes D J))) (dat vb)).
  { intros J HJ. unfold vb, gridValues. cbn [dat tbuild]. apply in_map_iff. exists J. split; [rewrite gridPoint_box; reflexivity|apply in_indices; auto]. }
  assert (HU : forall y, gridNode D y -> Rabs (callAt f (boxPoint a b y)) <= @maxAbs R R_num (dat vb)).
  { intros y Hy. apply gridNode_nodes in Hy. destruct Hy as (j & Hj & ->). apply ApproxDegree.maxAbs_ge. auto. }
  split; auto. destruct (Rle_lt_or_eq_dec 0 _ (maxAbs_nonneg (dat vb))) as [Hp|Hz].
  - destruct (maxAbs_attained _ Hp) as (x & Hx & E). unfold vb, gridValues in Hx. cbn [dat tbuild] in Hx. apply in_map_iff in Hx. destruct Hx as (e & <- & He). apply in_indices in He.
    exists (nodes D e). split; [apply gridNode_nodes; eauto|]. rewrite gridPoint_box in E. exact E.
  - exists (nodes D (repeat 0%nat (length D))).
    assert (HR : inrange (map S D) (repeat 0%nat (length D))) by (clear; induction D; simpl; constructor; auto; lia).
    assert (HN : gridNode D (nodes D (repeat 0%nat (length D)))) by (apply gridNode_nodes; eauto).
    split; auto. specialize (HU _ HN). rewrite <- Hz in *. pose proof (Rabs_pos (callAt f (boxPoint a b (nodes D (repeat 0%nat (length D)))))). lra.
Qed.
Definition fits (side deg : nat) : Prop := (2 * deg <= side \/ side <= deg)%nat.
Lemma nd_ok (junk : nat -> list nat -> R) f a b deg n B st : (1 <= n)%nat -> (1 <= deg)%nat -> length a = n -> workSide st n B -> fits B deg ->
  exists N m st', interval_approximate_nd cosR junk f a b deg st = Some (N, m, st') /\ interpolant (callAt f) a b (repeat deg n) N /\ gridMax (callAt f) a b (repeat deg n) m /\
    workSide st' n (if (2 * deg <=? B)%nat then B else (2 * deg)%nat).
Proof.
  intros Hn Hd Ha HW HF. unfold interval_approximate_nd. rewrite Ha. set (vb := gridValues cosR f (repeat deg n) a b).
  assert (Hs : shp vb = repeat (S deg) n) by apply block_values.
  assert (HC : exists values st', chebyshev_block_copy junk vb st = Some (values, st') /\ mirrored deg n vb values /\ workSide st' n (if (2 * deg <=? B)%nat then B else (2 * deg)%nat)).
  { destruct (Nat.leb_spec (2 * deg) B) as [H|H].
    - destruct (copy_large junk deg n B vb st Hn Hd Hs HW H) as (v & st' & E & M & W & _). eauto.
    - destruct HF as [HF|HF]; [lia|]. destruct (copy_small junk deg n B vb st Hn Hd Hs HW HF) as (v & st' & E & M & W & _). eauto. }
  destruct HC as (values & st' & E & M & W). rewrite E. do 3 eexists. split; [reflexivity|]. split; [|split; auto].
  - rewrite (mirrored_blockCopy (fun _ => 0) deg n vb values Hd Hs M). apply fresh_interpolant. apply repeat_pos; auto.
  - apply grid_max. apply repeat_pos; auto.
Qed.
Lemma nd_bad (junk : nat -> list nat -> R) f a b deg n B st : (1 <= n)%nat -> (3 <= deg)%nat -> length a = n -> workSide st n B -> (deg < B < 2 * deg)%nat ->
  exists N m st' values, interval_approximate_nd cosR junk f a b deg st = Some (N, m, st') /\ N = coeffsOf cosR (repeat deg n) values /\ shp values = repeat (2 * deg)%nat n /\
    gridMax (callAt f) a b (repeat deg n) m /\
    forall e, inrange (repeat (2 * deg)%nat n) e -> tget values e = if forallb (fun i => i <=? deg)%nat e then junk (length (arrays st)) e else tget (gridValues cosR f (repeat deg n) a b) (foldIdx (repeat deg n) e).
Proof.
  intros Hn Hd Ha HW HF. unfold interval_approximate_nd. rewrite Ha. set (vb := gridValues cosR f (repeat deg n) a b).
  destruct (copy_mid junk deg n B vb st Hn Hd (block_values f a b deg n) HW ltac:(lia) ltac:(lia)) as (values & st' & E & W & _ & S1 & G).
  rewrite E. do 4 eexists. split; [reflexivity|]. split; [reflexivity|]. split; auto. split; auto. apply grid_max. apply repeat_pos; lia.
Qed.
(** the distance of two series *)
Lemma two_series (M M2 : tensor R) D y : shp M = map S D -> shp M2 = map S (map (fun d => 2 * d)%nat D) -> in_cube (length D) y -> Rabs (cheb_eval M2 y - cheb_eval M y) <= difference M2 M.
Proof.
  intros S1 S2 [HL HC].
  assert (HS : Forall2 (fun s d => (s <= S d)%nat) (shp M) (map (fun d => 2 * d)%nat D)) by (rewrite S1; clear; induction D; cbn [map]; constructor; auto; lia).
  rewrite <- (padTo_eval (map (fun d => 2 * d)%nat D) M y HS). rewrite !cheb_eval_sumidx. cbn [shp padTo tbuild]. rewrite <- S2.
  rewrite <- sumidx_minus. eapply Rle_trans; [apply sumidx_abs|]. unfold difference. apply sumidx_le. intros idx Hi.
  pose proof (inrange_length _ _ Hi) as HLi. rewrite S2, !map_length in HLi.
  rewrite (coefAt_in M2) by auto.
  assert (E : tget (padTo (map (fun d => 2 * d)%nat D) M) idx = coefAt M idx) by (unfold padTo; apply tget_tbuild; rewrite <- S2; auto).
  rewrite E. rewrite <- Rmult_minus_distr_r, Rabs_mult. rewrite <- (Rmult_1_r (Rabs (tget M2 idx - coefAt M idx))) at 2.
  apply Rmult_le_compat_l; [apply Rabs_pos|]. apply chebasis_bound. auto.
Qed.

(** ** C107: approximation in several variables *)
(** After any history that leaves a work array the block fits into (or that is too small even for the block), the coefficients
    are those of the interpolating polynomial on the Chebyshev grid, and the norm is the largest value there. *)
Theorem C107_interpolates :
  forall (junk : nat -> list nat -> R) (history : list (event R)) (f : fobj R) (a b : list R) (deg first now : nat),
    let n := length a in (1 <= n)%nat -> length b = n -> (1 <= deg)%nat -> allowed history -> sizes n history = Some (first, now) -> (2 * deg <= now \/ now <= deg)%nat ->
    exists outs st N m st', run junk history wstart = Some (outs, st) /\ interval_approximate_nd cosR junk f a b deg st = Some (N, m, st') /\
      interpolant (callAt f) a b (repeat deg n) N /\ (forall N', interpolant (callAt f) a b (repeat deg n) N' -> N' = N) /\ gridMax (callAt f) a b (repeat deg n) m.
Proof.
  intros junk h f a b deg F C n Hn Hb Hd HA Hs HF. destruct (run_inv junk h HA) as (outs & st & E & HI).
  pose proof (HI n Hn) as Hv. rewrite Hs in Hv. destruct Hv as (_ & HW & _).
  destruct (nd_ok junk f a b deg n C st Hn Hd eq_refl HW HF) as (N & m & st' & E' & H1 & H2 & _). exists outs, st, N, m, st'. split; [auto|]. split; [auto|]. split; [auto|]. split; [|auto].
  intros N' H'. apply (interpolant_unique (callAt f) a b (repeat deg n)); auto. apply repeat_pos; auto.
Qed.
Print Assumptions C107_interpolates.

(** full_cheb_approximate compares the interpolants of degree g and 2g. *)
Theorem C107_the_error_estimate :
  forall (junk : nat -> list nat -> R) (history : list (event R)) (f : fobj R) (a b : list R) (deg : nat) (good_deg : option nat) (abs_tol rel_tol : R) (first now : nat),
    let n := length a in let g := match good_deg with None => deg | Some g => g end in
    (1 <= n)%nat -> length b = n -> (1 <= g)%nat -> allowed history -> sizes n history = Some (first, now) -> (4 * g <= now \/ now = 2 * g \/ now <= g)%nat ->
    exists outs st coeff inf_norm error st' M M2, run junk history wstart = Some (outs, st) /\
      full_cheb_approximate cosR junk f a b deg abs_tol rel_tol good_deg st = Some ((coeff, inf_norm, error), st') /\
      interpolant (callAt f) a b (repeat g n) M /\ interpolant (callAt f) a b (repeat (2 * g)%nat n) M2 /\ gridMax (callAt f) a b (repeat (2 * g)%nat n) inf_norm /\
      error = difference M2 M /\
      (coeff = Some M /\ error <= abs_tol + rel_tol * inf_norm \/ coeff = None /\ abs_tol + rel_tol * inf_norm < error) /\
      (forall y, in_cube n y -> Rabs (cheb_eval M2 y - cheb_eval M y) <= error) /\
      (forall P, ndim P = n -> Forall (fun s => (s <= 2 * g + 1)%nat) (shp P) -> (forall y, in_cube n y -> callAt f (boxPoint a b y) = cheb_eval P y) ->
         forall y, in_cube n y -> Rabs (callAt f (boxPoint a b y) - cheb_eval M y) <= error).
Proof.
  intros junk h f a b deg gd at_ rt F C n g Hn Hb Hg HA Hs HF. destruct (run_inv junk h HA) as (outs & st & E & HI).
  pose proof (HI n Hn) as Hv. rewrite Hs in Hv. destruct Hv as (_ & HW & _).
  destruct (nd_ok junk f a b g n C st Hn Hg eq_refl HW ltac:(unfold fits; lia)) as (M & m1 & st1 & E1 & H1 & _ & HW1).
  destruct (nd_ok junk f a b (g * 2) n _ st1 Hn ltac:(lia) eq_refl HW1) as (M2 & m2 & st2 & E2 & H2 & G2 & _).
  { unfold fits. destruct (Nat.leb_spec (2 * g) C); lia. }
  rewrite Nat.mul_comm in H2, G2. destruct H1 as (W1 & S1 & V1) eqn:EH1. destruct H2 as (W2 & S2 & V2) eqn:EH2.
  assert (SM2 : shp M2 = map S (map (fun d => 2 * d)%nat (repeat g n))) by (rewrite S2, !map_repeat_; reflexivity).
  assert (DE : get_err M M2 = difference M2 M).
  { apply get_err_difference; [rewrite S1, S2, !map_length, !repeat_length; reflexivity|]. rewrite S2. apply Forall_forall. intros x Hx. apply in_map_iff in Hx. destruct Hx as (k & <- & _). lia. }
  assert (D12 : forall y, in_cube n y -> Rabs (cheb_eval M2 y - cheb_eval M y) <= difference M2 M) by (intros y Hy; apply (two_series M M2 (repeat g n)); auto; rewrite repeat_length; auto).
  exists outs, st, (if ngtb (get_err M M2) (at_ + rt * m2) then None else Some M), m2, (difference M2 M), st2, M, M2.
  split; auto. split; [unfold full_cheb_approximate; fold g; rewrite E1, E2, DE; reflexivity|]. split; [auto|]. split; [auto|]. split; [auto|]. split; [reflexivity|]. split; [|split; [auto|]].
  - rewrite DE. unfold ngtb. rnum. destruct (Rltb (at_ + rt * m2) (difference M2 M)) eqn:T; [apply Rltb_true in T; right; auto|apply Rltb_false in T; left; auto].
  - intros P HP HS Hf y Hy.
    assert (HF2 : Forall2 (fun s d => (s <= S d)%nat) (shp P) (repeat (2 * g)%nat n)).
    { unfold ndim in HP. rewrite <- HP. clear -HS. induction HS; cbn [length repeat]; constructor; auto. lia. }
    assert (HI2 : interpolant (callAt f) a b (repeat (2 * g)%nat n) (padTo (repeat (2 * g)%nat n) P)).
    { split; [apply padTo_wf|]. split; [reflexivity|]. intros z Hz. rewrite padTo_eval by auto. symmetry. apply Hf.
      apply gridNode_nodes in Hz. destruct Hz as (j & Hj & ->). pose proof (nodes_cube (repeat (2 * g)%nat n) j) as HN. rewrite repeat_length in HN. apply HN. apply inrange_length in Hj. rewrite map_length, repeat_length in Hj. auto. }
    assert (EM : M2 = padTo (repeat (2 * g)%nat n) P) by (apply (interpolant_unique (callAt f) a b (repeat (2 * g)%nat n)); auto; apply repeat_pos; lia).
    rewrite Hf by auto. rewrite <- (padTo_eval (repeat (2 * g)%nat n) P y HF2). rewrite <- EM. apply D12. auto.
Qed.
Print Assumptions C107_the_error_estimate.

(** Beyond polynomials of degree 2g the estimate says nothing: c (T_4g(x) - 1) is taken for 0, with error 0. *)
Lemma box_unit n y : length y = n -> boxPoint (repeat (-1) n) (repeat 1 n) y = y.
Proof. unfold boxPoint. revert y. induction n; intros [|v y] H; cbn [length] in H; try discriminate; [reflexivity|]. cbn [repeat combine map fst snd]. f_equal; [field|]. apply IHn. auto. Qed.
Lemma zero_tensor_eval s y : cheb_eval (tbuild s (fun _ => 0)) y = 0.
Proof. rewrite cheb_eval_sumidx. cbn [shp tbuild]. rewrite (sumidx_ext _ _ (fun _ => 0)); [apply sumidx_0|]. intros i Hi. rewrite tget_tbuild by auto. ring. Qed.
Theorem C107_error_bounds_the_distance_to_the_function_refuted :
  forall (junk : nat -> list nat -> R) (n deg : nat) (c : R) (history : list (event R)) (first now : nat), (1 <= n)%nat -> (1 <= deg)%nat -> 0 < c ->
    allowed history -> sizes n history = Some (first, now) -> (4 * deg <= now)%nat ->
    let f := Plain (fun x => c * (chebT (4 * deg) (nth 0 x 0) - 1)) in
    exists outs st M inf_norm st' y, run junk history wstart = Some (outs, st) /\
      full_cheb_approximate cosR junk f (repeat (-1) n) (repeat 1 n) deg 0 0 None st = Some ((Some M, inf_norm, 0), st') /\
      in_cube n y /\ Rabs (callAt f y - cheb_eval M y) = 2 * c.
Proof.
  intros junk n deg c h F C Hn Hd Hc HA Hs HF f.
  destruct (C107_the_error_estimate junk h f (repeat (-1) n) (repeat 1 n) deg None 0 0 F C) as (outs & st & co & nrm & err & st' & M & M2 & E1 & E2 & I1 & I2 & _ & HE & HC & _); rewrite ?repeat_length; auto.
  rewrite repeat_length in *.
  assert (Z : forall k, (k = deg \/ k = 2 * deg)%nat -> forall y, gridNode (repeat k n) y -> callAt f (boxPoint (repeat (-1) n) (repeat 1 n) y) = 0).
  { intros k Hk y Hy. apply gridNode_nodes in Hy. destruct Hy as (j & Hj & ->). pose proof (inrange_length _ _ Hj) as HL. rewrite map_length, repeat_length in HL.
    rewrite box_unit by (unfold nodes; rewrite map_length, combine_length, repeat_length; lia). destruct n as [|n']; [lia|]. destruct j as [|i j]; [discriminate|]. cbn [f callAt nodes combine repeat map nth fst snd].
    rewrite chebT_node. replace (cosR (4 * deg * i) k) with 1; [ring|]. destruct Hk as [->| ->].
    - replace (4 * deg * i)%nat with (2 * i * (2 * deg))%nat by lia. rewrite cosR_2n by auto. reflexivity.
    - replace (4 * deg * i)%nat with (i * (2 * (2 * deg)))%nat by lia. rewrite cosR_2n by lia. reflexivity. }
  assert (ZI : forall k, (k = deg \/ k = 2 * deg)%nat -> interpolant (callAt f) (repeat (-1) n) (repeat 1 n) (repeat k n) (tbuild (map S (repeat k n)) (fun _ => 0))).
  { intros k Hk. split; [apply wf_tbuild, Forall_forall; intros x Hx; apply in_map_iff in Hx; destruct Hx as (u & <- & _); lia|]. split; [reflexivity|].
    intros y Hy. rewrite (Z k Hk y Hy). apply zero_tensor_eval. }
  assert (EM : M = tbuild (map S (repeat deg n)) (fun _ => 0)) by (apply (interpolant_unique (callAt f) (repeat (-1) n) (repeat 1 n) (repeat deg n)); auto; apply repeat_pos; auto).
  assert (EM2 : M2 = tbuild (map S (repeat (2 * deg)%nat n)) (fun _ => 0)) by (apply (interpolant_unique (callAt f) (repeat (-1) n) (repeat 1 n) (repeat (2 * deg)%nat n)); auto; apply repeat_pos; lia).
  assert (E0 : err = 0).
  { rewrite HE, EM, EM2. unfold difference. rewrite (sumidx_ext _ _ (fun _ => 0)); [apply sumidx_0|]. intros idx Hi. cbn [shp tbuild] in Hi.
    rewrite coefAt_in by auto. rewrite tget_tbuild by auto. unfold coefAt. destruct (forallb _ _) eqn:FB; [|rewrite Rminus_0_r; apply Rabs_R0].
    rewrite outside in FB. { apply PolyArith.inrangeb_spec in FB. rewrite tget_tbuild by auto. rewrite Rminus_0_r. apply Rabs_R0. }
    cbn [shp tbuild]. apply inrange_length in Hi. rewrite !map_length, !repeat_length in *. auto. }
  set (y := cosR 1 (4 * deg) :: repeat 0 (n - 1)).
  exists outs, st, M, nrm, st', y. split; auto. split.
  - rewrite E2. destruct HC as [[-> HC]|[-> HC]]; [rewrite E0; reflexivity|]. exfalso. lra.
  - assert (Hy : in_cube n y).
    { unfold y. split; [cbn [length]; rewrite repeat_length; lia|]. constructor; [unfold cosR; apply COS_bound|]. apply Forall_forall. intros v Hv. apply repeat_spec in Hv. subst v. lra. }
    split; auto. rewrite EM, zero_tensor_eval. cbn [f callAt y nth]. unfold y. cbn [nth]. rewrite chebT_node. unfold cosR at 1.
    replace (INR (4 * deg * 1) * PI / INR (4 * deg)) with PI by (rewrite Nat.mul_1_r; field; apply not_0_INR; lia). rewrite cos_PI. rewrite Rabs_left; lra.
Qed.
Print Assumptions C107_error_bounds_the_distance_to_the_function_refuted.

(** The very first approximation of a process, with degree at least 4, depends on what uninitialised memory holds: for every
    function there are contents for which the estimate exceeds any bound, so the approximation is rejected. *)
Lemma coeff0 degs (values : tensor R) : pos degs -> shp values = map (fun d => 2 * d)%nat degs ->
  tget (coeffsOf cosR degs values) (repeat 0%nat (length degs)) = ewProd degs (repeat 0%nat (length degs)) * (sumidx (map (fun d => 2 * d)%nat degs) (tget values) / INR (prodn degs)).
Proof.
  intros HD HS. set (K := repeat 0%nat (length degs)).
  assert (HK : inrange (map S degs) K) by (unfold K; clear; induction degs; cbn; constructor; auto; lia).
  unfold coeffsOf. rewrite tget_tbuild by auto. rewrite HS. set (sc := tbuild _ _). unfold halveEdges.
  destruct (fold_halve2 degs (map (fun d => 2 * d)%nat degs) (seq 0 (length degs)) (fftnRe cosR degs sc) (fun k => tget (fftnRe cosR degs sc) k)) as [_ H2]; auto.
  rewrite H2 by (apply inrange_wide; auto). rewrite ewProd_seq by (unfold K; rewrite repeat_length; auto). f_equal.
  unfold fftnRe. change (shp sc) with (map (fun d => 2 * d)%nat degs). rewrite tget_tbuild by (apply inrange_wide; auto). rewrite nsum_map_R, sumidx_indices.
  rewrite (sumidx_ext _ _ (fun e => / INR (prodn degs) * tget values e)); [rewrite sumidx_scal; field|].
  { apply not_0_INR. assert (0 < prodn degs)%nat; [|lia]. clear - HD. induction HD; [unfold prodn; simpl; lia|rewrite prodn_cons; nia]. }
  intros e He. unfold sc. rewrite tget_tbuild by auto. rnum. rewrite nofnat_R.
  assert (PH : phase degs e K = 0%nat).
  { unfold K. clear - He. revert e He. induction degs; intros e He; cbn [map] in He; inversion He; subst; cbn [length repeat phase]; auto. rewrite IHdegs by auto. lia. }
  rewrite PH, cosR_0. field. apply not_0_INR. assert (0 < prodn degs)%nat; [|lia]. clear - HD. induction HD; [unfold prodn; simpl; lia|rewrite prodn_cons; nia].
Qed.
Lemma ewProd_pos degs : forall K, 0 < ewProd degs K.
Proof.
  induction degs as [|d degs IH]; intros K; cbn [ewProd]; [lra|]. destruct K as [|k K]; [lra|]. apply Rmult_lt_0_compat; auto. unfold ew.
  destruct (Nat.eqb k 0), (Nat.eqb k d); lra.
Qed.
Lemma sumidx_ge s (F : list nat -> R) K : inrange s K -> (forall e, 0 <= F e) -> F K <= sumidx s F.
Proof.
  intros HK HF. pose (G := fun e => if list_eq_dec Nat.eq_dec e K then F e else 0).
  assert (E : sumidx s G = F K).
  { rewrite (ParseProps.sumidx_point s G K HK); unfold G; [destruct (list_eq_dec Nat.eq_dec K K); congruence|]. intros e He Hne. destruct (list_eq_dec Nat.eq_dec e K); congruence. }
  rewrite <- E. apply sumidx_le. intros e He. unfold G. destruct (list_eq_dec Nat.eq_dec e K); [lra|apply HF].
Qed.
Theorem C107_first_approximation_depends_on_uninitialised_memory :
  forall (f : fobj R) (a b : list R) (deg : nat) (bound : R), let n := length a in (1 <= n)%nat -> length b = n -> (4 <= deg)%nat ->
    exists (memory : nat -> list nat -> R) st coeff inf_norm error st',
      run memory [Solve n deg] wstart = Some ([], st) /\
      (forall abs_tol rel_tol, full_cheb_approximate cosR memory f a b deg abs_tol rel_tol None st =
         Some ((if ngtb error (abs_tol + rel_tol * inf_norm) then None else Some coeff, inf_norm, error), st')) /\
      interpolant (callAt f) a b (repeat deg n) coeff /\ gridMax (callAt f) a b (repeat (2 * deg)%nat n) inf_norm /\ bound < error.
Proof.
  intros f a b deg bound n Hn Hb Hd. set (D2 := repeat (2 * deg)%nat n). set (K0 := repeat 0%nat n).
  set (M0 := allOps imat (repeat deg n) (fun J => callAt f (boxPoint a b (nodes (repeat deg n) J))) K0).
  set (low := fun e => forallb (fun i => i <=? 2 * deg)%nat e).
  set (vb := gridValues cosR f D2 a b).
  set (cnt := sumidx (repeat (2 * (2 * deg))%nat n) (fun e => if low e then 1 else 0)).
  set (rest := sumidx (repeat (2 * (2 * deg))%nat n) (fun e => if low e then 0 else tget vb (foldIdx D2 e))).
  set (w := ewProd D2 K0). set (P := INR (prodn D2)).
  assert (Hcnt : 1 <= cnt).
  { unfold cnt. assert (Z : inrange (repeat (2 * (2 * deg))%nat n) K0) by (unfold K0; clear -Hd; induction n; cbn; constructor; auto; lia).
    assert (L : low K0 = true) by (unfold low, K0; clear; induction n; cbn [repeat forallb]; auto).
    assert (N0 : forall e, 0 <= (if low e then 1 else 0)) by (intros e; destruct (low e); lra).
    pose proof (sumidx_ge _ (fun e => if low e then 1 else 0) K0 Z N0) as X. cbv beta in X. rewrite L in X. exact X. }
  assert (Hw : 0 < w) by apply ewProd_pos.
  assert (HP : 0 < P).
  { unfold P, D2. apply lt_0_INR. clear -Hd. induction n; [unfold prodn; cbn; lia|]. cbn [repeat]. rewrite prodn_cons. nia. }
  set (t := ((Rabs M0 + Rabs bound + 1) * P / w - rest) / cnt).
  set (memory := fun (_ : nat) (_ : list nat) => t).
  set (st := startSolve memory n deg wstart).
  assert (HW : workSide st n (2 * (deg + 3))) by (exists 0%nat; unfold st, workArray, startSolve, initialize_values_arr, wstart; cbn; rewrite Nat.eqb_refl; repeat split; auto).
  destruct (nd_ok memory f a b deg n _ st Hn ltac:(lia) eq_refl HW ltac:(unfold fits; lia)) as (M & m1 & st1 & E1 & I1 & _ & HW1).
  replace (if (2 * deg <=? 2 * (deg + 3))%nat then (2 * (deg + 3))%nat else (2 * deg)%nat) with (2 * (deg + 3))%nat in HW1 by (destruct (Nat.leb_spec (2 * deg) (2 * (deg + 3))); lia).
  destruct (nd_bad memory f a b (deg * 2) n _ st1 Hn ltac:(lia) eq_refl HW1 ltac:(lia)) as (M2 & m2 & st2 & values & E2 & EM2 & S2 & G2 & V2).
  rewrite (Nat.mul_comm deg 2) in *. fold D2 in EM2, G2, V2. fold vb in V2.
  exists memory, st, M, m2, (get_err M M2), st2. split; [reflexivity|]. split.
  { intros at_ rt. unfold full_cheb_approximate. rewrite E1. rewrite (Nat.mul_comm deg 2), E2. reflexivity. }
  split; auto. split; auto.
  destruct I1 as (W1 & S1 & V1) eqn:EI1.
  assert (S22 : shp M2 = map S D2) by (rewrite EM2; reflexivity).
  rewrite get_err_difference; [|rewrite S1, S22, !map_length; unfold D2; rewrite !repeat_length; reflexivity|rewrite S22; apply Forall_forall; intros x Hx; apply in_map_iff in Hx; destruct Hx as (u & <- & _); lia].
  assert (HK2 : inrange (shp M2) K0) by (rewrite S22; unfold D2, K0; clear; induction n; cbn; constructor; auto; lia).
  assert (HK1 : inrange (map S (repeat deg n)) K0) by (unfold K0; clear; induction n; cbn; constructor; auto; lia).
  assert (C1 : tget M K0 = M0) by (unfold M0; apply interpolant_coeffs; auto; apply repeat_pos; lia).
  assert (C2 : tget M2 K0 = Rabs M0 + Rabs bound + 1).
  { rewrite EM2. assert (PD : pos D2) by (apply repeat_pos; lia). pose proof (coeff0 D2 values PD) as X. replace (length D2) with n in X by (unfold D2; rewrite repeat_length; reflexivity). fold K0 in X. rewrite X by (rewrite S2; unfold D2; rewrite map_repeat_; reflexivity).
    fold w P. assert (SUM : sumidx (map (fun d => 2 * d)%nat D2) (tget values) = t * cnt + rest).
    { unfold cnt, rest. rewrite <- sumidx_scal, <- sumidx_plus. unfold D2. rewrite map_repeat_. apply sumidx_ext. intros e He. rewrite V2 by auto. unfold low, memory. fold D2. destruct (forallb _ e); ring. }
    rewrite SUM. unfold t. field. repeat split; lra. }
  assert (GE : Rabs (tget M2 K0 - tget M K0) <= difference M2 M).
  { unfold difference. rewrite <- (coefAt_in M2) by auto. rewrite <- (coefAt_in M K0) by (rewrite S1; auto).
    apply (sumidx_ge (shp M2) (fun e => Rabs (coefAt M2 e - coefAt M e)) K0 HK2). intros e. apply Rabs_pos. }
  rewrite C1, C2 in GE. eapply Rlt_le_trans; [|exact GE]. pose proof (Rle_abs bound). pose proof (Rle_abs M0). pose proof (Rabs_pos bound). rewrite Rabs_pos_eq; lra.
Qed.
Print Assumptions C107_first_approximation_depends_on_uninitialised_memory.

(** ** C107: one variable *)
Lemma nth_firstn_lt {A} k i (l : list A) x : (i < k)%nat -> nth i (firstn k l) x = nth i l x.
Proof. revert i l. induction k; intros i l H; [lia|]. destruct l; [reflexivity|]. destruct i; [reflexivity|]. cbn [firstn nth]. apply IHk. lia. Qed.
Ltac one_in := cbn [map repeat]; constructor; [lia|constructor].
Lemma coeffs_line deg (values : list R) k : (1 <= deg)%nat -> length values = (2 * deg)%nat -> (k <= deg)%nat ->
  tget (coeffsOf cosR [deg] (mkT [(2 * deg)%nat] values)) [k] =
    ew deg k * nsum (map (fun j => nth j values 0 / INR deg * cosR (j * k)%nat deg) (seq 0 (2 * deg))).
Proof.
  intros Hd HL Hk. assert (HD : pos [deg]) by (repeat constructor; auto). assert (HK : inrange (map S [deg]) [k]) by one_in.
  unfold coeffsOf. rewrite tget_tbuild by auto. cbn [shp]. set (sc := tbuild _ _). unfold halveEdges. cbn [length].
  destruct (fold_halve2 [deg] [(2 * deg)%nat] (seq 0 1) (fftnRe cosR [deg] sc) (fun k => tget (fftnRe cosR [deg] sc) k)) as [_ H2]; auto.
  assert (HK' : inrange [(2 * deg)%nat] [k]) by one_in.
  rewrite H2 by auto. cbn [seq map nth]. unfold Rprod. cbn [fold_right]. rewrite Rmult_1_r. f_equal.
  unfold fftnRe. cbn [shp sc tbuild]. rewrite tget_tbuild by auto. rewrite !nsum_map_R. rewrite sumidx_indices. cbn [sumidx]. rewrite Rsum_map_seq. apply sumn_ext. intros j Hj.
  unfold sc. rewrite tget_tbuild by one_in. rnum. rewrite nofnat_R. unfold prodn. cbn [fold_right phase]. unfold prodn. cbn [fold_right]. rewrite !Nat.mul_1_r, Nat.mul_0_r, Nat.add_0_r.
  f_equal. f_equal. unfold tget. cbn [shp dat ravel_index]. unfold prodn. cbn [fold_right]. f_equal. lia.
Qed.
(** [coeffs] are the deg+1 coefficients of the series that takes the values of f at the Chebyshev points of [a, b]; the norm is
    the largest absolute value there, and the flag says whether positive and non-positive values occur there. *)
Definition point1 (a b : R) (deg j : nat) : R := ((b - a) * cos (INR j * PI / INR deg) + (b + a)) / 2.
Theorem C107_one_variable :
  forall (f : R -> R) (a b : R) (deg : nat), (1 <= deg)%nat ->
    let '(coeffs, sign_change, inf_norm) := interval_approximate_1d cosR f a b deg in
    length coeffs = (deg + 1)%nat /\
    (forall j, (j <= deg)%nat -> Rsum (map (fun k => nth k coeffs 0 * chebT k (cos (INR j * PI / INR deg))) (seq 0 (deg + 1))) = f (point1 a b deg j)) /\
    (sign_change = true <-> (exists i, (i <= deg)%nat /\ 0 < f (point1 a b deg i)) /\ (exists j, (j <= deg)%nat /\ f (point1 a b deg j) <= 0)) /\
    (forall j, (j <= deg)%nat -> Rabs (f (point1 a b deg j)) <= inf_norm) /\ (exists j, (j <= deg)%nat /\ Rabs (f (point1 a b deg j)) = inf_norm).
Proof.
  intros f a b deg Hd. unfold interval_approximate_1d. set (values := map f (extrema1 cosR a b deg)).
  assert (EX : forall j, transformPt (cosR j deg) a b = point1 a b deg j) by (intros j; unfold transformPt, point1, cosR; rnum; rewrite n2_R; reflexivity).
  assert (RF : forall j, (deg <= j < 2 * deg)%nat -> point1 a b deg j = point1 a b deg (2 * deg - j)).
  { intros j Hj. rewrite <- !EX. f_equal. pose proof (cosR_refl deg j 1 Hd ltac:(lia)) as X. rewrite !Nat.mul_1_r in X. auto. }
  assert (LV : length values = (2 * deg)%nat) by (unfold values, extrema1; rewrite !map_length, seq_length; reflexivity).
  assert (NV : forall j, (j < 2 * deg)%nat -> nth j values 0 = f (point1 a b deg j)).
  { intros j Hj. unfold values, extrema1. rewrite map_map. set (F := fun x : nat => f _). rewrite (nth_indep _ 0 (F 0%nat)) by (rewrite map_length, seq_length; auto).
    rewrite map_nth, seq_nth by auto. unfold F. cbn [Nat.add]. rewrite EX. reflexivity. }
  assert (IV : forall v, In v values <-> exists j, (j <= deg)%nat /\ f (point1 a b deg j) = v).
  { intros v. unfold values, extrema1. rewrite map_map. rewrite in_map_iff. split.
    - intros (j & <- & Hj). apply in_seq in Hj. rewrite EX. destruct (Nat.le_gt_cases j deg) as [H|H]; [exists j; auto|]. exists (2 * deg - j)%nat. split; [lia|]. rewrite <- RF by lia. reflexivity.
    - intros (j & Hj & <-). exists j. rewrite EX. split; [reflexivity|]. apply in_seq. lia. }
  set (halved := map _ (seq 0 (2 * deg))). set (coeffs := firstn (deg + 1) halved).
  assert (LH : length halved = (2 * deg)%nat) by (unfold halved; rewrite map_length, seq_length; reflexivity).
  assert (LC : length coeffs = (deg + 1)%nat) by (unfold coeffs; rewrite firstn_length, LH; lia).
  set (vb := gridValues cosR (Plain (fun x => f (nth 0 x 0))) (repeat deg 1) [a] [b]).
  assert (MI : mirrored deg 1 vb (mkT [(2 * deg)%nat] values)).
  { split; [reflexivity|]. intros e He. inversion He as [|j ? e' ? Hj He']; subst. inversion He'; subst. cbn [repeat foldIdx].
    unfold tget at 1. cbn [shp dat ravel_index]. unfold prodn. cbn [fold_right]. rewrite Nat.mul_1_r, Nat.add_0_r. change n0 with 0. rewrite NV by auto.
    unfold vb, gridValues. rewrite tget_tbuild.
    - rewrite gridPoint_box. cbn [repeat nodes combine map fst snd boxPoint callAt nth]. unfold foldI. destruct (Nat.leb_spec j deg); [reflexivity|]. rewrite RF by lia. reflexivity.
    - cbn [repeat map]. constructor; [unfold foldI; destruct (Nat.leb_spec j deg); lia|constructor]. }
  assert (EC : mkT [S deg] coeffs = coeffsOf cosR [deg] (mkT [(2 * deg)%nat] values)).
  { apply tget_ext; [split; [cbn [dat shp]; unfold prodn; cbn [fold_right]; lia|cbn [shp]; one_in]|apply wf_tbuild; one_in|reflexivity|].
    intros idx Hi. cbn [shp] in Hi. inversion Hi as [|k ? e' ? Hk He']; subst. inversion He'; subst. rewrite coeffs_line by (auto; lia).
    unfold tget. cbn [shp dat ravel_index]. unfold prodn. cbn [fold_right]. rewrite Nat.mul_1_r, Nat.add_0_r. unfold coeffs. rewrite nth_firstn_lt by lia. unfold halved.
    set (F := fun k0 : nat => _). rewrite (nth_indep _ n0 (F 0%nat)) by (rewrite map_length, seq_length; lia). rewrite map_nth, seq_nth by lia. cbn [Nat.add]. unfold F. set (G := fun k0 : nat => nsum _).
    rewrite (nth_indep _ n0 (G 0%nat)) by (rewrite map_length, seq_length; lia). rewrite map_nth, seq_nth by lia. cbn [Nat.add]. unfold G.
    rewrite nofnat_R. change n0 with 0. rnum. rewrite n2_R. unfold ew. set (q := nsum _). clearbody q. destruct (Nat.eqb_spec k 0), (Nat.eqb_spec k deg); try lia; field. }
  change [deg] with (repeat deg 1) in EC. rewrite (mirrored_blockCopy (fun _ => 0) deg 1 vb (mkT [(2 * deg)%nat] values) Hd (block_values _ _ _ _ _) MI) in EC.
  assert (HI : interpolant (callAt (Plain (fun x => f (nth 0 x 0)))) [a] [b] (repeat deg 1) (mkT [S deg] coeffs)).
  { rewrite EC. apply fresh_interpolant. apply repeat_pos; auto. }
  split; [exact LC|]. split; [|split; [|split]].
  - intros j Hj. destruct HI as (_ & _ & HV). specialize (HV (nodes [deg] [j])). rewrite cheb_eval_sumidx in HV. cbn [shp sumidx nodes combine map fst snd boxPoint callAt nth] in HV. unfold point1. fold (cosR j deg).
    rewrite <- HV by (apply gridNode_nodes; exists [j]; split; [one_in|reflexivity]). rewrite Nat.add_1_r. rewrite Rsum_map_seq. apply sumn_ext. intros k Hk. unfold tget, basis. cbn [shp dat ravel_index combine map fold_right fst snd].
    unfold prodn. cbn [fold_right]. rewrite Nat.mul_1_r, Nat.add_0_r, Rmult_1_r. reflexivity.
  - rewrite andb_true_iff, !existsb_exists. rnum. split.
    + intros [(u & Hu & Tu) (v & Hv & Tv)]. apply IV in Hu, Hv. destruct Hu as (i & Hi & <-), Hv as (j & Hj & <-). apply Rltb_true in Tu. apply negb_true_iff, Rltb_false in Tv. split; eauto.
    + intros [(i & Hi & Ti) (j & Hj & Tj)]. split; [exists (f (point1 a b deg i))|exists (f (point1 a b deg j))]; rewrite IV; (split; [eauto|]); [apply Rltb_true; auto|apply negb_true_iff, Rltb_false; auto].
  - intros j Hj. apply ApproxDegree.maxAbs_ge. apply IV. eauto.
  - destruct (Rle_lt_or_eq_dec 0 _ (maxAbs_nonneg values)) as [Hp|Hz].
    + destruct (maxAbs_attained _ Hp) as (x & Hx & E). apply IV in Hx. destruct Hx as (j & Hj & <-). eauto.
    + exists 0%nat. split; [lia|]. pose proof (ApproxDegree.maxAbs_ge values (f (point1 a b deg 0))) as U. specialize (U ltac:(apply IV; exists 0%nat; split; [lia|reflexivity])).
      rewrite <- Hz in *. pose proof (Rabs_pos (f (point1 a b deg 0))). lra.
Qed.
Print Assumptions C107_one_variable.

(** ** Examples *)
Example C107_case : let history := [Solve 2 9; Copy (mkT [5; 5]%nat (repeat 1 25))] in
  allowed history /\ sizes 2 history = Some (24, 24)%nat /\ (4 * 6 <= 24)%nat /\ (2 * 12 <= 24)%nat.
Proof.
  cbv zeta. split; [|repeat split; try reflexivity; lia].
  intros bf b af E. destruct bf as [|e1 [|e2 [|e3 bf]]]; try discriminate.
  - injection E as E1 E _. subst b e1. exists 2%nat, 4%nat. split; [repeat split; try reflexivity; lia|discriminate].
Qed.
