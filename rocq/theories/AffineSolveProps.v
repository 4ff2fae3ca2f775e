(** * Property theorems C115: solve, with its own approximator, on every function that is affine on the interval *)
From Coq Require Import List Arith Bool ZArith Reals Lra Lia.
From Verif Require Import Num RSum Cheb Tensor PolySpec IntervalModel IntervalProofs LinearModel SolverModel ExtExample SolverProps CombinedModel CombinedSpec CombinedProps
  ApproxModel ApproxDct ApproxInterp ApproxError ApproxDegree ApproxTerm ApproxPoly ApproxOne ApproxLoss ApproxCall AffineProofs AffineProps.
From Coq Require Import List.
Import ListNotations.
Local Open Scope R_scope.

Lemma seen_two c0 c1 g k : (1 <= g)%nat -> seen [(0%nat, c0); (1%nat, c1)] g k = if Nat.eqb k 0 then c0 else if Nat.eqb k 1 then c1 else 0.
Proof.
  intros Hg. unfold seen, Rsum. cbn [map fold_right fst snd]. rewrite !alias_small by lia. destruct k as [|[|k]]; cbn; ring.
Qed.
Lemma series_two c0 c1 y : seriesAt [(0%nat, c0); (1%nat, c1)] y = c0 + c1 * y.
Proof. unfold seriesAt, Rsum. cbn. ring. Qed.

(** The error the approximator reports for a degree-one expansion whose largest coefficient is the linear one. *)
Definition err1 (c1 : R) : R := / 2251799813685248 / (Rabs c1 * 2251799813685248 - 1).

Lemma approx_affine acc fuel g a b c0 c1 : a < b -> acc g 1%nat = true ->
  (forall y, -1 <= y <= 1 -> g [((b - a) * y + (b + a)) / 2] = c0 + c1 * y) ->
  Rabs c0 < Rabs c1 -> / 2251799813685248 < Rabs c1 ->
  chebApproximate cosR rootR acc (S fuel) (Plain g) [a] [b] (/ 10000000000) = AOk (affine1 c0 c1, err1 c1).
Proof.
  intros Hab Hacc Hg H0 H1.
  assert (P1 : 0 < Rabs c1) by (pose proof (Rabs_pos c0); lra).
  assert (A2 : 0 < Rabs (c0 + c1)).
  { apply Rabs_pos_lt. intros Q. assert (E : c0 = - c1) by lra. rewrite E, Rabs_Ropp in H0. lra. }
  assert (HP : 0 < / 4503599627370496) by (apply Rinv_0_lt_compat; lra).
  assert (HP' : 0 < / 2251799813685248) by (apply Rinv_0_lt_compat; lra).
  rewrite (one_call acc fuel g a b [(0%nat, c0); (1%nat, c1)] (/ 10000000000) (Rabs (c0 + c1)) (2 * Rabs c1) 1 1) with (r := Rabs c1 * 2251799813685248);
    try lra; auto; try lia.
  - cbn [seq map]. rewrite !seen_two by lia. reflexivity.
  - intros y Hy. unfold boxPoint. cbn [combine map fst snd]. rewrite series_two. apply Hg; auto.
  - rewrite series_two, Rmult_1_r. lra.
  - intros y Hy. rewrite series_two. eapply Rle_trans; [apply Rabs_triang|]. rewrite Rabs_mult.
    assert (Rabs y <= 1) by (apply Rabs_le; lra). assert (Rabs c1 * Rabs y <= Rabs c1 * 1) by (apply Rmult_le_compat_l; lra). lra.
  - intros k Hk. rewrite seen_two by lia. destruct (Nat.eqb_spec k 0), (Nat.eqb_spec k 1); try lia. rewrite Rabs_R0. apply Rmult_lt_0_compat; lra.
  - intros k Hk. rewrite !seen_two by lia.
    assert (0 < Rabs (c0 + c1) * / 10000000000) by (apply Rmult_lt_0_compat; lra).
    destruct (Nat.leb_spec k 8), (Nat.eqb_spec k 0), (Nat.eqb_spec k 1); try lia; (rewrite Rminus_diag_eq by auto; rewrite Rabs_R0; lra).
  - apply check_ends; [lra|].
    assert (Ga : g [a] = c0 - c1) by (replace a with (((b - a) * -1 + (b + a)) / 2) at 1 by field; rewrite Hg by lra; ring).
    assert (Gb : g [b] = c0 + c1) by (replace b with (((b - a) * 1 + (b + a)) / 2) at 1 by field; rewrite Hg by lra; ring).
    rewrite Ga, Gb. replace (c0 + c1 - (c0 - c1)) with (2 * c1) by ring. rewrite Rabs_mult, (Rabs_pos_eq 2) by lra.
    pose proof (Rabs_triang c0 c1). pose proof (Rabs_triang c0 (- c1)) as Q. rewrite Rabs_Ropp in Q. change (c0 + - c1) with (c0 - c1) in Q. lra.
  - intros k Hk. rewrite seen_two by lia. destruct (Nat.eqb_spec k 0), (Nat.eqb_spec k 1); try lia. rewrite Rabs_R0. lra.
  - exists 1%nat. split; [lia|]. rewrite seen_two by lia. cbn [Nat.eqb]. lra.
  - intros k Hk. rewrite seen_two by lia. destruct (Nat.eqb_spec k 0), (Nat.eqb_spec k 1); try lia. rewrite Rabs_R0. lra.
  - intros k Hk Hne. rewrite !seen_two by lia. cbn [Nat.eqb]. destruct (Nat.eqb_spec k 0), (Nat.eqb_spec k 1); try lia; try lra. rewrite Rabs_R0. lra.
  - rewrite seen_two by lia. cbn [Nat.eqb]. change (Z.of_nat 1 - Z.of_nat 1 + 1)%Z with 1%Z. apply rootR_1. apply Rmult_lt_0_compat; lra.
Qed.

Lemma err1_bound c1 : / 1000000000 <= Rabs c1 -> 0 < err1 c1 /\ err1 c1 <= / 1000000000000000000000.
Proof.
  intros H. unfold err1. set (t := Rabs c1) in *. assert (HD : 2000000 <= t * 2251799813685248 - 1) by lra.
  assert (HP : 0 < / 2251799813685248) by (apply Rinv_0_lt_compat; lra). split.
  - apply Rdiv_lt_0_compat; lra.
  - unfold Rdiv. apply Rle_trans with (/ 2251799813685248 * / 2000000).
    + apply Rmult_le_compat_l; [lra|]. apply Rinv_le_contravar; lra.
    + rewrite <- Rinv_mult. apply Rinv_le_contravar; lra.
Qed.

(** The constant term is the largest: zero at an end of the interval, or none.  (The first of equal terms counts.) *)
Definition err0 (c0 : R) : R := / 2251799813685248 / (Rpower (Rabs c0 * 2251799813685248) (1 / 2) - 1).

Lemma power_half x : 4000000 / 4 <= x -> 1000 <= Rpower x (1 / 2).
Proof.
  intros H. replace (1 / 2) with (/ 2) by lra. rewrite Rpower_sqrt by lra. replace 1000 with (sqrt (1000 * 1000)) by (apply sqrt_square; lra). apply sqrt_le_1_alt. lra.
Qed.
Lemma approx_affine0 acc fuel g a b c0 c1 : a < b -> acc g 1%nat = true ->
  (forall y, -1 <= y <= 1 -> g [((b - a) * y + (b + a)) / 2] = c0 + c1 * y) ->
  Rabs c1 <= Rabs c0 -> / 1000000000 <= Rabs c1 -> / 1000000000 * Rabs c0 <= Rabs c1 ->
  chebApproximate cosR rootR acc (S fuel) (Plain g) [a] [b] (/ 10000000000) = AOk (affine1 c0 c1, err0 c0).
Proof.
  intros Hab Hacc Hg H0 H1 H2.
  assert (A2 : exists s, 0 < s /\ (s <= Rabs (c0 + c1) \/ s <= Rabs (c0 - c1))).
  { destruct (Req_dec (c0 + c1) 0) as [Q|Q]; [|exists (Rabs (c0 + c1)); split; [apply Rabs_pos_lt; auto|left; lra]].
    exists (Rabs (c0 - c1)). split; [|right; lra]. apply Rabs_pos_lt. intros Q2. assert (E : c1 = 0) by lra. rewrite E, Rabs_R0 in H1. lra. }
  destruct A2 as (s & Hs0 & Hs).
  assert (HP : 0 < / 4503599627370496) by (apply Rinv_0_lt_compat; lra).
  assert (HP' : 0 < / 2251799813685248) by (apply Rinv_0_lt_compat; lra).
  pose proof (power_half (Rabs c0 * 2251799813685248) ltac:(lra)) as HR.
  rewrite (one_call_gen acc fuel g a b [(0%nat, c0); (1%nat, c1)] (/ 10000000000) s (2 * Rabs c0) 1 0) with (r := Rpower (Rabs c0 * 2251799813685248) (1 / 2));
    try lra; auto; try lia.
  - cbn [seq map]. rewrite !seen_two by lia. reflexivity.
  - intros y Hy. unfold boxPoint. cbn [combine map fst snd]. rewrite series_two. apply Hg; auto.
  - rewrite !series_two, Rmult_1_r. replace (c0 + c1 * -1) with (c0 - c1) by ring. exact Hs.
  - intros y Hy. rewrite series_two. eapply Rle_trans; [apply Rabs_triang|]. rewrite Rabs_mult.
    assert (Rabs y <= 1) by (apply Rabs_le; lra). assert (Rabs c1 * Rabs y <= Rabs c1 * 1) by (apply Rmult_le_compat_l; lra). lra.
  - intros k Hk. rewrite seen_two by lia. destruct (Nat.eqb_spec k 0), (Nat.eqb_spec k 1); try lia. rewrite Rabs_R0. apply Rmult_lt_0_compat; lra.
  - intros k Hk. rewrite !seen_two by lia.
    assert (0 < s * / 10000000000) by (apply Rmult_lt_0_compat; lra).
    destruct (Nat.leb_spec k 8), (Nat.eqb_spec k 0), (Nat.eqb_spec k 1); try lia; (rewrite Rminus_diag_eq by auto; rewrite Rabs_R0; lra).
  - apply check_ends; [lra|].
    assert (Ga : g [a] = c0 - c1) by (replace a with (((b - a) * -1 + (b + a)) / 2) at 1 by field; rewrite Hg by lra; ring).
    assert (Gb : g [b] = c0 + c1) by (replace b with (((b - a) * 1 + (b + a)) / 2) at 1 by field; rewrite Hg by lra; ring).
    rewrite Ga, Gb. replace (c0 + c1 - (c0 - c1)) with (2 * c1) by ring. rewrite Rabs_mult, (Rabs_pos_eq 2) by lra.
    pose proof (Rabs_triang c0 c1). pose proof (Rabs_triang c0 (- c1)) as Q. rewrite Rabs_Ropp in Q. change (c0 + - c1) with (c0 - c1) in Q. lra.
  - intros k Hk. rewrite seen_two by lia. destruct (Nat.eqb_spec k 0), (Nat.eqb_spec k 1); try lia. rewrite Rabs_R0. lra.
  - exists 1%nat. split; [lia|]. rewrite seen_two by lia. cbn [Nat.eqb]. lra.
  - intros k Hk. rewrite seen_two by lia. destruct (Nat.eqb_spec k 0), (Nat.eqb_spec k 1); try lia. rewrite Rabs_R0. lra.
  - intros k Hk. rewrite !seen_two by lia. cbn [Nat.eqb]. destruct (Nat.eqb_spec k 0), (Nat.eqb_spec k 1); try lia; try lra. rewrite Rabs_R0. lra.
  - rewrite seen_two by lia. cbn [Nat.eqb]. change (Z.of_nat 1 - Z.of_nat 0 + 1)%Z with 2%Z. unfold rootR. destruct (Z.eq_dec 2 0); [lia|].
    destruct (Req_EM_T _ 0) as [Q|_]; [exfalso|reflexivity]. assert (0 < Rabs c0 * 2251799813685248) by (apply Rmult_lt_0_compat; lra). lra.
Qed.
Lemma err0_bound c0 : / 1000000000 <= Rabs c0 -> 0 < err0 c0 < / 1000000000000000000.
Proof.
  intros H. unfold err0. pose proof (power_half (Rabs c0 * 2251799813685248) ltac:(lra)) as HR. set (t := Rpower _ _) in *.
  assert (HP : 0 < / 2251799813685248) by (apply Rinv_0_lt_compat; lra). split.
  - apply Rdiv_lt_0_compat; lra.
  - unfold Rdiv. apply Rle_lt_trans with (/ 2251799813685248 * / 999).
    + apply Rmult_le_compat_l; [lra|]. apply Rinv_le_contravar; lra.
    + rewrite <- Rinv_mult. apply Rinv_lt_contravar; lra.
Qed.

(** solve(g, a, b) for any Python function g that equals L + K x on [a,b], whose zero -L/K lies in [a,b]
    (the ends included): with the
    approximator the package itself uses, exactly one root is returned, and it is that zero. *)
Theorem C115_any_affine_function :
  forall (X : ext R) (acc : (list R -> R) -> nat -> bool) (fa : nat) (exact : bool) (L K a b : R) (g : list R -> R),
    externalsOK 1 X -> acc g 1%nat = true ->
    (forall x, a <= x <= b -> g [x] = L + K * x) -> a < b -> a <= - L / K <= b -> / 1000000000 <= Rabs K * ((b - a) / 2) ->
    exists fuel0, forall sfuel fuel, (fuel0 <= sfuel)%nat -> (1 <= fuel)%nat -> exists (root lo hi : R),
      @solveTop R R_num X (approxOf cosR rootR acc (S fa)) exact (/ 100000) sfuel fuel (FOne (Plain g)) (BScalar a) (BScalar b)
        = COk (mkOut [[root]] [[(lo, hi)]] [([a], [b])]) /\
      lo <= - L / K <= hi /\ lo <= root <= hi /\ hi - lo <= / 100000 * Rmax (Rmax (Rabs a) (Rabs b)) 1 /\
      Rabs (root - - L / K) <= (b - a) / 2 * / 100000000000000000000000000000000.
Proof.
  intros X acc fa exact L K a b g HX Hacc Hg Hab Hz HS.
  assert (HK : K <> 0) by (intros ->; rewrite Rabs_R0 in HS; lra). set (z := - L / K) in *. assert (EL : L = - (K * z)) by (unfold z; field; auto).
  set (c1 := K * ((b - a) / 2)). set (c0 := L + K * ((b + a) / 2)).
  assert (E1 : Rabs c1 = Rabs K * ((b - a) / 2)) by (unfold c1; rewrite Rabs_mult, (Rabs_pos_eq ((b - a) / 2)); lra). rewrite <- E1 in HS.
  assert (PK : 0 < Rabs K) by (apply Rabs_pos_lt; auto). assert (P1 : 0 < Rabs c1) by lra.
  assert (E0 : c0 = K * ((b + a) / 2 - z)) by (unfold c0; rewrite EL; ring).
  assert (H0 : Rabs c0 <= Rabs c1) by (rewrite E1, E0, Rabs_mult; apply Rmult_le_compat_l; [lra|]; apply Rabs_le; lra).
  assert (EZ : zeroOf a b c0 c1 = z) by (unfold zeroOf; rewrite E0; unfold c1; field; split; [lra|auto]).
  assert (GY : forall y, -1 <= y <= 1 -> g [((b - a) * y + (b + a)) / 2] = c0 + c1 * y).
  { intros y Hy. rewrite Hg; [unfold c0, c1; field|].
    assert (0 <= (b - a) * (1 + y)) by (apply Rmult_le_pos; lra). assert (0 <= (b - a) * (1 - y)) by (apply Rmult_le_pos; lra). lra. }
  assert (EA : exists e, 0 < e <= / 1000000000000000000 /\
            chebApproximate cosR rootR acc (S fa) (Plain g) [a] [b] (/ 10000000000) = AOk (affine1 c0 c1, e)).
  { destruct (Rlt_dec (Rabs c0) (Rabs c1)) as [Q|Q].
    - exists (err1 c1). destruct (err1_bound c1 HS) as [B1 B2]. split; [lra|]. apply approx_affine; auto; lra.
    - exists (err0 c0). assert (HS0 : / 1000000000 <= Rabs c0) by lra. destruct (err0_bound c0 HS0) as [B1 B2]. split; [lra|]. apply approx_affine0; auto; lra. }
  destruct EA as (e & [B1 B2] & EA).
  rewrite <- EZ. apply (C114_solve_finds_the_zero X _ exact (/ 100000) a b c0 c1 e (Plain g)); auto; try lra.
  - discriminate.
  - cbn [approxFor]. unfold approxOf. rewrite nlit_R. replace (IZR 1 / IZR 10000000000) with (/ 10000000000) by lra. rewrite EA. reflexivity.
  - assert (QB : e / Rabs c1 <= / 1000000000).
    { apply (Rmult_le_reg_r (Rabs c1)); auto. unfold Rdiv. rewrite Rmult_assoc, Rinv_l, Rmult_1_r by lra.
      apply Rle_trans with (/ 1000000000 * / 1000000000); [lra|]. apply Rmult_le_compat_l; lra. }
    assert (MB : (b - a) / 2 <= Rmax (Rmax (Rabs a) (Rabs b)) 1).
    { pose proof (Rle_abs b). pose proof (Rle_abs (- a)) as Q. rewrite Rabs_Ropp in Q. pose proof (Rmax_l (Rabs a) (Rabs b)). pose proof (Rmax_r (Rabs a) (Rabs b)).
      pose proof (Rmax_l (Rmax (Rabs a) (Rabs b)) 1). lra. }
    assert (P49 : / 2 ^ 49 <= / 100000000000000) by (apply Rinv_le_contravar; [lra|cbn; lra]).
    set (M := Rmax _ _) in *. set (q := e / Rabs c1) in *. set (p := / 2 ^ 49) in *.
    apply Rle_trans with ((b - a) / 2 * / 100000); [|rewrite (Rmult_comm (/ 100000)); apply Rmult_le_compat_r; lra].
    apply Rmult_le_compat_l; lra.
Qed.
Print Assumptions C115_any_affine_function.

(** ** no zero *)
(** If g = L + K x stays away from 0 on the whole of [a,b] - by 1e-18 is enough - solve(g, a, b) returns no root at all.
    The two conditions on the size of the slope say that g is not, at the tolerance 1e-10 the approximator uses, a constant. *)
Theorem C115_no_zero_no_root :
  forall (X : ext R) (acc : (list R -> R) -> nat -> bool) (fa : nat) (exact : bool) (L K a b minSize : R) (g : list R -> R),
    acc g 1%nat = true -> a < b ->
    (forall x, a <= x <= b -> g [x] = L + K * x) -> (forall x, a <= x <= b -> / 1000000000000000000 <= Rabs (g [x])) ->
    / 1000000000 <= Rabs K * ((b - a) / 2) -> / 1000000000 * Rabs (g [(a + b) / 2]) <= Rabs K * ((b - a) / 2) ->
    forall sfuel fuel, (1 <= sfuel)%nat -> (1 <= fuel)%nat ->
      @solveTop R R_num X (approxOf cosR rootR acc (S fa)) exact minSize sfuel fuel (FOne (Plain g)) (BScalar a) (BScalar b)
        = COk (mkOut [] [] [([a], [b])]).
Proof.
  intros X acc fa exact L K a b minSize g Hacc Hab Hg Hz HS HM sfuel fuel Hs Hf.
  set (c1 := K * ((b - a) / 2)). set (c0 := L + K * ((b + a) / 2)).
  assert (E1 : Rabs c1 = Rabs K * ((b - a) / 2)) by (unfold c1; rewrite Rabs_mult, (Rabs_pos_eq ((b - a) / 2)); lra). rewrite <- E1 in HS, HM.
  assert (EM : g [(a + b) / 2] = c0) by (rewrite Hg by lra; unfold c0; field). rewrite EM in HM.
  assert (GY : forall y, -1 <= y <= 1 -> g [((b - a) * y + (b + a)) / 2] = c0 + c1 * y).
  { intros y Hy. rewrite Hg; [unfold c0, c1; field|].
    assert (0 <= (b - a) * (1 + y)) by (apply Rmult_le_pos; lra). assert (0 <= (b - a) * (1 - y)) by (apply Rmult_le_pos; lra). lra. }
  assert (ZY : forall y, -1 <= y <= 1 -> / 1000000000000000000 <= Rabs (c0 + c1 * y)).
  { intros y Hy. rewrite <- GY by auto. apply Hz.
    assert (0 <= (b - a) * (1 + y)) by (apply Rmult_le_pos; lra). assert (0 <= (b - a) * (1 - y)) by (apply Rmult_le_pos; lra). lra. }
  assert (Hc1 : c1 <> 0) by (intros Q; rewrite Q, Rabs_R0 in HS; lra).
  assert (G1 : Rabs c1 + / 1000000000000000000 <= Rabs c0).
  { destruct (Rle_lt_dec (Rabs c0) (Rabs c1)) as [Q|Q].
    - exfalso. assert (Y : -1 <= - c0 / c1 <= 1).
      { assert (P1 : 0 < Rabs c1) by lra. assert (A : Rabs (- c0 / c1) <= 1); [|apply abs_le_iff in A; lra]. unfold Rdiv. rewrite Rabs_mult, Rabs_Ropp, Rabs_inv. apply (Rmult_le_reg_r (Rabs c1)); [exact P1|]. rewrite Rmult_assoc, Rinv_l by lra. lra. }
      pose proof (ZY _ Y) as Z. replace (c0 + c1 * (- c0 / c1)) with 0 in Z by (field; auto). rewrite Rabs_R0 in Z. lra.
    - pose proof (ZY 1 ltac:(lra)) as Z1. pose proof (ZY (-1) ltac:(lra)) as Z2. revert Z1 Z2 Q. unfold Rabs. repeat destruct (Rcase_abs _); intros; lra. }
  assert (EA : approxOf cosR rootR acc (S fa) (Plain g) [a] [b] = Ok (affine1 c0 c1, err0 c0)).
  { unfold approxOf. rewrite nlit_R. replace (IZR 1 / IZR 10000000000) with (/ 10000000000) by lra. rewrite (approx_affine0 acc fa g a b c0 c1); auto. lra. }
  destruct (err0_bound c0 ltac:(lra)) as [B1 B2].
  destruct sfuel as [|sfuel]; [lia|]. destruct fuel as [|fuel]; [lia|]. unfold solveTop. cbn [length boundOf repeat].
  apply (discard1 X _ exact minSize sfuel fuel g a b (affine1 c0 c1) (err0 c0)); auto; [lra|].
  unfold constantCheck. cbn [combine existsb]. rewrite orb_false_r. unfold ngtb, tsumabs, nsumabs, tconst, affine1. cbn. rnum. apply Rltb_true. lra.
Qed.
Print Assumptions C115_no_zero_no_root.

(** 2 + 3x on [-1,1] has its zero at -2/3, on [-2/3,1] at the lower end ; on [0,4] it has none. *)
Example C115_example : exists (acc : (list R -> R) -> nat -> bool) (g : list R -> R),
  externalsOK 1 (@ext1 R R_num) /\ acc g 1%nat = true /\ (forall x, g [x] = 2 + 3 * x) /\
  -1 <= - (2) / 3 <= 1 /\ / 1000000000 <= Rabs 3 * ((1 - -1) / 2) /\
  - (2) / 3 <= - (2) / 3 <= 1 /\ / 1000000000 <= Rabs 3 * ((1 - - (2) / 3) / 2) /\
  (forall x, 0 <= x <= 4 -> / 1000000000000000000 <= Rabs (g [x])) /\ / 1000000000 <= Rabs 3 * ((4 - 0) / 2) /\
  / 1000000000 * Rabs (g [(0 + 4) / 2]) <= Rabs 3 * ((4 - 0) / 2).
Proof.
  exists (fun _ n => Nat.eqb n 1), (fun x => 2 + 3 * nth 0 x 0). cbn [nth]. rewrite (Rabs_pos_eq 3) by lra.
  split; [apply ext1_ok|]. split; [reflexivity|]. split; [reflexivity|]. split; [lra|]. split; [lra|]. split; [lra|]. split; [lra|]. split; [|split; [lra|]].
  - intros x Hx. rewrite Rabs_pos_eq; lra.
  - rewrite Rabs_pos_eq; lra.
Qed.
