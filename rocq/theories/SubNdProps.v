(** * Property theorems C109 and C110: the solver in several variables of subdivision.py *)
From Coq Require Import Reals List Lia Lra Arith Bool.
From Coquelicot Require Import Complex.
From Coq Require Import List.
From Verif Require Import Num RSum Tensor CombinedModel ApproxModel ApproxDct SubApproxModel SubApproxProofs SubApproxProps TrackerModel.
From Verif Require SubcheckModel SubcheckProps SubNdModel.
Import SubNdModel.
From Verif Require Import SubNdSpec SubNdProofs SubNdLinear.
Import ListNotations.
Local Open Scope R_scope.

Lemma found_core X tols target_deg ML fuel methods trust funcs a b d s0 s1 : let n := length funcs in (2 <= n)%nat -> SubcheckProps.box n a b ->
  idata s0 = SubcheckModel.newData n -> results s0 = [] -> tracked s0 = init ->
  subdivision_solve_nd X tols target_deg ML methods trust fuel funcs a b d None 0 false s0 = Finished s1 ->
  let t := keep_possible_duplicates (tracked s1) in
  exists leaves, results s1 = map stored leaves /\ t = run (map callOf leaves ++ [Keep]) /\
       Forall (leafOK n (11 / 10 ^ 10) (5 / 10 ^ 10) ((1 + 1 / 10 ^ 9) ^ n * (3 / 4) ^ ML * volume a b) a b) leaves /\
       (forall z, In z (roots t) -> exists l, In l leaves /\ why l <> TooDeep /\ In z (points l)) /\
       potential_roots t = flat_map (fun l => match why l with TooDeep => points l | _ => [] end) leaves /\
       (forall z i, In z (roots t) -> (i < n)%nat -> within (5 / 10 ^ 10) (1 / 10 ^ 9) a b i (nth i z 0)) /\
       volume a b <= SubcheckModel.area (idata s1) <= (1 + 1 / 10 ^ 9) ^ (2 * n) * volume a b.
Proof.
  intros n Hn HB I0 R0 T0 E1 t.
  destruct (search_ok X tols target_deg ML methods trust n Hn fuel funcs a b d None 0 false s0 s1 eq_refl I HB ltac:(rewrite I0; apply repeat_length) ltac:(rewrite I0; reflexivity) E1) as (ls & _ & _ & R1 & T1 & F1 & A1).
  rewrite R0 in R1. rewrite T0 in T1. rewrite I0 in A1. cbn [SubcheckModel.newData SubcheckModel.area List.app] in R1, A1. destruct (tracker_points ls (@init R reason)) as (TP1 & TP2). pose proof (tracker_potential ls (@init R reason)) as TP3. rewrite <- T1 in TP1, TP2, TP3. cbn [init roots possible_duplicates potential_roots List.app map] in TP1, TP2, TP3.
  destruct (keep_roots (tracked s1)) as (K1 & K2).
  set (two := (d =? 2)%nat) in *. set (V := (1 + 1 / 10 ^ 9) ^ n * (3 / 4) ^ ML * volume a b).
  assert (F2 : Forall (leafOK n (11 / 10 ^ 10) (5 / 10 ^ 10) V a b) ls).
  { eapply Forall_impl; [|exact F1]. intros l Hl. pose proof HB as (La & Lb & LT). destruct (e_values two) as (V1 & V2 & _). destruct Hl as (M1 & M2 & HBx & HP & HD). assert (E10 : 10 ^ 10 = 10000000000) by ring.
    split; [auto|]. split; [auto|]. split; [|split].
    - intros i Hi. specialize (LT i Hi). destruct (HBx i Hi) as (P1 & P2 & P3). split; [auto|]. unfold within in *. rewrite V1 in *. rewrite E10. destruct two; lra.
    - intros z i Hz Hi. specialize (LT i Hi). specialize (HP z i Hz Hi). unfold within in *. rewrite V2 in *. rewrite E10. destruct two; lra.
    - intros HW. destruct (HD HW) as (HD1 & HD2). split; [|auto]. eapply Rle_trans; [exact HD1|]. unfold deepest, V. rewrite Nat.sub_0_r. pose proof (volume_pos n a b HB) as VP.
      assert (P52 : 0 <= (3 / 4) ^ ML * volume a b) by (apply Rmult_le_pos; [apply pow_le; lra|lra]). rewrite Rmult_assoc. apply Rmult_le_compat_r; [exact P52|].
      apply Rle_pow; [replace (10 ^ 9) with 1000000000 by ring; lra|]. destruct two; lia. }
  assert (FND : forall z, In z (roots t) -> exists l, In l ls /\ why l <> TooDeep /\ In z (points l)).
  { intros z Hz. unfold t in Hz. rewrite K1, in_app_iff in Hz. destruct Hz as [Hz|Hz]; [apply TP1 in Hz|apply TP2 in Hz]; destruct Hz as [[]|Hz]; auto. }
  exists ls. split; [auto|]. split; [unfold run; rewrite fold_left_app; cbn [fold_left step]; rewrite <- T1; reflexivity|]. split; [auto|]. split; [auto|]. split; [unfold t; rewrite K2; exact TP3|]. split.
  - intros z i Hz Hi. destruct (FND z Hz) as (l & Hl & _ & Hp). rewrite Forall_forall in F2. destruct (F2 l Hl) as (_ & _ & _ & HP & _). auto.
  - cbn [n0 R_num] in A1. pose proof (volume_pos n a b HB) as VP. assert (growth two n <= (1 + 1 / 10 ^ 9) ^ (2 * n)) by (unfold growth; apply Rle_pow; [replace (10 ^ 9) with 1000000000 by ring; lra|destruct two; lia]).
    assert (growth two n * volume a b <= (1 + 1 / 10 ^ 9) ^ (2 * n) * volume a b) by (apply Rmult_le_compat_r; lra). lra.
Qed.
(** the call of subdivide_to_linear, with the search as a parameter *)
Lemma call_is X funcs a b deg target_deg methods tols trust w r : subdivide_to_linear_nd X funcs a b deg target_deg methods tols trust w = r ->
  exists d fuel ML s0, (2 * ML + 2 <= fuel)%nat /\ ML = 52%nat /\ d = match deg with Some d => d | None => if (4 <? length funcs)%nat then 2%nat else nth (length funcs) [2; 100; 20; 9; 9]%nat 2%nat end /\
    s0 = mkSearch (startSolve (tJunk X) (length funcs) d w) (SubcheckModel.newData (length funcs)) [] init (abs_approx_tol0 (floorTol tols)) (target_tol0 (floorTol tols)) /\
    r = match subdivision_solve_nd X (floorTol tols) target_deg ML methods trust fuel funcs a b d None 0 false s0 with
        | Finished s => let t := keep_possible_duplicates (tracked s) in Finished (roots t, potential_roots t, mkSearch (work s) (idata s) (results s) t (abs_approx_tol s) (target_tol s))
        | Raised => Raised | NoFuel => NoFuel end.
Proof.
  unfold subdivide_to_linear_nd. intros <-. exists (match deg with Some d => d | None => if (4 <? length funcs)%nat then 2%nat else nth (length funcs) [2; 100; 20; 9; 9]%nat 2%nat end), (2 * max_level + 2)%nat, max_level. eexists.
  split; [apply le_n|]. split; [reflexivity|]. split; [reflexivity|]. split; [reflexivity|]. destruct (subdivision_solve_nd _ _ _ _ _ _ _ _ _ _ _ _ _ _ _); reflexivity.
Qed.
(** C109: the search always ends: whatever the functions, the box and the tolerances, the recursion is no deeper than 2 * 52 + 2 calls. *)
Theorem C109_the_search_ends :
  forall X funcs a b deg target_deg methods tols trust w, subdivide_to_linear_nd X funcs a b deg target_deg methods tols trust w <> NoFuel.
Proof.
  intros X funcs a b deg td methods tols trust w E. apply call_is in E. destruct E as (d & fuel & ML & s0 & HF & _ & _ & _ & E).
  pose proof (fuel_ok X (floorTol tols) td ML methods trust fuel funcs a b d None 0 false s0) as F.
  destruct (subdivision_solve_nd _ _ _ _ _ _ _ _ _ _ _ _ _ _ _); try discriminate. apply F; [destruct (d =? 2)%nat; lia|reflexivity].
Qed.
Print Assumptions C109_the_search_ends.

(** C109: what a search that ends without an exception has done.  There is a list of boxes where it ended; exactly these are stored,
    and exactly their points were handed to the root tracker.  Roots come from boxes that were solved, potential roots are the
    midpoints of the boxes that were given up.  Every root is in the search box widened by 1e-9 and 5e-10 of its width; a box that was
    given up has at most (3/4)^52 of the volume; the area recorded is that of the search box up to the factor (1 + 1e-9)^(2n). *)
Theorem C109_what_is_found :
  forall X funcs a b deg target_deg methods tols trust w found maybe s, let n := length funcs in (2 <= n)%nat -> SubcheckProps.box n a b ->
    subdivide_to_linear_nd X funcs a b deg target_deg methods tols trust w = Finished (found, maybe, s) ->
    (exists leaves, results s = map stored leaves /\ tracked s = run (map callOf leaves ++ [Keep]) /\
       Forall (leafOK n (11 / 10 ^ 10) (5 / 10 ^ 10) ((1 + 1 / 10 ^ 9) ^ n * (3 / 4) ^ 52 * volume a b) a b) leaves /\
       (forall z, In z found -> exists l, In l leaves /\ why l <> TooDeep /\ In z (points l)) /\
       maybe = flat_map (fun l => match why l with TooDeep => points l | _ => [] end) leaves) /\
    found = roots (tracked s) /\
    (forall z i, In z found -> (i < n)%nat -> within (5 / 10 ^ 10) (1 / 10 ^ 9) a b i (nth i z 0)) /\
    volume a b <= SubcheckModel.area (idata s) <= (1 + 1 / 10 ^ 9) ^ (2 * n) * volume a b.
Proof.
  intros X funcs a b deg td methods tols trust w found maybe s n Hn HB E. apply call_is in E. destruct E as (d & fuel & ML & s0 & _ & HML & _ & Hs0 & E).
  destruct (subdivision_solve_nd _ _ _ _ _ _ _ _ _ _ _ _ _ _ _) as [s1| |] eqn:E1; try discriminate.
  destruct (found_core X (floorTol tols) td ML fuel methods trust funcs a b d s0 s1 Hn HB ltac:(rewrite Hs0; reflexivity) ltac:(rewrite Hs0; reflexivity) ltac:(rewrite Hs0; reflexivity) E1) as (ls & R1 & T1 & F1 & FND & P1 & W1 & A1).
  cbv zeta in E. set (t := keep_possible_duplicates (tracked s1)) in *. clearbody t. injection E as E2 E3 E4. subst found maybe s ML. cbn [results tracked idata].
  split; [exists ls; auto 10|]. auto.
Qed.
Print Assumptions C109_what_is_found.

(** C110: n affine functions with exactly one common zero.  Whatever the process did before, as long as the work array has room for the degree, the
    call ends without an exception and without a box that is given up; it returns that zero when it is in the search box, nothing when a
    coordinate is outside by more than 1e-9 and 5e-10 of the width, and never anything else.  [sizes] is the side of the work array, 2 (deg + 3) in a new process. *)
Theorem C110_linear_systems :
  forall X funcs a b deg target_deg methods tols trust history outs w first now z, let n := length funcs in (2 <= n)%nat -> SubcheckProps.box n a b -> (1 <= target_deg)%nat -> (2 <= deg)%nat ->
    0 <= target_tol0 tols -> (trust = false -> macheps <= target_tol0 tols) -> 0 <= rel_approx_tol tols -> 0 <= min_good_zeros_tol tols ->
    allowed history -> SubApproxProps.run (tJunk X) history wstart = Some (outs, w) -> sizes n (history ++ [Solve n deg]) = Some (first, now) -> (4 * deg <= now)%nat ->
    (check_eval_error tols = true -> length (tPoint X n) = n /\ (12 <= now)%nat) ->
    Forall (isAffine n) funcs -> onlyZero n funcs z ->
    exists found s, subdivide_to_linear_nd X funcs a b (Some deg) target_deg methods tols trust w = Finished (found, [], s) /\
      (found = [] \/ found = [z]) /\ (inBox n a b z -> found = [z]) /\
      forall i, (i < n)%nat -> ~ within (5 / 10 ^ 10) (1 / 10 ^ 9) a b i (nth i z 0) -> found = [].
Proof.
  intros X funcs a b deg td methods tols trust h outs w F now z n Hn HB Htd Hd Htar Htr Hrel Hmin HA HR HS H4 Hchk HF HZ.
  destruct (run_inv (tJunk X) h HA) as (outs' & w' & HR' & HI). rewrite HR in HR'. injection HR' as <- <-.
  pose proof (inv_solve (tJunk X) h w n deg HI n ltac:(lia)) as HV. rewrite HS in HV. destruct HV as (_ & HW & _).
  destruct (call_is X funcs a b (Some deg) td methods tols trust w _ eq_refl) as (d & fuel & ML & s0 & Hf & HML & -> & Hs0 & E).
  destruct fuel as [|[|fuel]]; try lia.
  assert (Habs : 0 <= abs_approx_tol0 (floorTol tols)).
  { unfold floorTol. cbn [abs_approx_tol0]. eapply Rle_trans; [|apply Rmax_r]. assert (0 < macheps) by (unfold macheps; apply Rinv_0_lt_compat || (apply pow_lt; lra) || (apply Rdiv_lt_0_compat; [lra|apply pow_lt; lra])). lra. }
  destruct (lin_core X (floorTol tols) td ML methods trust n now fuel funcs a b deg z s0 Hn Htd Habs (conj Htar Htr) Hrel Hmin Hchk ltac:(rewrite HML; clear; lia) eq_refl HF HB) as (s1 & zs & low & high & E1 & T1 & P1 & P2 & P3); auto.
  { rewrite Hs0. split; reflexivity. }
  { rewrite Hs0. exact HW. }
  rewrite E1 in E. cbv zeta in E. rewrite T1 in E. rewrite Hs0 in E at 1 2 3. cbn [tracked] in E. destruct (keep_one z zs low high P1) as (K1 & K2). cbv zeta in K1, K2. rewrite K1, K2 in E.
  exists zs. eexists. split; [exact E|]. split; [exact P1|]. split; [exact P2|]. intros i Hi HN. destruct P1 as [P1|P1]; [exact P1|]. exfalso. apply HN. auto.
Qed.
Print Assumptions C110_linear_systems.
(** The hypotheses are met: x + 2 y = 3 and x - y = 0 with the default tolerances and degree 3 in a new process, on [0, 4] x [0, 3], which holds the zero
    (1, 1), and on [2, 4] x [0, 3], which does not. *)
Definition exFuncs : list (fobj R) := [Plain (fun x => nth 0 x 0 + 2 * nth 1 x 0 - 3); Plain (fun x => nth 0 x 0 - nth 1 x 0)].
Definition exTools : tools := {| tJunk := fun _ _ => 7; tPoint := fun n => repeat (1 / 3) n; tLasolve := fun _ _ => None; tRank := fun _ => true; tSolve := fun _ b => b;
  tMult := fun _ => MsModel.MGaveUp; takesLeadTerm := false |}.
Definition exTols : tolset := mkTols (1 / 10 ^ 12) (101 / 100 * macheps) (1 / 10 ^ 15) 100 (1 / 10 ^ 5) true 1.
Lemma exZero : onlyZero 2 exFuncs [1; 1].
Proof.
  split; [reflexivity|]. split.
  - intros f [<-|[<-|[]]]; cbn; lra.
  - intros y Ly HY. destruct y as [|u [|v [|? ?]]]; try discriminate. pose proof (HY _ (or_introl eq_refl)) as H1. pose proof (HY _ (or_intror (or_introl eq_refl))) as H2. cbn in H1, H2. repeat f_equal; lra.
Qed.
Lemma exAffine : Forall (isAffine 2) exFuncs.
Proof.
  constructor; [|constructor; [|constructor]].
  - exists (-3), (fun i => match i with O => 1 | _ => 2 end). intros x _. cbn. lra.
  - exists 0, (fun i => match i with O => 1 | _ => -1 end). intros x _. cbn. lra.
Qed.
Example C110_applies :
  (exists s, subdivide_to_linear_nd exTools exFuncs [0; 0] [4; 3] (Some 3%nat) 1 [SubcheckModel.ImproveBound; SubcheckModel.Parallelogram] exTols false wstart = Finished ([[1; 1]], [], s)) /\
  (exists s, subdivide_to_linear_nd exTools exFuncs [2; 0] [4; 3] (Some 3%nat) 1 [SubcheckModel.ImproveBound; SubcheckModel.Parallelogram] exTols false wstart = Finished ([], [], s)).
Proof.
  assert (M : 0 < macheps) by (unfold macheps; apply Rdiv_lt_0_compat; [lra|apply pow_lt; lra]).
  assert (G : forall a b, SubcheckProps.box 2 a b -> exists found s, subdivide_to_linear_nd exTools exFuncs a b (Some 3%nat) 1 [SubcheckModel.ImproveBound; SubcheckModel.Parallelogram] exTols false wstart = Finished (found, [], s) /\
      (found = [] \/ found = [[1; 1]]) /\ (inBox 2 a b [1; 1] -> found = [[1; 1]]) /\
      forall i, (i < 2)%nat -> ~ within (5 / 10 ^ 10) (1 / 10 ^ 9) a b i (nth i [1; 1] 0) -> found = []).
  { intros a b HB. apply (C110_linear_systems exTools exFuncs a b 3 1 [SubcheckModel.ImproveBound; SubcheckModel.Parallelogram] exTols false [] [] wstart 12 12 [1; 1]); auto; cbn [length exFuncs target_tol0 rel_approx_tol min_good_zeros_tol exTols]; try lia; try lra; try (apply Rlt_le, Rdiv_lt_0_compat; [lra|apply pow_lt; lra]).
    - intros bf bl af H. destruct bf; discriminate.
    - apply exAffine.
    - apply exZero. }
  split.
  - destruct (G [0; 0] [4; 3]) as (found & s & E & _ & H & _).
    { split; [reflexivity|]. split; [reflexivity|]. intros [|[|i]] Hi; cbn; lra || lia. }
    exists s. rewrite <- H; [exact E|]. split; [reflexivity|]. intros [|[|i]] Hi; cbn; lra || lia.
  - destruct (G [2; 0] [4; 3]) as (found & s & E & _ & _ & H).
    { split; [reflexivity|]. split; [reflexivity|]. intros [|[|i]] Hi; cbn; lra || lia. }
    exists s. assert (F : found = []); [|rewrite F in E; exact E]. apply (H 0%nat); [lia|]. unfold within. replace (10 ^ 9) with 1000000000 by ring. replace (10 ^ 10) with 10000000000 by ring. cbn [nth]. lra.
Qed.
(** So C109 speaks about calls that end. *)
Example C109_applies : exists found maybe s, subdivide_to_linear_nd exTools exFuncs [0; 0] [4; 3] (Some 3%nat) 1 [SubcheckModel.ImproveBound; SubcheckModel.Parallelogram] exTols false wstart = Finished (found, maybe, s) /\
  SubcheckProps.box 2 [0; 0] [4; 3].
Proof.
  destruct C110_applies as ((s & E) & _). eexists. eexists. exists s. split; [exact E|]. split; [reflexivity|]. split; [reflexivity|]. intros [|[|i]] Hi; cbn; lra || lia.
Qed.
