(** * Property theorem C111: what a solved box means in the solver in several variables of subdivision.py *)
From Coq Require Import Reals List Lia Lra Arith Bool Permutation.
From Coquelicot Require Import Complex.
From Coq Require Import List.
From Verif Require Import Num RSum Tensor Cheb PolySpec CombinedModel CombinedSpec LinearProofs ApproxModel ApproxDct ApproxInterp ApproxDegree MakerModel MakerProofs MakerRun MakerProps MakerMore.
From Verif Require Import SubApproxModel SubApproxProofs SubApproxProps SubApproxMore TrackerModel TrimcModel TrimcProofs TrimcProps.
From Verif Require ApproxError LinAlgModel LinAlgSpec LinAlgProofs LinAlgProps SubcheckModel SubcheckProps MsModel SubNdModel.
Import SubNdModel.
From Verif Require Import SubNdSpec SubNdProofs SubNdLinear SubNdProps SubNdSolvedSpec SubNdSolved.
Import ListNotations.
Local Open Scope R_scope.

Lemma solved_core X tols target_deg ML fuel methods trust funcs a b d B s0 s1 : let n := length funcs in (2 <= n)%nat -> SubcheckProps.box n a b ->
  (2 <= d)%nat -> (4 * d <= B)%nat -> (check_eval_error tols = true -> length (tPoint X n) = n /\ (12 <= B)%nat) -> 0 <= min_good_zeros_tol tols ->
  idata s0 = SubcheckModel.newData n -> results s0 = [] -> tracked s0 = init -> okTols tols n B s0 ->
  subdivision_solve_nd X tols target_deg ML methods trust fuel funcs a b d None 0 false s0 = Finished s1 ->
  let t := keep_possible_duplicates (tracked s1) in
  exists leaves, results s1 = map stored leaves /\ t = run (map callOf leaves ++ [Keep]) /\ Forall (leafMeans X tols n funcs) leaves /\
       (forall z, In z (roots t) -> exists l, In l leaves /\ why l <> TooDeep /\ In z (points l)).
Proof.
  intros n Hn HB Hd H4 Hchk Hmin I0 R0 T0 HO E1 t.
  destruct (solved_ok X tols target_deg ML methods trust n B Hn Hchk Hmin fuel funcs a b d None 0 false s0 s1 eq_refl Hd H4 I HB ltac:(rewrite I0; apply repeat_length) ltac:(rewrite I0; reflexivity) HO E1) as (ls & _ & _ & R1 & T1 & F1 & _).
  rewrite R0 in R1. rewrite T0 in T1. destruct (tracker_points ls (@init R reason)) as (TP1 & TP2). rewrite <- T1 in TP1, TP2. cbn [init roots possible_duplicates List.app map] in TP1, TP2. destruct (keep_roots (tracked s1)) as (K1 & _).
  exists ls. split; [auto|]. split; [unfold run; rewrite fold_left_app; cbn [fold_left step]; rewrite <- T1; reflexivity|]. split; [auto|].
  intros z Hz. unfold t in Hz. rewrite K1, in_app_iff in Hz. destruct Hz as [Hz|Hz]; [apply TP1 in Hz|apply TP2 in Hz]; destruct Hz as [[]|Hz]; auto.
Qed.
(** C111: after a call that ends without an exception, every box that was solved is solved in the sense of [solvedBox]: on the box (widened by 5e-10 of
    its width) every function has a linear polynomial within the tolerance, up to the coefficient of T_2...T_2; what was handed over is the one common zero of
    these polynomials if it is in the box, and nothing if they have none.  The tolerance is the one given, or a larger one if check_eval_error is on.
    At this commit (MultiCheb does not accept lead_term) no box is ever solved by Macaulay matrices, so every root is such a zero. *)
Theorem C111_what_a_solved_box_means :
  forall X funcs a b deg target_deg methods tols trust history outs w first now found maybe s, let n := length funcs in (2 <= n)%nat -> SubcheckProps.box n a b -> (2 <= deg)%nat -> 0 <= min_good_zeros_tol tols ->
    allowed history -> SubApproxProps.run (tJunk X) history wstart = Some (outs, w) -> sizes n (history ++ [Solve n deg]) = Some (first, now) -> (4 * deg <= now)%nat ->
    (check_eval_error tols = true -> length (tPoint X n) = n /\ (12 <= now)%nat) ->
    subdivide_to_linear_nd X funcs a b (Some deg) target_deg methods tols trust w = Finished (found, maybe, s) ->
    exists leaves, results s = map stored leaves /\ tracked s = run (map callOf leaves ++ [Keep]) /\ found = roots (tracked s) /\
      (forall l, In l leaves -> why l = BaseCase -> exists tol, target_tol0 tols <= tol /\ (check_eval_error tols = false -> tol = target_tol0 tols) /\ solvedBox n funcs tol (rel_approx_tol tols) l) /\
      (takesLeadTerm X = false -> (forall l, In l leaves -> why l <> Macaulay) /\ forall z, In z found -> exists l, In l leaves /\ why l = BaseCase /\ In z (points l)).
Proof.
  intros X funcs a b deg td methods tols trust h outs w F now found maybe s n Hn HB Hd Hmin HA HR HS H4 Hchk E.
  destruct (run_inv (tJunk X) h HA) as (outs' & w' & HR' & HI). rewrite HR in HR'. injection HR' as <- <-.
  pose proof (inv_solve (tJunk X) h w n deg HI n ltac:(lia)) as HV. rewrite HS in HV. destruct HV as (_ & HW & _).
  apply call_is in E. destruct E as (d & fuel & ML & s0 & _ & _ & -> & Hs0 & E).
  destruct (subdivision_solve_nd _ _ _ _ _ _ _ _ _ _ _ _ _ _ _) as [s1| |] eqn:E1; try discriminate.
  destruct (solved_core X (floorTol tols) td ML fuel methods trust funcs a b deg now s0 s1 Hn HB Hd H4 Hchk Hmin ltac:(rewrite Hs0; reflexivity) ltac:(rewrite Hs0; reflexivity) ltac:(rewrite Hs0; reflexivity)) as (ls & R1 & T1 & F1 & FND); [|exact E1|].
  { rewrite Hs0. split; [exact HW|]. split; [apply Rle_refl|reflexivity]. }
  cbv zeta in E. set (t := keep_possible_duplicates (tracked s1)) in *. clearbody t. injection E as E2 E3 E4. subst found maybe s. cbn [results tracked]. rewrite Forall_forall in F1.
  exists ls. split; [auto|]. split; [auto|]. split; [auto|]. split; [intros l Hl Hw; destruct (F1 l Hl) as (G & _); exact (G Hw)|].
  intros TL. split; [intros l Hl; apply F1; auto|]. intros z Hz. destruct (FND z Hz) as (l & Hl & Hw & Hp). exists l. split; [auto|]. split; [|auto]. pose proof (proj2 (F1 l Hl) TL). destruct (why l); congruence.
Qed.
Print Assumptions C111_what_a_solved_box_means.
(** The hypotheses are met by the call of C110_applies, which returns the zero (1, 1) of x + 2 y = 3 and x - y = 0; so there is a solved box. *)
Example C111_applies : exists s leaves, subdivide_to_linear_nd exTools exFuncs [0; 0] [4; 3] (Some 3%nat) 1 [SubcheckModel.ImproveBound; SubcheckModel.Parallelogram] exTols false wstart = Finished ([[1; 1]], [], s) /\
  results s = map stored leaves /\ exists l tol, In l leaves /\ why l = BaseCase /\ In [1; 1] (points l) /\ solvedBox 2 exFuncs tol (rel_approx_tol exTols) l.
Proof.
  assert (M : 0 < macheps) by (unfold macheps; apply Rdiv_lt_0_compat; [lra|apply pow_lt; lra]).
  destruct C110_applies as ((s & E) & _). exists s.
  destruct (C111_what_a_solved_box_means exTools exFuncs [0; 0] [4; 3] 3 1 [SubcheckModel.ImproveBound; SubcheckModel.Parallelogram] exTols false [] [] wstart 12 12 [[1; 1]] [] s) as (ls & R1 & _ & _ & G & FND); auto; cbn [length exFuncs min_good_zeros_tol exTols]; try lia.
  - split; [reflexivity|]. split; [reflexivity|]. intros [|[|i]] Hi; cbn; lra || lia.
  - apply Rlt_le, Rdiv_lt_0_compat; [lra|apply pow_lt; lra].
  - intros bf bl af H. destruct bf; discriminate.
  - destruct (FND eq_refl) as (_ & FND'). destruct (FND' [1; 1] (or_introl eq_refl)) as (l & Hl & Hw & Hp). destruct (G l Hl Hw) as (tol & _ & _ & GS). exists ls. split; [exact E|]. split; [exact R1|]. exists l, tol. auto.
Qed.

(** ** The term that is lost *)
Definition lostFun (K : R) : fobj R := Plain (fun x => nth 0 x 0 + K * (2 * (nth 0 x 0 * nth 0 x 0) - 1) * (2 * (nth 1 x 0 * nth 1 x 0) - 1)).
Definition lostFuncs (K : R) : list (fobj R) := [lostFun K; Plain (fun x => nth 1 x 0)].
Definition keptFuncs : list (fobj R) := [Plain (fun x => nth 0 x 0); Plain (fun x => nth 1 x 0)].
Definition edge : R := 1000000000 / 1000000001.
Lemma edge_low : bufferLow [- edge; - edge] [edge; edge] = [-1; -1].
Proof. unfold bufferLow, edge. cbn [combine map fst snd]. replace (10 ^ 10) with 10000000000 by ring. repeat f_equal; lra. Qed.
Lemma edge_high : bufferHigh [- edge; - edge] [edge; edge] = [1; 1].
Proof. unfold bufferHigh, edge. cbn [combine map fst snd]. replace (10 ^ 10) with 10000000000 by ring. repeat f_equal; lra. Qed.
Lemma lost_eval K y : in_cube 2 y -> cheb_eval (spike K) y = callAt (lostFun K) (boxPoint [-1; -1] [1; 1] y).
Proof.
  intros (Ly & _). destruct y as [|u [|v [|]]]; try discriminate. unfold cheb_eval, spike. cbn [shp indices flat_map seq map List.app Rsum fold_right basis]. unfold tget. cbn [shp dat ravel_index prodn fold_right Nat.mul Nat.add nth].
  rewrite ?chebT_0, ?chebT_1, ?chebT_2. cbn. field.
Qed.
Lemma lost_pad K d : (2 <= d)%nat -> interpolant (callAt (lostFun K)) [-1; -1] [1; 1] (repeat d 2) (padTo (repeat d 2) (spike K)).
Proof.
  intros Hd. split; [apply padTo_wf|]. split; [reflexivity|]. intros y Hy. rewrite padTo_eval; [apply lost_eval; apply (node_cube 2 d); auto|]. cbn [shp spike repeat]. constructor; [lia|constructor; [lia|constructor]].
Qed.
Lemma lost_full junk K tol rel B st : workSide st 2 B -> (8 <= B)%nat -> 0 <= tol -> 0 <= rel ->
  exists m st', full_cheb_approximate cosR junk (lostFun K) [-1; -1] [1; 1] 2 tol rel None st = Some ((Some (spike K), m, 0), st') /\ 0 <= m /\ workSide st' 2 B.
Proof.
  intros HW HB Ht Hr. unfold full_cheb_approximate.
  destruct (nd_ok junk (lostFun K) [-1; -1] [1; 1] 2 2 B st ltac:(lia) ltac:(lia) eq_refl HW ltac:(left; lia)) as (M & m1 & st1 & E1 & H1 & _ & HW1).
  destruct (Nat.leb_spec (2 * 2) B) as [_|]; [|lia].
  destruct (nd_ok junk (lostFun K) [-1; -1] [1; 1] (2 * 2) 2 B st1 ltac:(lia) ltac:(lia) eq_refl HW1 ltac:(left; lia)) as (M2 & m2 & st2 & E2 & H2 & (_ & y & _ & Gm) & HW2).
  destruct (Nat.leb_spec (2 * (2 * 2)) B) as [_|]; [|lia].
  assert (M = spike K) as ->.
  { apply (interpolant_unique (callAt (lostFun K)) [-1; -1] [1; 1] (repeat 2%nat 2)); [repeat constructor; lia|auto|]. split; [apply spike_square|]. split; [reflexivity|]. intros z Hz. apply lost_eval. apply (node_cube 2 2); auto. }
  assert (M2 = padTo (repeat 4%nat 2) (spike K)) as -> by (apply (interpolant_unique (callAt (lostFun K)) [-1; -1] [1; 1] (repeat 4%nat 2)); [repeat constructor; lia|auto|apply lost_pad; lia]).
  rewrite E1. rewrite E2. exists m2, st2. split; [|split; [rewrite <- Gm; apply Rabs_pos|auto]].
  assert (ER : @get_err R R_num (spike K) (padTo (repeat 4%nat 2) (spike K)) = 0).
  { rewrite get_err_difference; [|reflexivity|repeat constructor; lia]. unfold difference. rewrite (sumidx_ext _ _ (fun _ => 0)); [apply sumidx_0|]. intros idx Hi. pose proof (inrange_length _ _ Hi) as Li. cbn [padTo shp tbuild] in Hi. 
    rewrite padTo_coef; [|cbn [shp spike repeat]; constructor; [lia|constructor; [lia|constructor]]|exact Li]. rewrite Rminus_diag_eq by reflexivity. apply Rabs_R0. }
  rewrite ER. unfold ngtb. rnum. assert (HT : Rltb (tol + rel * m2) 0 = false) by (apply Rltb_false; assert (0 <= m2) by (rewrite <- Gm; apply Rabs_pos); pose proof (Rmult_le_pos rel m2); lra). rewrite HT. reflexivity.
Qed.
Lemma lost_trim K allowed : 0 <= allowed -> exists M', trimOne (spike K) 0 allowed = Some (M', true, 0) /\ holds 2 2 [-1; -1] [1; 1] (Plain (fun x => nth 0 x 0)) M'.
Proof.
  intros Ha. destruct (trimOne_spec 2 3 (spike K) ltac:(lia) ltac:(lia) eq_refl 0 allowed) as (M' & good & e' & E & H). exists M'.
  assert (D : forall k, (1 <= k)%nat -> absum (spike K) (dropped 2 3 k) = 0).
  { intros k Hk. apply absum_zero. intros idx Hr Hd. unfold dropped in Hd. apply andb_prop in Hd. destruct Hd as [Hd1 Hd2]. apply Nat.ltb_lt in Hd1.
    cbn [shp spike] in Hr. inversion Hr as [|i ? l ? Hi Hl]; subst. inversion Hl as [|j ? l2 ? Hj Hl2]; subst. inversion Hl2; subst.
    clear - Hi Hj Hd1 Hd2 Hk. destruct i as [|[|[|i]]]; [| | |lia]; destruct j as [|[|[|j]]]; try lia; try reflexivity; cbn in Hd1, Hd2; try discriminate; lia. }
  destruct good.
  2: { exfalso. destruct H as (_ & H1 & H2). unfold cutError in H1. rewrite D in H1 by lia. lra. }
  destruct H as (k & Hk & F1 & F2 & F3 & F4 & F5). unfold cutError in F3. rewrite D in F3 by lia. rewrite Rplus_0_r in F3. subst e'.
  assert (k = 1%nat) as ->.
  { destruct (Nat.eq_dec k 1) as [|Hk1]; auto. exfalso. destruct F5 as [F5|F5]; [lia|]. assert (X : k = 2%nat) by lia. rewrite X in F5.
    rewrite absum_zero in F5; [lra|]. intros idx Hr Hd. apply Nat.eqb_eq in Hd. cbn [shp spike] in Hr. inversion Hr as [|i ? l ? Hi Hl]; subst. inversion Hl as [|j ? l2 ? Hj Hl2]; subst. inversion Hl2; subst.
    clear - Hi Hj Hd. destruct i as [|[|[|i]]]; [| | |lia]; destruct j as [|[|[|j]]]; try lia; try reflexivity; cbn in Hd; discriminate. }
  split; [exact E|]. cbn [Nat.add] in F1, F2. split; [exact F1|].
  assert (V : forall i j, (i < 2)%nat -> (j < 2)%nat -> tget M' [i; j] = if (i =? 1)%nat && (j =? 0)%nat then 1 else 0).
  { intros i j Hi Hj. rewrite F2 by (constructor; [auto|constructor; [auto|constructor]]). destruct i as [|[|i]]; destruct j as [|[|j]]; try lia; reflexivity. }
  split.
  - intros idx Hr Hl. rewrite F1 in Hr. cbn [repeat] in Hr. inversion Hr as [|i ? l ? Hi Hl1]; subst. inversion Hl1 as [|j ? l2 ? Hj Hl2]; subst. inversion Hl2; subst. rewrite V by auto. cbn [list_sum fold_right] in Hl. destruct i as [|[|i]]; destruct j as [|[|j]]; try lia; reflexivity.
  - intros y Hy. destruct y as [|u [|v [|]]]; try discriminate. unfold cheb_eval. rewrite F1. cbn [repeat indices flat_map seq map List.app Rsum fold_right]. rewrite !V by lia. cbn. rewrite ?chebT_0, ?chebT_1. field.
Qed.
Lemma keptZero : onlyZero 2 keptFuncs [0; 0].
Proof.
  split; [reflexivity|]. split; [intros f [<-|[<-|[]]]; cbn; lra|].
  intros y Ly HY. destruct y as [|u [|v [|? ?]]]; try discriminate. pose proof (HY _ (or_introl eq_refl)) as H1. pose proof (HY _ (or_intror (or_introl eq_refl))) as H2. cbn in H1, H2. repeat f_equal; lra.
Qed.
Lemma lost_core X tols target_deg ML methods trust B fuel K s : (1 <= target_deg)%nat -> 0 <= abs_approx_tol0 tols ->
  (0 <= target_tol0 tols /\ (trust = false -> macheps <= target_tol0 tols)) -> 0 <= rel_approx_tol tols -> 0 <= min_good_zeros_tol tols ->
  check_eval_error tols = false -> (1 <= ML)%nat -> freshTols tols s -> workSide (work s) 2 B -> (8 <= B)%nat -> tracked s = init ->
  exists s1 low high, subdivision_solve_nd X tols target_deg ML methods trust (S fuel) (lostFuncs K) [- edge; - edge] [edge; edge] 2 None 0 false s = Finished s1 /\
    tracked s1 = add_roots (tracked s) [[0; 0]] low high BaseCase.
Proof.
  intros Htd Habs Htar Hrel Hmin Hchk HML (T1 & T2) HW HB HI.
  assert (BX : SubcheckProps.box 2 [- edge; - edge] [edge; edge]) by (split; [reflexivity|]; split; [reflexivity|]; unfold edge; intros [|[|i]] Hi; cbn; lra || lia).
  cbn [subdivision_solve_nd]. destruct (Nat.leb_spec ML 0); [lia|]. unfold updateTols. rewrite Hchk. rewrite edge_low, edge_high. cbn [length lostFuncs repeat approxLoop].
  destruct (lost_full (tJunk X) K (abs_approx_tol s) (rel_approx_tol tols) B (work s) HW HB ltac:(rewrite T1; auto) Hrel) as (m1 & st1 & E1 & Hm1 & HW1). rewrite E1.
  assert (AF : affine 2 (Plain (fun x => nth 1 x 0)) 0 (fun i => match i with O => 0 | _ => 1 end)) by (intros x _; cbn; lra).
  destruct (lin_full (tJunk X) 2 (Plain (fun x => nth 1 x 0)) 0 _ [-1; -1] [1; 1] 2 None (abs_approx_tol s) (rel_approx_tol tols) B st1 ltac:(lia) AF eq_refl eq_refl HW1 ltac:(cbn; lia) ltac:(cbn; lia) ltac:(rewrite T1; auto) Hrel) as (M & m2 & st2 & E2 & HM & Hm2 & HW2). rewrite E2.
  cbn [trim_coeffs abs_approx_tol]. rnum. rewrite T1.
  destruct (lost_trim K (abs_approx_tol0 tols + rel_approx_tol tols * m1)) as (M1 & G1 & H1); [pose proof (Rmult_le_pos _ _ Hrel Hm1); lra|]. rewrite G1.
  destruct (lin_trimOne 2 3 [-1; -1] [1; 1] _ M (abs_approx_tol0 tols + rel_approx_tol tols * m2) ltac:(lia) ltac:(lia) HM) as (M2 & G2 & H2); [pose proof (Rmult_le_pos _ _ Hrel Hm2); lra|]. rewrite G2. cbn [andb].
  set (errs := floorErrors trust _). set (s1 := mkSearch st2 _ _ _ _ _). set (gz := Rmax _ _). assert (GZ : 0 <= gz) by (unfold gz; eapply Rle_trans; [exact Hmin|apply Rmax_l]).
  assert (S1 : side M1 = 2%nat) by (unfold side; rewrite (proj1 H1); reflexivity). assert (S2 : side M2 = 2%nat) by (unfold side; rewrite (proj1 H2); reflexivity).
  assert (X1 : existsb (fun c => (target_deg + 1 <? side c)%nat) [M1; M2] = false).
  { cbn [existsb]. rewrite S1, S2. replace (target_deg + 1 <? 2)%nat with false by (symmetry; apply Nat.ltb_ge; lia). reflexivity. }
  assert (X3 : forallb (fun c => (side c =? 2)%nat) [M1; M2] = true) by (cbn [forallb]; rewrite S1, S2; reflexivity).
  rewrite X1. cbn [orb negb].
  assert (EV : forall e, In e errs -> e <= target_tol0 tols).
  { intros e He. unfold errs, floorErrors in He. destruct trust; cbn [map In] in He.
    - destruct He as [<-|[<-|[]]]; tauto.
    - assert (Rmax 0 macheps <= target_tol0 tols) by (apply Rmax_lub; [tauto|apply Htar; auto]). destruct He as [<-|[<-|[]]]; auto. }
  assert (X2 : existsb (fun p => if Rgt_dec (fst p) (target_tol s1 + rel_approx_tol tols * snd p) then true else false) (combine errs [m1; m2]) = false).
  { apply not_true_iff_false. intros Q. apply existsb_exists in Q. destruct Q as ([e m] & Hc & Q). cbn [fst snd] in Q. destruct (Rgt_dec e (target_tol s1 + rel_approx_tol tols * m)) as [Q2|]; [|discriminate].
    pose proof (EV e (in_combine_l _ _ _ _ Hc)). assert (0 <= m) by (destruct (in_combine_r _ _ _ _ Hc) as [<-|[<-|[]]]; auto). pose proof (Rmult_le_pos (rel_approx_tol tols) m Hrel ltac:(auto)). unfold s1 in Q2. cbn [target_tol] in Q2. rewrite T2 in Q2. lra. }
  rewrite X2, X3. cbn [Nat.eqb negb].
  assert (SL : @LinAlgModel.solve_linear R R_num [M1; M2] = LinAlgModel.Root (SubcheckProps.toCube [-1; -1] [1; 1] [0; 0])).
  { apply (lin_solution 2 [-1; -1] [1; 1] keptFuncs); [lia|reflexivity| |constructor; [auto|constructor; [auto|constructor]]|apply keptZero]. split; [reflexivity|]. split; [reflexivity|]. intros [|[|i]] Hi; cbn; lra || lia. }
  rewrite SL. destruct (lin_points 2 [- edge; - edge] [edge; edge] [0; 0] gz BX eq_refl GZ) as (_ & P2 & _). rewrite edge_low, edge_high in P2.
  eexists. exists [-1; -1], [1; 1]. split; [reflexivity|]. cbn [addRoots trackInterval tracked]. cbn [length] in *. rewrite P2; [reflexivity|]. split; [reflexivity|]. unfold edge. intros [|[|i]] Hi; cbn; lra || lia.
Qed.
(** One would expect a returned root to be a zero of the functions up to the tolerances, and a zero in the box to be among the roots or in a box that was
    given up.  Neither holds: with degree 2 (the default in five and more variables) in a new process the functions x + K T_2(x) T_2(y) and y
    give the root (0, 0), where the first one is K, whatever K is; and for K = 1 the zero (-1/2, 0), which is inside the box, is not returned. *)
Theorem C111_returned_roots_are_zeros_refuted :
  forall X methods trust K, exists a b funcs f s,
    SubcheckProps.box 2 a b /\ length funcs = 2%nat /\ In f funcs /\
    subdivide_to_linear_nd X funcs a b (Some 2%nat) 1 methods (mkTols (1 / 10 ^ 12) (101 / 100 * macheps) (1 / 10 ^ 15) 100 (1 / 10 ^ 5) false 1) trust wstart = Finished ([[0; 0]], [], s) /\
    callAt f [0; 0] = K /\
    (K = 1 -> inBox 2 a b [-1 / 2; 0] /\ forall g, In g funcs -> callAt g [-1 / 2; 0] = 0).
Proof.
  intros X methods trust K. set (tols := mkTols _ _ _ _ _ _ _).
  assert (M : 0 < macheps) by (unfold macheps; apply Rdiv_lt_0_compat; [lra|apply pow_lt; lra]).
  assert (BX : SubcheckProps.box 2 [- edge; - edge] [edge; edge]) by (split; [reflexivity|]; split; [reflexivity|]; unfold edge; intros [|[|i]] Hi; cbn; lra || lia).
  exists [- edge; - edge], [edge; edge], (lostFuncs K), (lostFun K).
  destruct (run_inv (tJunk X) [] ltac:(intros bf bl af H; destruct bf; discriminate)) as (outs' & w' & HR' & HI). cbn in HR'. injection HR' as <- <-.
  pose proof (inv_solve (tJunk X) [] wstart 2%nat 2%nat HI 2%nat ltac:(lia)) as HV. cbn [List.app] in HV. destruct HV as (_ & HW & _).
  destruct (call_is X (lostFuncs K) [- edge; - edge] [edge; edge] (Some 2%nat) 1 methods tols trust wstart _ eq_refl) as (d & fuel & ML & s0 & Hf & HML & -> & Hs0 & E).
  destruct fuel as [|fuel]; [lia|].
  assert (PT : forall k, 0 <= 1 / 10 ^ k) by (intros k; apply Rlt_le, Rdiv_lt_0_compat; [lra|apply pow_lt; lra]).
  destruct (lost_core X (floorTol tols) 1 ML methods trust 10 fuel K s0) as (s1 & low & high & E1 & T1).
  { lia. }
  { unfold floorTol, tols. cbn [abs_approx_tol0]. eapply Rle_trans; [apply (PT 12%nat)|]. apply Rmax_l || apply Rmax_r. }
  { unfold floorTol, tols. cbn [target_tol0]. split; [|intros _]; lra. }
  { apply PT. }
  { apply PT. }
  { reflexivity. }
  { rewrite HML. clear. lia. }
  { rewrite Hs0. split; reflexivity. }
  { rewrite Hs0. exact HW. }
  { lia. }
  { rewrite Hs0. reflexivity. }
  rewrite E1 in E. cbv zeta in E. rewrite T1 in E. rewrite Hs0 in E at 1 2 3. cbn [tracked] in E. destruct (keep_one [0; 0] [[0; 0]] low high (or_intror eq_refl)) as (K1 & K2). cbv zeta in K1, K2. rewrite K1, K2 in E.
    eexists. split; [exact BX|]. split; [reflexivity|]. split; [left; reflexivity|]. split; [exact E|]. split; [cbn; ring|]. intros ->. split.
    + split; [reflexivity|]. unfold edge. intros [|[|i]] Hi; cbn; lra || lia.
    + intros g [<-|[<-|[]]]; cbn; lra.
Qed.
Print Assumptions C111_returned_roots_are_zeros_refuted.
