(** * Property theorems C108: the one-variable solver of subdivision.py *)
From Coq Require Import Reals List Lia Lra Arith Bool.
From Coquelicot Require Import Complex.
From Coq Require Import List.
From Verif Require Import Num RSum Cheb CombinedModel ApproxDct SubApproxModel TrackerModel SubOneSpec SubOneModel SubOneProofs.
From Verif Require OneDSpec OneDModel OneDProps.
Import ListNotations.
Local Open Scope R_scope.

Lemma chain_covers a b l z : a <= z <= b -> a < b -> chain a b l -> exists p, In p l /\ fst p <= z <= snd p.
Proof.
  revert a. induction l as [|[u v] l IH]; intros a Hz Hab HC; cbn [chain] in HC; [lra|]. destruct HC as (-> & Huv & HC).
  destruct (Rle_dec z v) as [H|H]; [exists (a, v); split; [left; auto|cbn [fst snd]; lra]|].
  destruct (IH v) as (p & Hp & Hz'); auto; [lra|lra|]. exists p. split; [right; auto|auto].
Qed.
(** C108: the intervals stored form a chain from a to b, the root tracker was told exactly the zeros of an approximating polynomial
    on each interval that was solved, and the others are no longer than (b - a) 0.5139...^53. *)
Theorem C108_search :
  forall eigvals f a b (deg : option nat) tols trust found s, exactEig eigvals -> a < b ->
    let g := match deg with Some g => g | None => 100%nat end in (1 <= g)%nat ->
    subdivide_to_linear_1d eigvals f a b deg tols [] trust = Some (found, s) ->
    exists leaves, chain a b (map span leaves) /\ Forall (leafOK f (floorTol tols) g (trust && (length leaves =? 1)) ((b - a) * (5139303900908738 / 10 ^ 16) ^ 53)) leaves /\
      results s = map stored leaves /\ tracked s = run (flat_map calls leaves ++ [Keep]) /\ found = map (hd 0) (roots (tracked s)) /\
      (forall z, a <= z <= b -> exists l, In l leaves /\ fst (span l) <= z <= snd (span l)).
Proof.
  intros e f a b dg tols trust found s HE Hab g Hg E. unfold subdivide_to_linear_1d in E. fold g in E.
  destruct (subdivision_solve_1d e f (floorTol tols) (S max_level) a b g trust (mkSearch [] false init)) as [s1|] eqn:E1; [|discriminate].
  cbn [map polishAll] in E. injection E as <- <-.
  destruct (search_leaves e HE f (floorTol tols) g Hg (S max_level) a b trust (mkSearch [] false init) s1 Hab eq_refl E1) as (leaves & R1 & T1 & _ & C1 & F1).
  exists leaves. split; [auto|]. split; [exact F1|]. cbn [keep results tracked]. split; [exact R1|]. split; [unfold run; rewrite fold_left_app, T1; reflexivity|]. split; [reflexivity|].
  intros z Hz. destruct (chain_covers a b _ z Hz Hab C1) as (p & Hp & Hpz). apply in_map_iff in Hp. destruct Hp as (l & <- & Hl). eauto.
Qed.
Print Assumptions C108_search.

(** ** complete answers *)
Section Fresh.
  Variables a b : R.
  Definition inBox (z : list R) : bool := rootInBox z [a] [b].
  Definition dupPoint (d : list R * list R * list R * reason) : list R := fst (fst (fst d)).
  Lemma fold_fresh : forall zs (s : tracker R reason), (forall p, In p (intervals s) -> p = ([a], [b])) -> (forall d, In d (possible_duplicates s) -> inBox (dupPoint d) = false) ->
    let s' := fold_left (add_one [a] [b] Macaulay) zs s in
    (forall d, In d (possible_duplicates s') -> inBox (dupPoint d) = false) /\
    forall z, (In z (roots s') \/ In z (map dupPoint (possible_duplicates s'))) <-> (In z (roots s) \/ In z (map dupPoint (possible_duplicates s)) \/ In z zs).
  Proof.
    induction zs as [|x zs IH]; intros s HI HD; cbn [fold_left]; [split; auto; intros z; cbn [In]; tauto|].
    assert (S1 : (forall p, In p (intervals (add_one [a] [b] Macaulay s x)) -> p = ([a], [b])) /\ (forall d, In d (possible_duplicates (add_one [a] [b] Macaulay s x)) -> inBox (dupPoint d) = false) /\
      forall z, (In z (roots (add_one [a] [b] Macaulay s x)) \/ In z (map dupPoint (possible_duplicates (add_one [a] [b] Macaulay s x)))) <-> (In z (roots s) \/ In z (map dupPoint (possible_duplicates s)) \/ z = x)).
    { unfold add_one. destruct (rootInBox x [a] [b]) eqn:EB.
      - cbn [add_root roots possible_duplicates intervals]. split; [|split; auto].
        + intros p Hp. apply in_app_iff in Hp. destruct Hp as [Hp|[<-|[]]]; auto.
        + intros z. rewrite in_app_iff. cbn [In]. intuition congruence.
      - replace (existsb (fun p => rootInBox x (fst p) (snd p)) (intervals s)) with false.
        + cbn [roots possible_duplicates intervals]. split; auto. split.
          * intros d Hd. apply in_app_iff in Hd. destruct Hd as [Hd|[<-|[]]]; auto.
          * intros z. rewrite map_app, in_app_iff. cbn [map In dupPoint fst]. intuition congruence.
        + symmetry. destruct (existsb _ _) eqn:EX; auto. apply existsb_exists in EX. destruct EX as (p & Hp & Hx). rewrite (HI p Hp) in Hx. cbn [fst snd] in Hx. congruence. }
    destruct S1 as (I1 & D1 & A1). destruct (IH _ I1 D1) as (D2 & A2). split; auto. intros z. rewrite A2. rewrite <- or_assoc, A1. cbn [In]. intuition congruence.
  Qed.
  Lemma keep_all (s : tracker R reason) z : In z (roots (keep_possible_duplicates s)) <-> In z (roots s) \/ In z (map dupPoint (possible_duplicates s)).
  Proof.
    unfold keep_possible_duplicates. cbn [roots]. generalize (possible_duplicates s) as l. intros l. revert s. induction l as [|[[[x u] v] m] l IH]; intros s; cbn [fold_left map In]; [tauto|].
    rewrite IH. cbn [add_root roots]. rewrite in_app_iff. cbn [In dupPoint fst]. tauto.
  Qed.
  Lemma fresh_roots zs z : In z (roots (keep_possible_duplicates (add_roots init zs [a] [b] Macaulay))) <-> In z zs.
  Proof.
    rewrite keep_all. unfold add_roots, drop_inside. cbn [roots possible_duplicates].
    destruct (fold_fresh zs init) as (D & A); [intros p []|intros d []|]. cbn [init roots possible_duplicates map In] in A.
    replace (filter _ _) with (possible_duplicates (fold_left (add_one [a] [b] Macaulay) zs init)); [rewrite A; tauto|].
    symmetry. generalize dependent (possible_duplicates (fold_left (add_one [a] [b] Macaulay) zs init)). intros l HD _. induction l as [|[[[x u] v] m] l IH]; [reflexivity|]. cbn [filter].
    pose proof (HD _ (or_introl eq_refl)) as Hx. unfold inBox, dupPoint in Hx. cbn [fst] in Hx. rewrite Hx. cbn [negb]. f_equal. apply IH. intros d Hd. apply HD. right. auto.
  Qed.
End Fresh.
Lemma nth_pad (c : list R) k i : nth i (c ++ repeat 0 k) 0 = nth i c 0.
Proof. destruct (Nat.lt_ge_cases i (length c)); [rewrite app_nth1; auto|]. rewrite app_nth2, nth_repeat, nth_overflow by auto. reflexivity. Qed.
Lemma error1_pad (c : list R) k m : (k <= m)%nat -> error1 (c ++ repeat 0 k) (c ++ repeat 0 m) = 0.
Proof.
  intros H. rewrite error1_sum by (rewrite !app_length, !repeat_length; lia). apply sumn_zero. intros i _. rewrite !nth_pad, Rminus_diag_eq, Rabs_R0; auto.
Qed.
Lemma rev_repeat_ {A} (x : A) k : rev (repeat x k) = repeat x k.
Proof.
  induction k; [reflexivity|]. cbn [repeat rev]. rewrite IHk. clear. induction k; [reflexivity|]. cbn [repeat List.app]. f_equal. auto.
Qed.
Lemma trim_zeros k (rc : list R) al : 0 < al -> al <= Rabs (hd 0 rc) -> rc <> [] -> trim1 (repeat 0 k ++ rc) 0 al = (rc, 0).
Proof.
  intros H0 H N. induction k as [|k IH]; cbn [repeat List.app].
  - destruct rc as [|c rc]; [congruence|]. cbn [trim1 hd] in *. destruct (Rlt_dec (0 + Rabs c) al); [lra|reflexivity].
  - cbn [trim1]. rewrite Rabs_R0, Rplus_0_r. destruct (Rlt_dec 0 al); [|lra]. destruct (repeat 0 k ++ rc) eqn:E; [apply app_eq_nil in E; destruct E; congruence|]. exact IH.
Qed.
Lemma macheps_pos : 0 < macheps.
Proof. unfold macheps. apply Rdiv_lt_0_compat; [lra|]. apply pow_lt. lra. Qed.
Lemma solve_S eigvals f tols levels a b deg (trust : bool) s : subdivision_solve_1d eigvals f tols (S levels) a b deg trust s =
  let al := abs_approx_tol tols + rel_approx_tol tols * norm1 f a b (deg * 2) in
  let error := error1 (coeffs1 f a b deg) (coeffs1 f a b (deg * 2)) in
  if Rlt_dec al error then
    match subdivision_solve_1d eigvals f tols levels a (a + (b - a) * RAND) deg false s with
    | Some s' => subdivision_solve_1d eigvals f tols levels (a + (b - a) * RAND) b deg false s'
    | None => None
    end
  else
    let '(rc, error) := trim1 (rev (coeffs1 f a b deg)) error al in
    let error := if trust then error else Rmax error macheps in
    let tol := Rmax (min_good_zeros_tol tols) (error * good_zeros_factor tols) in
    match OneDModel.multCheb eigvals (fun _ _ => []) OneDModel.Floats (rev rc) true with
    | OneDModel.Zeros l =>
        Some (mkSearch (results (track Macaulay a b s)) (polishing (track Macaulay a b s))
          (add_roots (tracked (track Macaulay a b s)) (map (fun x => [x]) (map (fun x => transformPt x a b) (good_zeros_1d l tol tol))) [a] [b] Macaulay))
    | _ => None
    end.
Proof. cbn [subdivision_solve_1d]. rewrite (approx_pairs f a b deg), (approx_pairs f a b (deg * 2)). reflexivity. Qed.
(** A polynomial of degree d between 1 and deg, whose top Chebyshev coefficient on [a, b] exceeds the tolerances, is solved
    completely: the answer consists of the real parts of all its complex zeros within the tolerance of [a, b]. *)
Theorem C108_polynomials_up_to_the_degree :
  forall eigvals f a b (deg : option nat) tols (trust : bool) (c : list R) bound, exactEig eigvals -> a < b ->
    let g := match deg with Some g => g | None => 100%nat end in (2 <= length c <= g + 1)%nat ->
    (forall y, -1 <= y <= 1 -> f (pointOf a b y) = chebSum c y) -> (forall y, -1 <= y <= 1 -> Rabs (f (pointOf a b y)) <= bound) -> 0 <= rel_approx_tol tols ->
    Rmax (abs_approx_tol tols) (101 / 100 * macheps) + rel_approx_tol tols * bound <= Rabs (last c 0) ->
    let tol := Rmax (min_good_zeros_tol tols) ((if trust then 0 else macheps) * good_zeros_factor tols) in
    exists found s, subdivide_to_linear_1d eigvals f a b deg tols [] trust = Some (found, s) /\
      (forall x, In x found <-> nearRealZero c tol a b x) /\
      (0 < tol -> forall z, a <= z <= b -> f z = 0 -> In z found).
Proof.
  intros e f a b dg tols trust c bd HE Hab g HL Hf Hb Hr Hc tol.
  assert (Hg : (1 <= g)%nat) by lia. pose (d := (length c - 1)%nat).
  assert (CC : forall k, (d <= k)%nat -> (1 <= k)%nat -> coeffs1 f a b k = c ++ repeat 0 (k - d)).
  { intros k Hk Hk1. apply coeffs1_unique; auto; [rewrite app_length, repeat_length; lia|]. intros j Hj. rewrite chebSum_pad. symmetry. apply Hf. unfold cosR. apply COS_bound. }
  set (al := abs_approx_tol (floorTol tols) + rel_approx_tol (floorTol tols) * norm1 f a b (g * 2)).
  assert (NB : 0 <= norm1 f a b (g * 2) <= bd).
  { destruct (one_facts f a b (g * 2) ltac:(lia)) as (_ & _ & _ & (j & Hj & E)). rewrite <- E. split; [apply Rabs_pos|]. apply Hb. apply COS_bound. }
  pose proof macheps_pos as MP.
  assert (A0 : 0 < al).
  { unfold al. cbn [floorTol abs_approx_tol rel_approx_tol]. pose proof (Rmax_r (abs_approx_tol tols) (101 / 100 * macheps)). assert (0 <= rel_approx_tol tols * norm1 f a b (g * 2)) by (apply Rmult_le_pos; lra). lra. }
  assert (A1 : al <= Rabs (last c 0)).
  { eapply Rle_trans; [|exact Hc]. unfold al. cbn [floorTol abs_approx_tol rel_approx_tol]. apply Rplus_le_compat_l. apply Rmult_le_compat_l; lra. }
  assert (LN : last c 0 <> 0) by (intros Z; rewrite Z, Rabs_R0 in A1; lra).
  assert (RL : hd 0 (rev c) = last c 0) by (rewrite <- (rev_involutive c) at 2; symmetry; apply rev_last).
  destruct (multCheb_list e c HE LN) as (l & EL & Hl).
  assert (ET : (if trust then 0 else Rmax 0 macheps) = (if trust then 0 else macheps)) by (destruct trust; [reflexivity|apply Rmax_right; lra]).
  assert (S1 : subdivision_solve_1d e f (floorTol tols) (S max_level) a b g trust (mkSearch [] false init) =
     Some (mkSearch [(Macaulay, (a, b))] false (add_roots init (map (fun x => [x]) (map (fun x => transformPt x a b) (good_zeros_1d l tol tol))) [a] [b] Macaulay))).
  { rewrite solve_S. fold al. cbv zeta. rewrite (CC g), (CC (g * 2)%nat) by lia. rewrite error1_pad by lia.
    destruct (Rlt_dec al 0); [lra|]. rewrite rev_app_distr, rev_repeat_. rewrite trim_zeros; auto; [|rewrite RL; auto|].
    - rewrite rev_involutive, EL. rewrite ET. reflexivity.
    - intros Z. apply (f_equal (@length R)) in Z. rewrite rev_length in Z. cbn [length] in Z. lia. }
  unfold subdivide_to_linear_1d. fold g. rewrite S1. cbn [map polishAll]. do 2 eexists. split; [reflexivity|]. cbn [keep tracked].
  set (zs := map (fun x => transformPt x a b) (good_zeros_1d l tol tol)).
  assert (IFF : forall x, In x (map (fun p => hd 0 p) (roots (keep_possible_duplicates (add_roots init (map (fun x => [x]) zs) [a] [b] Macaulay)))) <-> nearRealZero c tol a b x).
  { intros x. rewrite in_map_iff. split.
    - intros (p & <- & Hp). apply fresh_roots in Hp. apply in_map_iff in Hp. destruct Hp as (r & <- & Hr'). cbn [hd]. unfold zs in Hr'. apply in_map_iff in Hr'. destruct Hr' as (w & <- & Hw).
      apply good_zeros_in in Hw. destruct Hw as (z & Hz & H1 & H2 & ->). apply Hl in Hz. destruct Hz as (z' & Ez & Hz). injection Ez as <-. exists z. rewrite transform_point. auto.
    - intros (w & H1 & H2 & H3 & ->). exists [pointOf a b (Re w)]. split; [reflexivity|]. apply fresh_roots. apply in_map_iff. eexists. split; [reflexivity|]. unfold zs. apply in_map_iff. exists (Re w). rewrite transform_point. split; auto.
      apply good_zeros_in. exists w. split; [apply Hl; eauto|auto]. }
  split; [exact IFF|]. intros T0 z Hz Fz. apply IFF. exists (RtoC ((2 * z - (b + a)) / (b - a))).
  set (y := (2 * z - (b + a)) / (b - a)). assert (EZ : pointOf a b y = z) by (unfold pointOf, y; field; lra).
  assert (HY : -1 <= y <= 1). { unfold y. split; [apply Rmult_le_reg_r with (b - a)|apply Rmult_le_reg_r with (b - a)]; try lra; unfold Rdiv; rewrite Rmult_assoc, Rinv_l by lra; lra. }
  split; [rewrite complex_chebSum, <- (Hf y HY), EZ, Fz; reflexivity|]. split; [rewrite Cmod_R; apply Rabs_le; lra|]. split; [cbn [Im snd RtoC]; rewrite Rabs_R0; auto|]. cbn [Re fst RtoC]. auto.
Qed.
Print Assumptions C108_polynomials_up_to_the_degree.

(** ** what is false *)
(** The default tolerances: x^2 + 10^-11 has no real zero, yet 0 is returned. *)
Definition default_tols : tolset := mkTols (1 / 10 ^ 12) (1 / 10 ^ 15) 100 (1 / 10 ^ 5).
Lemma default_case eigvals : exactEig eigvals -> let f := fun x => x * x + 1 / 10 ^ 11 in
  exists found s, subdivide_to_linear_1d eigvals f (-1) 1 None default_tols [] false = Some (found, s) /\
    forall x, In x found <-> nearRealZero [1 / 2 + 1 / 10 ^ 11; 0; 1 / 2] (Rmax (1 / 10 ^ 5) (macheps * 100)) (-1) 1 x.
Proof.
  intros HE f. assert (ME : macheps = 2220446049250313 / 10000000000000000000000000000000) by (unfold macheps; f_equal; ring).
  assert (E11 : 10 ^ 11 = 100000000000) by ring. assert (E12 : 10 ^ 12 = 1000000000000) by ring. assert (E15 : 10 ^ 15 = 1000000000000000) by ring. assert (E5 : 10 ^ 5 = 100000) by ring.
  destruct (C108_polynomials_up_to_the_degree eigvals f (-1) 1 None default_tols false [1 / 2 + 1 / 10 ^ 11; 0; 1 / 2] 2 HE ltac:(lra)) as (found & s & E & H & _).
  - cbn [length]. lia.
  - intros y Hy. unfold chebSum, pointOf, f. cbn [length sumn nth]. rewrite chebT_0, chebT_1, chebT_2. rewrite E11. field.
  - intros y Hy. unfold f, pointOf. rewrite E11. rewrite Rabs_pos_eq by nra. nra.
  - cbn [default_tols rel_approx_tol]. rewrite E15. lra.
  - cbn [default_tols rel_approx_tol abs_approx_tol last]. rewrite ME, E12, E15. rewrite Rmax_left by lra. rewrite Rabs_pos_eq by lra. lra.
  - exists found, s. split; auto.
Qed.
Theorem C108_every_answer_is_a_zero_refuted : forall eigvals, exactEig eigvals -> let f := fun x => x * x + 1 / 10 ^ 11 in
  (forall x, 0 < f x) /\ exists found s, subdivide_to_linear_1d eigvals f (-1) 1 None default_tols [] false = Some (found, s) /\ In 0 found /\
    abs_approx_tol default_tols + rel_approx_tol default_tols * 2 < Rabs (f 0).
Proof.
  intros e HE f. assert (E11 : 10 ^ 11 = 100000000000) by ring. assert (E12 : 10 ^ 12 = 1000000000000) by ring. assert (E15 : 10 ^ 15 = 1000000000000000) by ring. assert (E5 : 10 ^ 5 = 100000) by ring.
  split; [intros x; unfold f; rewrite E11; nra|]. destruct (default_case e HE) as (found & s & E & H). exists found, s. split; [exact E|]. split.
  - apply H. set (t := sqrt (1 / 10 ^ 11)). assert (TT : t * t = 1 / 10 ^ 11) by (apply sqrt_sqrt; rewrite E11; lra). assert (T0 : 0 <= t) by apply sqrt_pos.
    assert (T1 : t < 1 / 10 ^ 5) by (rewrite E5; rewrite E11 in TT; nra). exists (0, t). split.
    { unfold OneDSpec.chebValue, OneDSpec.chebT. cbn [length OneDSpec.csum OneDSpec.chebT2 nth fst snd]. rewrite <- TT. unfold RtoC, Cminus, Cplus, Copp, Cmult. cbn [fst snd]. f_equal; field. }
    split; [|split].
    { unfold Cmod. cbn [fst snd]. replace (0 ^ 2 + t ^ 2) with (t * t) by ring. rewrite sqrt_square by auto. pose proof (Rmax_l (1 / 10 ^ 5) (macheps * 100)). rewrite E5 in *. lra. }
    { cbn [Im snd]. rewrite Rabs_pos_eq by auto. eapply Rlt_le_trans; [exact T1|apply Rmax_l]. }
    unfold pointOf. cbn [Re fst]. field.
  - unfold f. cbn [default_tols abs_approx_tol rel_approx_tol]. rewrite Rabs_pos_eq by (rewrite E11; lra). rewrite E11, E12, E15. lra.
Qed.
Print Assumptions C108_every_answer_is_a_zero_refuted.

Lemma chebT_growth k y : 1 <= y -> Rabs (chebT k y) <= (3 * y) ^ k.
Proof.
  intros Hy. assert (G : Rabs (chebT k y) <= (3 * y) ^ k /\ Rabs (chebT (S k) y) <= (3 * y) ^ S k); [|tauto].
  induction k as [|k (I1 & I2)].
  - rewrite chebT_0, chebT_1, Rabs_R1. cbn [pow]. rewrite Rabs_pos_eq by lra. split; lra.
  - split; [auto|]. rewrite chebT_SS. eapply Rle_trans; [apply Rabs_triang|]. rewrite Rabs_Ropp, !Rabs_mult, (Rabs_pos_eq 2), (Rabs_pos_eq y) by lra.
    assert (0 <= (3 * y) ^ k) by (apply pow_le; lra). cbn [pow] in *. set (P := (3 * y) ^ k) in *. set (x := Rabs (chebT (S k) y)) in *.
    assert (2 * y * x <= 2 * y * (3 * y * P)) by (apply Rmult_le_compat_l; lra). assert (YY : 1 <= y * y) by nra. assert (P * 1 <= P * (y * y)) by (apply Rmult_le_compat_l; lra). replace (3 * y * (3 * y * P)) with (9 * (P * (y * y))) by ring. replace (2 * y * (3 * y * P)) with (6 * (P * (y * y))) in H0 by ring. lra.
Qed.
Lemma series_growth n (c : list R) y : 1 <= y -> length c = S n -> Rabs (chebSum c y) <= sumn (S n) (fun k => Rabs (nth k c 0)) * (3 * y) ^ n.
Proof.
  intros Hy L. unfold chebSum. rewrite L. eapply Rle_trans; [apply sumn_abs|]. rewrite Rmult_comm, <- sumn_scal. apply sumn_le. intros k Hk.
  rewrite Rabs_mult, Rmult_comm. apply Rmult_le_compat_r; [apply Rabs_pos|]. eapply Rle_trans; [apply chebT_growth; auto|]. apply Rle_pow; [lra|lia].
Qed.
Lemma no_low_series n (c : list R) a b : a < b -> length c = S n -> ~ (forall y, chebSum c y = (pointOf a b y) ^ S n).
Proof.
  intros Hab L H. set (S0 := sumn (S n) (fun k => Rabs (nth k c 0))). set (al := (b - a) / 2). set (be := (b + a) / 2). assert (A0 : 0 < al) by (unfold al; lra).
  assert (S1 : 0 <= S0) by (apply sumn_nonneg; intros; apply Rabs_pos).
  set (Q := S0 * 3 ^ n * (2 / al) ^ S n). assert (Q0 : 0 <= Q). { unfold Q. apply Rmult_le_pos; [apply Rmult_le_pos; [auto|apply pow_le; lra]|]. apply pow_le. apply Rlt_le, Rdiv_lt_0_compat; lra. }
  set (y := 1 + Q + 2 * Rabs be / al). assert (B0 : 0 <= 2 * Rabs be / al) by (apply Rmult_le_pos; [pose proof (Rabs_pos be); lra|apply Rlt_le, Rinv_0_lt_compat; auto]).
  assert (Y1 : 1 <= y) by (unfold y; lra). assert (Y2 : Q < y) by (unfold y; lra).
  assert (Y3 : al * y / 2 <= pointOf a b y).
  { assert (X : 2 * Rabs be <= al * y). { unfold y. replace (al * (1 + Q + 2 * Rabs be / al)) with (al * (1 + Q) + 2 * Rabs be) by (field; lra). assert (0 <= al * (1 + Q)) by (apply Rmult_le_pos; lra). lra. }
    pose proof (Rle_abs (- be)) as X2. rewrite Rabs_Ropp in X2. unfold pointOf. replace (((b - a) * y + (b + a)) / 2) with (al * y + be) by (unfold al, be; field). lra. }
  pose proof (series_growth n c y Y1 L) as G. rewrite H in G. fold S0 in G.
  assert (P0 : 0 < al * y / 2) by (apply Rmult_lt_0_compat; [apply Rmult_lt_0_compat; lra|lra]).
  assert (P1 : (al * y / 2) ^ S n <= (pointOf a b y) ^ S n) by (apply pow_incr; lra).
  rewrite Rabs_pos_eq in G by (apply pow_le; lra).
  assert (P2 : y * y ^ n <= Q * y ^ n).
  { apply Rmult_le_reg_r with ((al / 2) ^ S n); [apply pow_lt; lra|].
    replace (y * y ^ n * (al / 2) ^ S n) with ((al * y / 2) ^ S n) by (replace (al * y / 2) with (y * (al / 2)) by field; rewrite Rpow_mult_distr; cbn [pow]; ring).
    replace (Q * y ^ n * (al / 2) ^ S n) with (S0 * (3 * y) ^ n). { lra. }
    unfold Q. rewrite (Rpow_mult_distr 3 y n). replace (S0 * 3 ^ n * (2 / al) ^ S n * y ^ n * (al / 2) ^ S n) with (S0 * 3 ^ n * y ^ n * ((2 / al) ^ S n * (al / 2) ^ S n)) by ring.
    assert (X : (2 / al) ^ S n * (al / 2) ^ S n = 1) by (rewrite <- Rpow_mult_distr; replace (2 / al * (al / 2)) with 1 by (field; lra); apply pow1). rewrite X. ring. }
  assert (0 < y ^ n) by (apply pow_lt; lra). nra.
Qed.
Lemma chebSum_scal K c y : chebSum (map (Rmult K) c) y = K * chebSum c y.
Proof.
  unfold chebSum. rewrite map_length, <- sumn_scal. apply sumn_ext. intros k Hk. rewrite (nth_indep (map (Rmult K) c) 0 (K * 0)) by (rewrite map_length; auto). rewrite map_nth. ring.
Qed.
Lemma coeffs_scal K f a b d : (1 <= d)%nat -> coeffs1 (fun x => K * f x) a b d = map (Rmult K) (coeffs1 f a b d).
Proof. intros Hd. destruct (one_facts f a b d Hd) as (L & H & _). apply coeffs1_unique; auto; [rewrite map_length; auto|]. intros j Hj. rewrite chebSum_scal, H; auto. Qed.
Lemma error_scal K c c2 : 0 <= K -> (length c <= length c2)%nat -> error1 (map (Rmult K) c) (map (Rmult K) c2) = K * error1 c c2.
Proof.
  intros HK L. rewrite !error1_sum by (rewrite ?map_length; auto). rewrite map_length, <- sumn_scal. apply sumn_ext. intros i _. 
  assert (G : forall l : list R, nth i (map (Rmult K) l) 0 = K * nth i l 0) by (intros l; rewrite <- (map_nth (Rmult K)), Rmult_0_r; reflexivity).
  rewrite !G. replace (K * nth i c2 0 - K * nth i c 0) with (K * (nth i c2 0 - nth i c 0)) by ring. rewrite Rabs_mult, (Rabs_pos_eq K) by auto. reflexivity.
Qed.
Lemma sumn_pow_term n x : x ^ n = sumn (S n) (fun k => nth k (repeat 0 n ++ [1]) 0 * x ^ k).
Proof.
  cbn [sumn]. rewrite sumn_zero; [rewrite app_nth2 by (rewrite repeat_length; lia); rewrite repeat_length, Nat.sub_diag; cbn [nth]; ring|].
  intros k Hk. rewrite app_nth1 by (rewrite repeat_length; auto). rewrite nth_repeat. ring.
Qed.
Lemma power_error_pos a b deg : (1 <= deg)%nat -> a < b -> 0 < error1 (coeffs1 (fun x => x ^ S deg) a b deg) (coeffs1 (fun x => x ^ S deg) a b (deg * 2)).
Proof.
  intros Hd Hab. set (f := fun x => x ^ S deg). set (c := coeffs1 f a b deg). set (c2 := coeffs1 f a b (deg * 2)).
  destruct (one_facts f a b deg Hd) as (L & _). destruct (one_facts f a b (deg * 2) ltac:(lia)) as (L2 & _). fold c in L. fold c2 in L2.
  assert (S2 : forall y, chebSum c2 y = f (pointOf a b y)).
  { assert (HP : isPolynomial f (deg * 2)).
    { exists (repeat 0 (S deg) ++ [1]). assert (LL : length (repeat 0 (S deg) ++ [1]) = S (S deg)) by (rewrite app_length, repeat_length; cbn [length]; lia). rewrite LL. split; [lia|]. intros x. apply sumn_pow_term. }
    destruct (hs_polynomial f (deg * 2) a b HP) as (c' & L' & H'). intros y. replace c2 with c'; [symmetry; apply H'|]. symmetry. apply coeffs1_unique; [lia|auto|]. intros j Hj. symmetry. apply H'. }
  rewrite error1_sum by lia. set (F := fun i => Rabs (nth i c2 0 - nth i c 0)).
  assert (N : 0 <= sumn (length c2) F) by (apply sumn_nonneg; intros; apply Rabs_pos). destruct N as [N|N]; [exact N|exfalso].
  assert (Z : forall i, (i < length c2)%nat -> nth i c2 0 = nth i c 0).
  { intros i Hi. assert (F i <= 0); [|unfold F in *; pose proof (Rabs_pos (nth i c2 0 - nth i c 0)); assert (X : Rabs (nth i c2 0 - nth i c 0) = 0) by lra; destruct (Req_dec (nth i c2 0 - nth i c 0) 0); [lra|exfalso; revert X; apply Rabs_no_R0; auto]].
    rewrite N. clear - Hi. assert (P : forall i, 0 <= F i) by (intros; apply Rabs_pos). induction (length c2) as [|m IH]; [lia|]. cbn [sumn]. assert (0 <= sumn m F) by (apply sumn_nonneg; auto). pose proof (P m).
    destruct (Nat.eq_dec i m) as [->|]; [lra|]. assert (i < m)%nat by lia. specialize (IH H1). lra. }
  apply (no_low_series deg c a b Hab L). intros y. change ((pointOf a b y) ^ S deg) with (f (pointOf a b y)). rewrite <- S2.
  rewrite <- (chebSum_pad c (length c2 - length c) y). f_equal. apply (nth_ext _ _ 0 0); [rewrite app_length, repeat_length; lia|].
  intros i Hi. rewrite nth_pad. rewrite app_length, repeat_length in Hi. symmetry. apply Z. lia.
Qed.
Lemma lost_levels eigvals tols deg : (1 <= deg)%nat -> rel_approx_tol tols = 0 -> forall levels a b, a < b -> exists K0, 0 < K0 /\ forall K, K0 <= K -> forall trust s, polishing s = false ->
  exists s', subdivision_solve_1d eigvals (fun x => K * x ^ S deg) tols levels a b deg trust s = Some s' /\ tracked s' = tracked s /\ polishing s' = false /\ forall r, In r (results s') -> In r (results s) \/ fst r = TooDeep.
Proof.
  intros Hd Hr. induction levels as [|n IH]; intros a b Hab.
  - exists 1. split; [lra|]. intros K HK trust s Hs. eexists. split; [reflexivity|]. unfold track. rewrite Hs. cbn [tracked polishing results]. split; [auto|]. split; [auto|].
    intros r Hi. apply in_app_iff in Hi. destruct Hi as [Hi|[<-|[]]]; auto.
  - pose proof RAND_facts as RF. set (m := a + (b - a) * RAND). assert (M1 : a < m) by (unfold m; nra). assert (M2 : m < b) by (unfold m; nra).
    destruct (IH a m M1) as (K1 & P1 & H1). destruct (IH m b M2) as (K2 & P2 & H2). pose proof (power_error_pos a b deg Hd Hab) as E0.
    set (e0 := error1 _ _) in E0. set (K3 := (Rabs (abs_approx_tol tols) + 1) / e0). assert (P3 : 0 < K3) by (apply Rdiv_lt_0_compat; [pose proof (Rabs_pos (abs_approx_tol tols)); lra|auto]).
    exists (K1 + K2 + K3). split; [lra|]. intros K HK trust s Hs. rewrite solve_S. cbv zeta.
    destruct (one_facts (fun x => x ^ S deg) a b deg Hd) as (L1 & _). destruct (one_facts (fun x => x ^ S deg) a b (deg * 2) ltac:(lia)) as (L2 & _).
    rewrite !(coeffs_scal K (fun x => x ^ S deg)) by lia. rewrite error_scal; [|lra|rewrite L1, L2; lia]. fold e0. rewrite Hr, Rmult_0_l, Rplus_0_r.
    destruct (Rlt_dec (abs_approx_tol tols) (K * e0)) as [_|N].
    + fold m. destruct (H1 K ltac:(lra) false s Hs) as (s1 & E1 & T1 & Q1 & R1). rewrite E1. destruct (H2 K ltac:(lra) false s1 Q1) as (s2 & E2 & T2 & Q2 & R2). exists s2. split; [exact E2|]. split; [congruence|]. split; [auto|].
      intros r Hi. apply R2 in Hi. destruct Hi as [Hi|Hi]; auto.
    + exfalso. apply N. apply Rlt_le_trans with (K3 * e0).
      * unfold K3, Rdiv. rewrite Rmult_assoc, Rinv_l by lra. pose proof (Rle_abs (abs_approx_tol tols)). lra.
      * apply Rmult_le_compat_r; lra.
Qed.
(** Zeros can be lost: whatever the degree and the absolute tolerance, there is a K for which K x^(deg+1), whose zero is 0, is
    given up everywhere on [-1, 1], and the answer is empty. *)
Theorem C108_no_zero_is_lost_refuted : forall eigvals deg tols trust, (1 <= deg)%nat -> rel_approx_tol tols = 0 ->
  exists K, 0 < K /\ let f := fun x => K * x ^ S deg in f 0 = 0 /\
    exists s, subdivide_to_linear_1d eigvals f (-1) 1 (Some deg) tols [] trust = Some ([], s) /\ forall r, In r (results s) -> fst r = TooDeep.
Proof.
  intros e deg tols trust Hd Hr. destruct (lost_levels e (floorTol tols) deg Hd Hr (S max_level) (-1) 1 ltac:(lra)) as (K & P & H). exists K. split; auto. intros f. split; [unfold f; cbn [pow]; ring|].
  destruct (H K (Rle_refl K) trust (mkSearch [] false init) eq_refl) as (s & E & T & Q & RR). unfold subdivide_to_linear_1d. fold f in E. rewrite E. cbn [map polishAll]. eexists. split.
  - cbn [keep tracked]. rewrite T. reflexivity.
  - cbn [keep results]. intros r Hi. destruct (RR r Hi) as [[]|]; auto.
Qed.
Print Assumptions C108_no_zero_is_lost_refuted.

(** A concrete case: with exact eigenvalues, 2 x^2 - 1 on [-1, 1] yields exactly its two zeros, and the answer comes from one interval. *)
Example C108_case : exists eigvals, exactEig eigvals /\ exists found s, subdivide_to_linear_1d eigvals (fun x => 2 * x * x - 1) (-1) 1 (Some 2%nat) default_tols [] false = Some (found, s) /\
  In (sqrt 2 / 2) found /\ In (- (sqrt 2 / 2)) found.
Proof.
  destruct OneDProps.exact_eigenvalue_routines_exist as (e & le & He & _). exists e. assert (HE : exactEig e) by exact He. split; [exact HE|].
  assert (ME : macheps = 2220446049250313 / 10000000000000000000000000000000) by (unfold macheps; f_equal; ring).
  assert (E12 : 10 ^ 12 = 1000000000000) by ring. assert (E15 : 10 ^ 15 = 1000000000000000) by ring. assert (E5 : 10 ^ 5 = 100000) by ring.
  assert (S2 : sqrt 2 * sqrt 2 = 2) by (apply sqrt_sqrt; lra). assert (S0 : 0 <= sqrt 2) by apply sqrt_pos.
  destruct (C108_polynomials_up_to_the_degree e (fun x => 2 * x * x - 1) (-1) 1 (Some 2%nat) default_tols false [0; 0; 1] 1 HE ltac:(lra)) as (found & s & E & _ & H).
  - cbn [length]. lia.
  - intros y Hy. unfold chebSum, pointOf. cbn [length sumn nth]. rewrite chebT_0, chebT_1, chebT_2. field.
  - intros y Hy. unfold pointOf. apply Rabs_le. nra.
  - cbn [default_tols rel_approx_tol]. rewrite E15. lra.
  - cbn [default_tols rel_approx_tol abs_approx_tol last]. rewrite ME, E12, E15. rewrite Rmax_left by lra. rewrite Rabs_R1. lra.
  - exists found, s. split; [exact E|]. assert (T : 0 < Rmax (min_good_zeros_tol default_tols) (macheps * good_zeros_factor default_tols)) by (eapply Rlt_le_trans; [|apply Rmax_l]; cbn [default_tols min_good_zeros_tol]; rewrite E5; lra).
    split; apply (H T); nra.
Qed.
