(** * Property theorems C113: the approximator and the whole solver on polynomials of low degree *)
From Coq Require Import List Arith Bool ZArith QArith Qreals Reals Lra Lia.
From Verif Require Import Num RSum Cheb Tensor PolySpec IntervalModel IntervalProofs LinearModel SolverModel ExtExample SolverProps CombinedModel CombinedSpec CombinedTransfer CombinedProps SolverTransfer Transfer TransformChebProofs
  ApproxModel ApproxDct ApproxInterp ApproxError ApproxDegree ApproxTerm ApproxPoly ApproxOne ApproxLoss ApproxCall ApproxExactSpec ApproxExact.
From Verif Require PolyModel.
From Coq Require Import List.
Import ListNotations.
Local Open Scope R_scope.

Lemma upd_box y : forall a b d v, length a = length y -> length b = length y -> (d < length y)%nat ->
  upd (boxPoint a b y) d (((nth d b 0 - nth d a 0) * v + (nth d b 0 + nth d a 0)) / 2) = boxPoint a b (upd y d v).
Proof.
  unfold boxPoint. induction y as [|x y IH]; intros [|u a] [|w b] d v Ha Hb Hd; simpl in Ha, Hb, Hd; try lia.
  destruct d as [|d]; cbn [upd combine map nth fst snd]; [reflexivity|]. f_equal. apply IH; lia.
Qed.
Lemma testPoint_cube n : in_cube n (testPoint n).
Proof.
  unfold testPoint. split; [rewrite map_length, seq_length; auto|]. apply Forall_forall. intros x Hx. apply in_map_iff in Hx. destruct Hx as (i & <- & _).
  set (q := 8984743990614998 / 10000000000000000). assert (0 <= q <= 1) by (unfold q; lra). split; [pose proof (pow_le q (i + 1) ltac:(lra)); lra|].
  rewrite <- (pow1 (i + 1)). apply pow_incr. lra.
Qed.
Lemma upd_cube n y d v : in_cube n y -> -1 <= v <= 1 -> in_cube n (upd y d v).
Proof. intros [H1 H2] Hv. split; [rewrite upd_length; auto|apply Forall_upd; auto]. Qed.
Lemma zip_box' (y a b : list R) : zip3 transformPt y a b = boxPoint a b y.
Proof. unfold boxPoint, zip3. apply map_ext. intros [x [u v]]. unfold transformPt. rnum. rewrite n2_R. reflexivity. Qed.
(** a variable that matters is not reported constant *)
Lemma varies_seen (f : fobj R) a b P rel d : length b = length a -> (forall y, in_cube (length a) y -> callAt f (boxPoint a b y) = cheb_eval P y) ->
  (d < length a)%nat -> variesIn (length a) rel P d -> checkConstantInDimension f a b d rel 0 = false.
Proof.
  intros Hab Hf Hd (v & w & Hv & Hw & HV). apply not_true_iff_false. intros C. unfold checkConstantInDimension in C. apply andb_true_iff in C. destruct C as [C _].
  unfold constAlong in C. rewrite zip_box' in C. assert (EP : @probe1 R R_num (length a) = testPoint (length a)).
  { unfold probe1, testPoint. apply map_ext. intros i. etransitivity; [apply npow_R|]. rewrite nlit_R. reflexivity. }
  rewrite EP in C. set (T := testPoint (length a)) in *. destruct (isCloseTol _ _ _ _); [discriminate|]. rewrite forallb_forall in C.
  assert (G : forall z, In z [-1; 0; 1] -> Rabs (callAt f (boxPoint a b T) - cheb_eval P (upd T d z)) <= rel * Rabs (cheb_eval P (upd T d z))).
  { intros z Hz. assert (IZ : In z (@steps1 R R_num)) by (unfold steps1; cbn [In]; cbn [In] in Hz; change (@n0 R R_num) with 0; change (@n1 R R_num) with 1; rnum; destruct Hz as [<-|[<-|[<-|[]]]]; [|tauto|tauto]; do 5 right; left; lra).
    specialize (C z IZ). unfold isCloseTol in C. change (@n0 R R_num) with 0 in C.
    assert (ET : @transformPt R R_num z (nth d a 0) (nth d b 0) = ((nth d b 0 - nth d a 0) * z + (nth d b 0 + nth d a 0)) / 2) by (unfold transformPt; rnum; rewrite n2_R; reflexivity).
    rewrite ET in C. assert (LT : length T = length a) by (apply testPoint_cube). rewrite upd_box in C by lia.
    rewrite (Hf (upd T d z)) in C by (apply upd_cube; [apply testPoint_cube|cbn [In] in Hz; destruct Hz as [<-|[<-|[<-|[]]]]; lra]).
    rewrite <- (Rplus_0_l (rel * _)). exact (proj1 (Rleb_true _ _) C). }
  pose proof (G v Hv) as G1. pose proof (G w Hw) as G2. clear - HV G1 G2. set (p := cheb_eval P (upd T d v)) in *. set (q := cheb_eval P (upd T d w)) in *. set (c := callAt f (boxPoint a b T)) in *.
  cbv zeta in HV. assert (Rabs (p - q) <= Rabs (c - p) + Rabs (c - q)); [|lra]. replace (p - q) with (- (c - p) + (c - q)) by ring. eapply Rle_trans; [apply Rabs_triang|]. rewrite Rabs_Ropp. lra.
Qed.

(** ** C113 *)
(** The series returned for a polynomial of low degree is that polynomial, and the reported error is positive. *)
Theorem C113_approximation_is_exact : forall acc fuel (f : fobj R) a b rel P M e,
  length b = length a -> 0 <= rel -> lowPoly (length a) rel P -> equalsOn (length a) (callAt f) a b P ->
  chebApproximate cosR rootR acc fuel f a b rel = AOk (M, e) ->
  wf M /\ ndim M = length a /\ Forall (fun N => (N <= 6)%nat) (shp M) /\ (forall y, in_cube (length a) y -> cheb_eval M y = cheb_eval P y) /\ 0 < e.
Proof.
  intros acc fuel f a b rel P M e Hab Hr (HL & HS & HN & HV) Hf HC. apply (approx_exact f a b P rel Hab HL Hf Hr HS) with (acc := acc) (fuel := fuel); auto.
  intros d Hd C. destruct (Nat.eq_dec (degreeIn P d) 0) as [Q|Q]; auto. rewrite (varies_seen f a b P) in C; [discriminate|auto..]. apply HV; auto. lia.
Qed.
Print Assumptions C113_approximation_is_exact.
(** It does return when the polynomial is not 0 at the upper corner; 12 rounds of the degree search suffice. *)
Theorem C113_approximation_returns : forall acc fuel (f : fobj R) a b rel P,
  ordered a b -> 0 < rel -> lowPoly (length a) rel P -> equalsOn (length a) (callAt f) a b P -> callAt f b <> 0 ->
  arityOK acc f (length a) = true -> (12 <= fuel)%nat ->
  exists M e, chebApproximate cosR rootR acc fuel f a b rel = AOk (M, e).
Proof.
  intros acc fuel f a b rel P Ho Hr (HL & HS & HN & HV) Hf Hb Ha Hfu. assert (Hab : length b = length a) by (destruct Ho; lia).
  assert (Hn : (0 < length a)%nat) by (destruct HN as (d & Hd & _); lia).
  rewrite call_right; auto using ordered_not_inverted; [|intros ->; discriminate].
  destruct (getChebyshevDegrees cosR rootR fuel f a b rel 0) as [[[degs es] rs]|] eqn:E.
  - assert (C : forall d, (d < length a)%nat -> checkConstantInDimension f a b d rel 0 = true -> degreeIn P d = 0%nat).
    { intros d Hd C. destruct (Nat.eq_dec (degreeIn P d) 0) as [Q|Q]; auto. rewrite (varies_seen f a b P) in C; [discriminate|auto..]. apply HV; auto. lia. }
    pose proof (degrees_length _ _ _ _ _ _ _ _ _ E) as (L1 & L2 & L3).
    destruct (degrees_exact f a b P rel Hab HL Hf ltac:(lra) HS C _ _ _ _ E) as (_ & _ & RB & _).
    rewrite getApproxError_R by (rewrite ?fixDegs_length; auto using ratesBig_OK; lia). eauto.
  - exfalso. unfold getChebyshevDegrees in E.
    match type of E with match ?D with _ => _ end = None => assert (Q : D <> None) end.
    { apply (degrees_end f a b P rel); auto; try lia.
      - apply HL.
      - intros s Hs. destruct HL as (_ & _ & F). rewrite Forall_forall in F. specialize (F s Hs). destruct (length a <=? 5)%nat; lia.
      - rewrite map_length, seq_length. reflexivity. }
    destruct (degreeLoop _ _ _ _ _ _ _ _ _ _ _) as [[[? ?] ?]|]; [discriminate|contradiction].
Qed.
Print Assumptions C113_approximation_returns.
(** solve() with its own approximator, default tolerance 1e-10: when every function is a polynomial of low degree on every box
    that is searched, no common zero in the box given is lost. *)
Theorem C113_solve_loses_no_root : forall n (X : ext R) acc fa (exact : bool) minSize sfuel fuel (gs : list (list R -> R)) (a b : boundArg R) (o : cout R),
  externalsOK n X -> (0 < n)%nat -> length gs = n -> length (boundOf n a) = n ->
  solveR X (approxOf cosR rootR acc fa) exact minSize sfuel fuel (map Plain gs) a b = COk o ->
  (forall a' b' g, In (a', b') (cSearched o) -> In g gs -> length a' = n /\ exists P, lowPoly n (1 / 10 ^ 10) P /\ equalsOn n g a' b' P) ->
  forall x, inBox (combine (boundOf n a) (boundOf n b)) x -> (forall g, In g gs -> g x = 0) ->
  exists B, In B (cBoxes o) /\ inBox B x.
Proof.
  intros n X acc fa exact minSize sfuel fuel gs a b o HX Hn Hl Ha Hs HP x Hx Hz.
  apply (C02_solve_loses_no_root n X (approxOf cosR rootR acc fa) exact minSize sfuel fuel (map Plain gs) a b o); auto.
  - rewrite map_length. auto.
  - intros a' b' f M e HI Hf HA. apply in_map_iff in Hf. destruct Hf as (g & <- & Hg). cbn [approxFor] in HA. unfold approxOf in HA.
    destruct (chebApproximate cosR rootR acc fa (Plain g) a' b' _) as [[M' e']| | | | | | |] eqn:EC; try discriminate. injection HA. intros -> ->. clear HA.
    rewrite nlit_R in EC. replace (1 / 10000000000) with (1 / 10 ^ 10) in EC by (cbn; field).
    destruct (HP a' b' g HI Hg) as (La & P & HLP & HE).
    assert (Lb : length a' = length b') by (destruct (call_ok acc fa (Plain g) a' b' _ M e EC) as (? & ? & ? & _ & _ & _ & _ & _ & _ & Q); exact Q).
    subst n. rewrite <- La in HLP, HE. destruct (C113_approximation_is_exact acc fa (Plain g) a' b' (1 / 10 ^ 10) P M e (eq_sym Lb) ltac:(cbn; lra) HLP HE EC) as (W & N & F & EV & EP).
    rewrite La in N, EV, HE. split; [split; [exact W|split; [exact N|]]|].
    + eapply Forall_impl; [|exact F]. intros k Hk. cbv beta in Hk. destruct exact; [|lia]. apply le_INR in Hk. rewrite (INR_IZR_INZ 6) in Hk. cbn in Hk. lra.
    + intros y Hy. cbv zeta. cbn [valueOf]. rewrite (HE y Hy), (EV y Hy). rewrite Rminus_diag_eq by reflexivity. rewrite Rabs_R0. destruct (length gs <=? 3)%nat; lra.
  - intros f Hf. apply in_map_iff in Hf. destruct Hf as (g & <- & Hg). apply Hz; auto.
Qed.
Print Assumptions C113_solve_loses_no_root.

(** A polynomial in two variables on [0,2] x [0,2]: (u + 2 T_2(w)) with u = x - 1, w = y - 1. *)
Definition low2 : tensor R := mkT [2; 3]%nat [0; 0; 2; 1; 0; 0].
Definition low2F : list R -> R := fun z => cheb_eval low2 (map (fun v => v - 1) z).
Lemma low2_poly : lowPoly 2 (1 / 10 ^ 10) low2.
Proof.
  assert (R0 : Rabs 0 = 0) by apply Rabs_R0. assert (R1 : Rabs 1 = 1) by apply Rabs_R1. assert (R2 : Rabs 2 = 2) by (apply Rabs_right; lra).
  assert (S2 : sumabs low2 = 3) by (unfold sumabs, low2; cbn; rewrite R0, R1, R2; ring).
  assert (IP : / 2251799813685248 < 1 / 10) by (apply Rlt_le_trans with (/ 10); [apply Rinv_lt_contravar; lra|lra]).
  assert (A0 : sliceSum low2 0 1 = 1) by (unfold sliceSum, low2; cbn; rewrite R0, R1; ring).
  assert (A1 : sliceSum low2 1 2 = 2) by (unfold sliceSum, low2; cbn; rewrite R0, R2; ring).
  split; [|split; [|split]].
  - split; [split; [reflexivity|repeat constructor; lia]|]. split; [reflexivity|]. repeat constructor; cbn; lia.
  - intros d Hd. rewrite S2. destruct d as [|[|d]]; [| |lia]; cbn [degreeIn]; unfold degreeIn; cbn [shp low2 nth Nat.sub]; [rewrite A0|rewrite A1]; (split; [cbn; lra|intros _; cbn; lra]).
  - exists 0%nat. split; [lia|]. cbn. lia.
  - intros d Hd _. destruct d as [|[|d]]; [| |lia].
    + exists (-1), 1. split; [cbn; tauto|]. split; [cbn; tauto|]. cbv zeta. unfold testPoint. cbn [seq map upd Nat.add]. set (w := (8984743990614998 / 10000000000000000) ^ 2).
      assert (E : forall u, cheb_eval low2 [u; w] = u + 2 * (2 * w * w - 1)) by (intros; unfold cheb_eval, low2; cbn; ring). rewrite !E.
      assert (B : -1 <= 2 * (2 * w * w - 1) <= 1) by (unfold w; cbn; lra). set (t := 2 * (2 * w * w - 1)) in *. clearbody t.
      replace (-1 + t - (1 + t)) with (-2) by ring. rewrite (Rabs_left (-2)) by lra.
      assert (Rabs (-1 + t) <= 2) by (apply Rabs_le; lra). assert (Rabs (1 + t) <= 2) by (apply Rabs_le; lra). cbn. lra.
    + exists 0, 1. split; [cbn; tauto|]. split; [cbn; tauto|]. cbv zeta. unfold testPoint. cbn [seq map upd Nat.add]. set (u := (8984743990614998 / 10000000000000000) ^ 1).
      assert (E : forall w, cheb_eval low2 [u; w] = u + 2 * (2 * w * w - 1)) by (intros; unfold cheb_eval, low2; cbn; ring). rewrite !E.
      assert (B : 0 <= u <= 1) by (unfold u; cbn; lra). clearbody u.
      replace (u + 2 * (2 * 0 * 0 - 1) - (u + 2 * (2 * 1 * 1 - 1))) with (-4) by ring. rewrite (Rabs_left (-4)) by lra.
      assert (Rabs (u + 2 * (2 * 0 * 0 - 1)) <= 3) by (apply Rabs_le; lra). assert (Rabs (u + 2 * (2 * 1 * 1 - 1)) <= 3) by (apply Rabs_le; lra). cbn. lra.
Qed.
Example C113_case : lowPoly 2 (1 / 10 ^ 10) low2 /\ equalsOn 2 low2F [0; 0] [2; 2] low2 /\ low2F [2; 2] <> 0 /\
  (forall x y, low2F [x; y] = (x - 1) + 2 * (2 * (y - 1) * (y - 1) - 1)) /\
  exists M e, chebApproximate cosR rootR (fun _ _ => true) 12 (Plain low2F) [0; 0] [2; 2] (1 / 10 ^ 10) = AOk (M, e).
Proof.
  assert (E : forall x y, low2F [x; y] = (x - 1) + 2 * (2 * (y - 1) * (y - 1) - 1)) by (intros; unfold low2F, cheb_eval, low2; cbn; ring).
  assert (Q : equalsOn 2 low2F [0; 0] [2; 2] low2).
  { intros y [Hy _]. destruct y as [|u [|w [|]]]; try discriminate. unfold boxPoint. cbn [combine map fst snd]. unfold low2F. cbn [map]. f_equal. f_equal; [field|f_equal; field]. }
  assert (Z : low2F [2; 2] <> 0) by (rewrite E; lra).
  split; [apply low2_poly|]. split; [exact Q|]. split; [exact Z|]. split; [exact E|].
  apply (C113_approximation_returns (fun _ _ => true) 12 (Plain low2F) [0; 0] [2; 2] (1 / 10 ^ 10) low2); auto.
  - split; [reflexivity|]. repeat constructor; cbn; lra.
  - cbn; lra.
  - apply low2_poly.
Qed.

(** A whole call: the identity on [-1,1]. *)
Lemma approx_T1 acc fuel rel : 0 < rel < 1 -> acc (chebF 1) 1%nat = true ->
  chebApproximate cosR rootR acc (S fuel) (Plain (chebF 1)) [-1] [1] rel = AOk (mkT [2%nat] [0; 1], e33).
Proof.
  intros Hrel Hacc.
  assert (A8 : forall k, seen [(1%nat, 1)] 8 k = if Nat.eqb k 1 then 1 else 0) by (intros; rewrite seen_one; reflexivity).
  assert (A17 : forall k, seen [(1%nat, 1)] 17 k = if Nat.eqb k 1 then 1 else 0) by (intros; rewrite seen_one; reflexivity).
  rewrite (one_call acc fuel (chebF 1) (-1) 1 [(1%nat, 1)] rel 1 1 1 1) with (r := 2251799813685248); try lra; auto; try lia.
  - f_equal. f_equal. f_equal. cbn [seq map]. rewrite !seen_one. reflexivity.
  - intros y Hy. rewrite unit_point, seriesAt_one. unfold chebF. cbn [nth]. rewrite Rmult_1_l. reflexivity.
  - rewrite seriesAt_one, chebT_at1, Rmult_1_l, Rabs_R1. lra.
  - intros y Hy. rewrite seriesAt_one, Rmult_1_l. apply chebT_bound; auto.
  - intros k Hk. rewrite A8. destruct (Nat.eqb_spec k 1); [lia|]. rewrite Rabs_R0. lra.
  - intros k Hk. rewrite A8, A17. destruct (Nat.leb_spec k 8), (Nat.eqb_spec k 1); try lia; try (rewrite Rminus_diag_eq by auto; rewrite Rabs_R0; lra).
  - apply check_ends; auto. unfold chebF. cbn [nth]. rewrite chebT_at1, chebT_at_m1. cbn [Nat.even]. rewrite Rabs_R1. replace (1 - -1) with 2 by ring. rewrite (Rabs_left (-1)), Rabs_right by lra. lra.
  - intros k Hk. rewrite A17. destruct (Nat.eqb_spec k 1); [lia|]. rewrite Rabs_R0. left. apply Rinv_0_lt_compat. lra.
  - exists 1%nat. split; [lia|]. rewrite A17. cbn [Nat.eqb]. rewrite Rabs_R1. lra.
  - intros k Hk. rewrite A17. destruct (Nat.eqb_spec k 1); [lia|]. rewrite Rabs_R0. left. apply Rinv_0_lt_compat. lra.
  - intros k Hk Hne. rewrite !A17. destruct (Nat.eqb_spec k 1); [lia|]. cbn [Nat.eqb]. rewrite Rabs_R0, Rabs_R1. lra.
  - rewrite A17. cbn [Nat.eqb]. rewrite Rabs_R1, Rmult_1_l. change (Z.of_nat 1 - Z.of_nat 1 + 1)%Z with 1%Z. apply rootR_1. lra.
Qed.
Lemma solve_T1 acc fa fuel : acc (chebF 1) 1%nat = true -> exists r B,
  @csolve R R_num (@ext1 R R_num) (approxOf cosR rootR acc (S fa)) false (1 / 100000) 50 (S fuel) [Plain (chebF 1)] [-1] [1] = COk (mkOut [[r]] [B] [([-1], [1])]).
Proof.
  intros Hacc.
  assert (EA : approxOf cosR rootR acc (S fa) (Plain (chebF 1)) [-1] [1] = Ok (mkT [2%nat] [0; 1], e33)).
  { unfold approxOf. rewrite nlit_R. rewrite approx_T1; auto. lra. }
  assert (RQ : exists r lo hi, runT33Q = COk (mkOut [[r]] [[(lo, hi)]] [([(-1)#1], [1#1])])) by (eexists _, _, _; vm_compute; reflexivity).
  destruct RQ as (r & lo & hi & RQ). exists (Q2R r), [(Q2R lo, Q2R hi)].
  apply one_shot. rewrite (switch _ _ _ _ _ _ _ _ _ EA).
  pose proof (h_csolve (NA := Q_num) (NB := R_num) (h := Q2R) Q_pos _ (@ext1 R R_num) ext1_hom _ _ (constO_hom (mkT [2%nat] [0#1; 1#1], eQ)) (1 # 100000) 50 1
      [Plain (fun _ => 0#1)] [Plain (chebF 1)] [(-1)#1] [1#1] ltac:(constructor; constructor)) as HH.
  fold runT33Q in HH. rewrite RQ in HH. cbn [hc] in HH. unfold hout in HH. cbn [cRoots cBoxes cSearched map fst snd] in HH.
  assert (EM : Q2R ((-1)#1) = -1) by (unfold Q2R; cbn; lra). assert (EP : Q2R (1#1) = 1) by (unfold Q2R; cbn; lra).
  rewrite EM, EP in HH. replace (Q2R (1 # 100000)) with (1 / 100000) in HH by (unfold Q2R; cbn; lra).
  replace (hte (h := Q2R) (mkT [2%nat] [0#1; 1#1], eQ)) with (mkT [2%nat] [0; 1], e33) in HH.
  - rewrite <- HH. reflexivity.
  - unfold hte, tmap, e33, eQ. cbn [fst snd shp dat map]. f_equal; [|unfold Q2R; cbn; field]. f_equal. f_equal; [unfold Q2R; cbn; lra|]. f_equal. unfold Q2R; cbn; lra.
Qed.
Example C113_solve_case : forall acc fa fuel, acc (chebF 1) 1%nat = true -> exists o,
  solveR (@ext1 R R_num) (approxOf cosR rootR acc (S fa)) false (1 / 100000) 50 (S fuel) (map Plain [chebF 1]) (BScalar (-1)) (BScalar 1) = COk o /\
  externalsOK 1 (@ext1 R R_num) /\ cSearched o = [([-1], [1])] /\ length (cRoots o) = 1%nat /\
  (forall a' b' g, In (a', b') (cSearched o) -> In g [chebF 1] -> length a' = 1%nat /\ exists P, lowPoly 1 (1 / 10 ^ 10) P /\ equalsOn 1 g a' b' P) /\
  chebF 1 [0] = 0.
Proof.
  intros acc fa fuel Hacc. destruct (solve_T1 acc fa fuel Hacc) as (r & B & HR).
  exists (mkOut [[r]] [B] [([-1], [1])]). split; [exact HR|]. cbn [cSearched cRoots length]. split; [apply ext1_ok|split; [reflexivity|split; [reflexivity|split]]].
  - intros a' b' g [E|[]] [<-|[]]. injection E. intros <- <-. split; [reflexivity|]. exists (mkT [2%nat] [0; 1]).
    assert (R0 : Rabs 0 = 0) by apply Rabs_R0. assert (R1 : Rabs 1 = 1) by apply Rabs_R1.
    assert (CE : forall u, cheb_eval (mkT [2%nat] [0; 1]) [u] = u) by (intros; unfold cheb_eval; cbn; ring).
    split; [split; [|split; [|split]]|].
    + split; [split; [reflexivity|repeat constructor; lia]|]. split; [reflexivity|]. repeat constructor; cbn; lia.
    + intros d Hd. assert (d = 0%nat) by lia. subst d. unfold degreeIn. cbn [shp nth Nat.sub].
      assert (A0 : sliceSum (mkT [2%nat] [0; 1]) 0 1 = 1) by (unfold sliceSum; cbn; rewrite R1; ring). rewrite A0.
      assert (S2 : sumabs (mkT [2%nat] [0; 1]) = 1) by (unfold sumabs; cbn; rewrite R0, R1; ring). rewrite S2.
      assert (IP : / 2251799813685248 < 1 / 10) by (apply Rlt_le_trans with (/ 10); [apply Rinv_lt_contravar; lra|lra]). split; [cbn; lra|intros _; cbn; lra].
    + exists 0%nat. split; [lia|]. cbn. lia.
    + intros d Hd _. assert (d = 0%nat) by lia. subst d. exists (-1), 1. split; [cbn; tauto|]. split; [cbn; tauto|]. cbv zeta. cbn [testPoint seq map upd]. rewrite !CE.
      replace (-1 - 1) with (-2) by ring. rewrite (Rabs_left (-2)), (Rabs_left (-1)), R1 by lra. cbn. lra.
    + intros y [Hy _]. destruct y as [|v [|]]; try discriminate. rewrite unit_point, CE. unfold chebF. cbn. ring.
  - unfold chebF. cbn. ring.
Qed.
