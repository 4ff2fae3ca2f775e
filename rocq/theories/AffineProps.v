(** * Property theorems C114: one affine function of one variable is solved completely *)
From Coq Require Import List Arith Bool ZArith Reals Lra Lia.
From Verif Require Import Num RSum Cheb Tensor PolySpec SystemSpec TransformModel IntervalModel IntervalProofs LinearModel LinearProofs QuadModel QuadNdFaces
  SolverModel OrderProofs SubdivReal ZoomProofs MergeProofs SolverProofs ExtExample SolverProps CombinedModel AffineProofs.
Import ListNotations.
Local Open Scope R_scope.

(** the polynomial c0 T_0 + c1 T_1 = c0 + c1 x *)
Definition affine1 (c0 c1 : R) : tensor R := mkT [2%nat] [c0; c1].

Lemma pow_above x : exists N, x <= 2 ^ N.
Proof.
  destruct (Rle_lt_dec x 1) as [H|H]; [exists 0%nat; cbn; lra|]. destruct (Pow_x_infinity 2 ltac:(rewrite Rabs_pos_eq; lra) x) as [N HN]. exists N.
  specialize (HN N (le_n N)). rewrite Rabs_pos_eq in HN by (apply pow_le; lra). lra.
Qed.
Lemma zero_in L K m h : K <> 0 -> 0 < h -> Rabs (L + K * m) <= Rabs (K * h) -> m - h <= - L / K <= m + h.
Proof.
  intros HK Hh H. rewrite Rabs_mult, (Rabs_pos_eq h) in H by lra. replace (L + K * m) with (K * (m - - L / K)) in H by (field; auto). rewrite Rabs_mult in H.
  apply Rmult_le_reg_l in H; [|apply Rabs_pos_lt; auto]. apply (proj1 (abs_le_iff _ _)) in H. lra.
Qed.

(** ** C114 *)
(** The subdivision solver on c0 + c1 x with its zero in [-1,1]: it returns, with one root and one box and no
    warning; the box holds the zero and is no wider than about twice error / |c1|; with the final step the
    root is the zero up to 1e-32. *)
Theorem C114_solver_finds_the_zero :
  forall (X : ext R) (o : opts) (c0 c1 error : R),
    externalsOK 1 X -> (1 <= omaxZoom o)%nat -> c1 <> 0 -> Rabs c0 <= Rabs c1 -> 0 < error ->
    exists fuel0, forall fuel, (fuel0 <= fuel)%nat -> exists (t : tint R) (root lo hi : R),
      @solveChebyshevSubdivision R R_num X fuel o [affine1 c0 c1] [error] = Ok (mkSol [[root]] [t] false false) /\
      @getFinalInterval R R_num t = [(lo, hi)] /\
      lo <= - c0 / c1 <= hi /\ lo <= root <= hi /\
      0 < hi - lo <= 41 / 20 * (error / Rabs c1 + / 2 ^ 49) /\
      (ofinal o = true -> Rabs (root - - c0 / c1) <= / 100000000000000000000000000000000).
Proof.
  intros X o c0 c1 e (H1 & H2 & H3 & H4) Ho Hc Hin He. assert (Pc : 0 < Rabs c1) by (apply Rabs_pos_lt; auto).
  destruct (pow_above (Rabs c1 / e)) as [N HN]. exists (N + 10)%nat. intros fuel Hf. change (affine1 c0 c1) with (tens c0 c1).
  set (t0 := @newInterval R R_num (repeat (-1, 1) 1)).
  assert (A0 : ast c0 c1 false [] t0 c0 c1 e 0 1).
  { constructor; auto; try discriminate; try lra. - apply (io_ok 1), start_inOK. - cbn. f_equal. f_equal; lra. }
  assert (Ep : @isPoint R R_num t0 = false).
  { destruct (isPoint t0) eqn:E; auto. apply (point_iff t0 0 1) in E; [lra|apply (as_iv _ _ _ _ _ _ _ _ _ _ A0)|lra]. }
  assert (HN' : / 2 ^ N <= e / Rabs c1).
  { replace (e / Rabs c1) with (/ (Rabs c1 / e)) by (field; lra). apply Rinv_le_contravar; auto. apply Rdiv_lt_0_compat; auto. }
  destruct (solve_all X c0 c1 H1 Hc H2 o fuel N [] t0 c0 c1 e 0 1 Ho A0 Ep HN' Hf) as (i & x & t & d0 & d1 & e' & m & h & Z & Zt & A & Pt & (b0 & b1 & eb & mb & hb & tb & B & B1 & B2 & B3)).
  exists t, m, (mb - hb), (mb + hb). pose proof (as_h _ _ _ _ _ _ _ _ _ _ A) as Hh. pose proof (as_h _ _ _ _ _ _ _ _ _ _ B) as Hhb.
  destruct (as_fld _ _ _ _ _ _ _ _ _ _ A) as (D1 & D2 & D3). pose proof (ok_tok 1 t (as_ok _ _ _ _ _ _ _ _ _ _ A)) as Tk.
  assert (ER : @rootsOf R R_num t = [[m]]).
  { unfold rootsOf. rewrite D2. f_equal. unfold getFinalPoint, getFinalInterval. rewrite (tok_top 1 t Tk).
    assert (EM : @midpoint R R_num (@finalBox R R_num (unitBox 1) (trs t)) = [m]).
    { rewrite <- (tok_ivl 1 t Tk), (as_iv _ _ _ _ _ _ _ _ _ _ A). unfold midpoint. cbn [map fst snd]. rewrite n2_R. rnum. f_equal. lra. }
    destruct (fin t); exact EM. }
  assert (EI : @getFinalInterval R R_num t = [(mb - hb, mb + hb)]) by (rewrite B3; apply (as_iv _ _ _ _ _ _ _ _ _ _ B)).
  assert (Zb : mb - hb <= - c0 / c1 <= mb + hb).
  { apply zero_in; auto; [lra|]. pose proof (as_in _ _ _ _ _ _ _ _ _ _ B) as Q. rewrite (as_c1 _ _ _ _ _ _ _ _ _ _ B), (as_c0 _ _ _ _ _ _ _ _ _ _ B) in Q. auto. }
  assert (Zm : m - h <= - c0 / c1 <= m + h).
  { apply zero_in; auto; [lra|]. pose proof (as_in _ _ _ _ _ _ _ _ _ _ A) as Q. rewrite (as_c1 _ _ _ _ _ _ _ _ _ _ A), (as_c0 _ _ _ _ _ _ _ _ _ _ A) in Q. auto. }
  split; [|split; [exact EI|split; [exact Zb|split; [|split]]]].
  - unfold solveChebyshevSubdivision. cbn [existsb length ndim shp tens Nat.eqb negb orb repeat]. change (@nopp R R_num (@n1 R R_num)) with (-1). change (@n1 R R_num) with 1.
    change (newInterval [(-1, 1)]) with t0. rewrite Z. cbn [bindR]. rewrite Zt. cbn [flat_map existsb]. rewrite ER, D2, D3. reflexivity.
  - pose proof (rootsOf_in 1 t Tk) as Q. rewrite D2 in Q. specialize (Q (fun _ => Forall_nil _) (ok_fresh 1 t (as_ok _ _ _ _ _ _ _ _ _ _ A))). rewrite ER in Q. inversion Q as [|? ? Q1 _]; subst.
    assert (Eb : @finalBox R R_num (unitBox 1) (bt t) = [(mb - hb, mb + hb)]) by (rewrite <- EI; unfold getFinalInterval, bt; rewrite (tok_top 1 t Tk); reflexivity).
    rewrite Eb in Q1. inversion Q1; subst. cbn in *. auto.
  - assert (Q : 98 / 100 * hb <= e / Rabs c1 + 4 * ww).
    { apply (Rmult_le_reg_r (Rabs c1)); auto. rewrite Rmult_plus_distr_r. unfold Rdiv at 2. rewrite (Rmult_assoc e), Rinv_l by lra. rewrite (as_c1 _ _ _ _ _ _ _ _ _ _ B), Rabs_mult, (Rabs_pos_eq hb) in B1 by lra. lra. }
    assert (0 < e / Rabs c1) by (apply Rdiv_lt_0_compat; auto). unfold ww in Q. set (q := e / Rabs c1) in *. clear - Q H Hhb. split; lra.
  - intros Eo. specialize (Pt Eo). apply (point_iff t m h) in Pt; [|apply (as_iv _ _ _ _ _ _ _ _ _ _ A)|lra]. apply Rabs_le. lra.
Qed.
Print Assumptions C114_solver_finds_the_zero.

(** No zero in [-1,1] by more than the error: nothing is returned (the constant term check is on by default). *)
Theorem C114_solver_finds_nothing_else :
  forall (X : ext R) (o : opts) (c0 c1 error : R) (fuel : nat),
    occheck o = true -> 0 <= error -> Rabs c0 > Rabs c1 + error -> (1 <= fuel)%nat ->
    @solveChebyshevSubdivision R R_num X fuel o [affine1 c0 c1] [error] = Ok (mkSol [] [] false false).
Proof.
  intros X o c0 c1 e fuel Ho He Hc Hf. destruct fuel as [|fuel]; [lia|].
  assert (E1 : @constantCheck R R_num [affine1 c0 c1] [e] = true).
  { unfold constantCheck. cbn [combine existsb]. rewrite orb_false_r. unfold ngtb, tsumabs, nsumabs, tconst, affine1. cbn. rnum. apply Rltb_true. lra. }
  unfold solveChebyshevSubdivision. cbn [existsb length ndim shp affine1 Nat.eqb negb orb repeat]. change (@nopp R R_num (@n1 R R_num)) with (-1). change (@n1 R R_num) with 1.
  cbn [solvePoly]. destruct (isPoint _) eqn:Ep.
  - exfalso. apply (point_iff _ 0 1) in Ep; [lra|cbn; f_equal; f_equal; lra|lra].
  - change {| shp := [2%nat]; dat := [c0; c1] |} with (affine1 c0 c1). rewrite E1, Ho. reflexivity.
Qed.
Print Assumptions C114_solver_finds_nothing_else.

(** ** solve() *)
(** A whole call solve(f, a, b) on an interval [a,b].  [approx] is whatever chebApproximate returns for f
    (for Multi* objects near [-1,1] it is not called): an affine polynomial and an error.  [zeroOf]: the zero
    of that polynomial, on the scale of [a,b]. *)
Definition zeroOf (a b c0 c1 : R) : R := ((b - a) * (- c0 / c1) + (b + a)) / 2.
Theorem C114_solve_finds_the_zero :
  forall (X : ext R) (approx : fobj R -> list R -> list R -> res (tensor R * R)) (exact : bool) (minSize a b c0 c1 error : R) (f : fobj R),
    externalsOK 1 X -> f <> NotCallable -> a < b ->
    @approxFor R R_num approx f [a] [b] = Ok (affine1 c0 c1, error) ->
    0 < error <= Rabs c1 / 2 -> Rabs c0 <= Rabs c1 ->
    (b - a) / 2 * (41 / 20 * (error / Rabs c1 + / 2 ^ 49)) <= minSize * Rmax (Rmax (Rabs a) (Rabs b)) 1 ->
    exists fuel0, forall sfuel fuel, (fuel0 <= sfuel)%nat -> (1 <= fuel)%nat -> exists (root lo hi : R),
      @solveTop R R_num X approx exact minSize sfuel fuel (FOne f) (BScalar a) (BScalar b) = COk (mkOut [[root]] [[(lo, hi)]] [([a], [b])]) /\
      lo <= zeroOf a b c0 c1 <= hi /\ lo <= root <= hi /\ hi - lo <= minSize * Rmax (Rmax (Rabs a) (Rabs b)) 1 /\
      Rabs (root - zeroOf a b c0 c1) <= (b - a) / 2 * / 100000000000000000000000000000000.
Proof.
  intros X approx exact minSize a b c0 c1 e f HX Hf Hab Ha He Hin Hm. assert (Hc : c1 <> 0) by (intros ->; rewrite Rabs_R0 in He; lra).
  assert (Pc : 0 < Rabs c1) by (apply Rabs_pos_lt; auto).
  destruct (C114_solver_finds_the_zero X (defaultOpts exact true true false) c0 c1 e HX ltac:(cbn; lia) Hc Hin (proj1 He)) as [fuel0 HF]. exists fuel0. intros sfuel fuel H1 H2.
  destruct fuel as [|fuel]; [lia|]. destruct (HF sfuel H1) as (t & v & lo & hi & Es & Ei & Hz & Hv & Hw & Hr). specialize (Hr eq_refl). clear HF.
  exists (transformPt v a b), (transformPt lo a b), (transformPt hi a b). unfold solveTop. cbn [length boundOf repeat csolve].
  assert (En : existsb (fun f => match f with NotCallable => true | _ => false end) [f] = false) by (cbn; destruct f; auto; congruence). rewrite En. cbn [Nat.eqb negb length].
  assert (Ei2 : existsb (fun p : R * R => nltb (snd p) (fst p)) (combine [a] [b]) = false) by (cbn; rnum; rewrite orb_false_r; apply Rltb_false; lra). rewrite Ei2.
  cbn [approxAll]. rewrite Ha. cbn [bindR ofRes cbind map fst snd]. rewrite Es. cbn [ofRes cbind sBoxes].
  assert (ED : forallb (fun d : R => neqb d n2) (finalDimSize t) = false).
  { unfold finalDimSize. rewrite Ei. cbn. rnum. rewrite andb_true_r. apply Reqb_false. rewrite ?n2_R.
    assert (e / Rabs c1 <= / 2) by (apply (Rmult_le_reg_r (Rabs c1)); auto; unfold Rdiv; rewrite Rmult_assoc, Rinv_l; lra). lra. }
  rewrite ED. cbn [andb gather].
  assert (ER : @rootsOf R R_num t = [[v]]).
  { destruct (solve_good X 1 (defaultOpts exact true true false) sfuel [affine1 c0 c1] [e] _ HX (sq_lin c0 c1 e) (cov_lin exact c0 c1) Es) as (i & x & B1 & B2 & _). cbn in B1, B2. rewrite <- B1 in B2. cbn in B2. rewrite app_nil_r in B2. auto. }
  assert (EP : forall z, transformPt z a b = ((b - a) * z + (b + a)) / 2) by (intros; unfold transformPt; rewrite n2_R; reflexivity).
  assert (EW : (b - a) / 2 * (hi - lo) <= minSize * Rmax (Rmax (Rabs a) (Rabs b)) 1).
  { eapply Rle_trans; [|exact Hm]. apply Rmult_le_compat_l; lra. }
  assert (EF : @finish R R_num minSize (csolve X approx exact minSize sfuel fuel [f]) [a] [b] t = COk (mkOut [[transformPt v a b]] [[(transformPt lo a b, transformPt hi a b)]] [])).
  { unfold finish. rewrite Ei, ER. cbn [length bcast Nat.eqb map fst snd zip3 combine forallb]. unfold ngtb. rnum. rewrite !nmax_case. rnum.
    replace (Rltb (minSize * Rmax (Rmax (Rabs a) (Rabs b)) 1) (transformPt hi a b - transformPt lo a b)) with false; [reflexivity|].
    symmetry. apply Rltb_false. rewrite !EP. lra. }
  rewrite EF. cbn [cbind outApp cRoots cBoxes cSearched outNil app]. split; [reflexivity|]. rewrite !EP. unfold zeroOf. set (z := - c0 / c1) in *. clearbody z.
  assert (G : forall x y, x <= y -> (b - a) * x <= (b - a) * y) by (intros; apply Rmult_le_compat_l; lra).
  pose proof (G _ _ (proj1 Hz)). pose proof (G _ _ (proj2 Hz)). pose proof (G _ _ (proj1 Hv)). pose proof (G _ _ (proj2 Hv)).
  split; [lra|]. split; [lra|]. split; [lra|].
  replace (((b - a) * v + (b + a)) / 2 - ((b - a) * z + (b + a)) / 2) with ((b - a) / 2 * (v - z)) by field. rewrite Rabs_mult, (Rabs_pos_eq ((b - a) / 2)) by lra. apply Rmult_le_compat_l; lra.
Qed.
Print Assumptions C114_solve_finds_the_zero.

(** the default call solve(f, -1, 1) for f = c0 + c1 x, given in either basis, with the default minSize 1e-5 *)
Theorem C114_default_call :
  forall (X : ext R) (approx : fobj R -> list R -> list R -> res (tensor R * R)) (exact : bool) (c0 c1 : R) (f : fobj R),
    externalsOK 1 X -> f = MCheb (affine1 c0 c1) \/ f = MPower (affine1 c0 c1) ->
    / 1000000000 <= Rabs c1 -> Rabs c0 <= Rabs c1 ->
    exists fuel0, forall sfuel fuel, (fuel0 <= sfuel)%nat -> (1 <= fuel)%nat -> exists (root lo hi : R),
      @solveTop R R_num X approx exact (/ 100000) sfuel fuel (FOne f) (BScalar (-1)) (BScalar 1) = COk (mkOut [[root]] [[(lo, hi)]] [([-1], [1])]) /\
      lo <= - c0 / c1 <= hi /\ lo <= root <= hi /\ hi - lo <= / 100000 /\
      Rabs (root - - c0 / c1) <= / 100000000000000000000000000000000.
Proof.
  intros X approx exact c0 c1 f HX Hf H1 Hin.
  assert (HA : @approxFor R R_num approx f [-1] [1] = Ok (affine1 c0 c1, / 4503599627370496)).
  { assert (EN : @nearUnit R R_num [-1] [1] = true).
    { unfold nearUnit, close1. cbn [forallb]. rewrite !nlit_R. rnum. rewrite !andb_true_r. apply andb_true_iff. split; apply Rleb_true.
      - replace (-1 - - (1)) with 0 by lra. rewrite Rabs_R0. pose proof (Rabs_pos (- (1))). lra.
      - replace (1 - 1) with 0 by lra. rewrite Rabs_R0. pose proof (Rabs_pos 1). lra. }
    assert (EL : @nlit R R_num 1 4503599627370496 = / 4503599627370496) by (rewrite nlit_R; lra).
    destruct Hf as [-> | ->]; unfold approxFor; rewrite EN, EL; auto.
    assert (EC : @PolyModel.toCheb R R_num (affine1 c0 c1) = affine1 c0 c1).
    { unfold affine1, PolyModel.toCheb. cbn [ndim shp length seq fold_left]. unfold PolyModel.toChebND, transpose, apply_axis0, PolyModel.toCheb1D, tbuild. cbn. rewrite ?n2_R, ?nlit_R. rnum. f_equal. apply f_equal2; [lra|]. apply f_equal2; [lra|reflexivity]. }
    rewrite EC. reflexivity. }
  assert (M1 : Rmax (Rmax (Rabs (-1)) (Rabs 1)) 1 = 1) by (unfold Rabs; repeat destruct (Rcase_abs _); unfold Rmax; repeat destruct (Rle_dec _ _); lra).
  assert (HE : 0 < / 4503599627370496 <= Rabs c1 / 2) by (split; lra).
  destruct (C114_solve_finds_the_zero X approx exact (/ 100000) (-1) 1 c0 c1 (/ 4503599627370496) f HX) as [fuel0 HF]; auto; try lra; try (destruct Hf; subst f; discriminate).
  { rewrite M1. assert (/ 4503599627370496 / Rabs c1 <= / 4503599627370496 * 1000000000).
    { unfold Rdiv. apply Rmult_le_compat_l; [lra|]. rewrite <- (Rinv_inv 1000000000). apply Rinv_le_contravar; lra. }
    set (q := / 4503599627370496 / Rabs c1) in *. clearbody q. lra. }
  exists fuel0. intros sfuel fuel G1 G2. destruct (HF sfuel fuel G1 G2) as (v & lo & hi & A & B & C & D & E). exists v, lo, hi.
  replace (zeroOf (-1) 1 c0 c1) with (- c0 / c1) in B, E by (unfold zeroOf; generalize (- c0 / c1); intros; lra). rewrite M1 in D. split; [exact A|]. split; [lra|]. split; [lra|]. split; [lra|]. eapply Rle_trans; [exact E|]. lra.
Qed.
Print Assumptions C114_default_call.

(** 1/3 - x on [-1,1], and 2 + x on the wider interval [-5,1] where it is 0*T0 + 3*T1 *)
Example C114_example : externalsOK 1 (@ext1 R R_num) /\ / 1000000000 <= Rabs (-1) /\ Rabs (1 / 3) <= Rabs (-1) /\ - (1 / 3) / (-1) = 1 / 3 /\
  (let e := / 4503599627370496 in 0 < e <= Rabs 3 / 2 /\ Rabs 0 <= Rabs 3 /\ zeroOf (-5) 1 0 3 = -2 /\
   (1 - -5) / 2 * (41 / 20 * (e / Rabs 3 + / 2 ^ 49)) <= / 100000 * Rmax (Rmax (Rabs (-5)) (Rabs 1)) 1) /\
  Rabs 3 > Rabs 1 + / 4503599627370496.
Proof.
  split; [apply ext1_ok|]. rewrite !(Rabs_pos_eq 3), (Rabs_pos_eq 1), Rabs_R0, (Rabs_pos_eq (1 / 3)), (Rabs_left (-1)), (Rabs_left (-5)) by lra. unfold zeroOf.
  rewrite (Rmax_left (- -5) 1), Rmax_left by lra. cbv zeta. repeat split; lra.
Qed.
