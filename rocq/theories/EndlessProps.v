(** * Property theorem C84: no answer for a system that does not depend on one of its variables *)
From Coq Require Import List Arith Bool ZArith Reals Lra Lia.
From Verif Require Import Num RSum Cheb Tensor PolySpec SystemSpec TransformModel IntervalModel IntervalProofs LinearModel LinearProofs SvdExample TransformNDProofs
  QuadModel QuadNdFaces GaussExample SolverModel OrderProofs SubdivReal ZoomProofs SolverProofs ExtExample SolverProps CombinedModel EndlessProofs.
Import ListNotations.
Local Open Scope R_scope.

(** no coefficient of positive degree in variable number [d] (counted from 0) *)
Definition independentOf (d : nat) (M : tensor R) : Prop :=
  forall idx, inrange (shp M) idx -> (1 <= nth d idx 0)%nat -> tget M idx = 0.

(** ** C84 *)
(** The subdivision solver: whatever recursion depth is allowed, no result is ever returned. *)
Theorem C84_solver_never_returns :
  forall (n d : nat) (X : ext R) (fuel : nat) (o : opts) (Ms : list (tensor R)) (errors : list R) (fs : nat -> list R -> R) (x : list R),
    externalsOK n X -> squareSystem n Ms errors -> sizesOK (oexact o) Ms ->
    errorBounds (quadraticChecksOn o n) n fs Ms errors ->
    (S d < n)%nat -> Forall (independentOf d) Ms ->
    commonRoot n fs x ->
    forall sol, @solveChebyshevSubdivision R R_num X fuel o Ms errors <> Ok sol.
Proof.
  intros n d X fuel o Ms errors fs x (H1 & H2 & H3 & H4) Hsq Hsz Hb Hd HI [Hx Hr] sol. pose proof Hsq as (Hn & HM & He & HF). unfold solveChebyshevSubdivision.
  destruct (existsb _ Ms); [discriminate|]. destruct (negb _); [discriminate|]. destruct Ms as [|M0 Ms0]; [discriminate|].
  rewrite Forall_forall in HF. destruct (HF M0 (or_introl eq_refl)) as [_ ->]. set (Ms := M0 :: Ms0) in *.
  assert (Hs : sysOK n (oexact o) Ms errors) by (split; auto). change (@nopp R R_num (@n1 R R_num)) with (-1). change (@n1 R R_num) with 1.
  assert (HA : appr n (oexact o) (quadOn o n) fs [] Ms errors) by (constructor; auto).
  assert (HN : flatAt d Ms) by (eapply Forall_impl; [|exact HI]; intros M HM' idx A B; apply HM'; auto; lia).
  destruct (solvePoly _ _ _ _ _ _ _) as [[b1 b2]| |] eqn:E; cbn [bindR]; try discriminate. exfalso. revert E.
  apply (solvePoly_endless n d X o Hd H1 H2 H3 H4 fuel 0 Ms _ errors fs x (b1, b2) (start_inOK n) Hs); auto.
  - unfold wide. cbn [newInterval ivl]. rewrite nth_indep with (d' := (-1, 1)) by (rewrite repeat_length; lia). rewrite nth_repeat. cbn [fst snd]. lra.
  - cbn [newInterval npts]. rewrite repeat_length. destruct (le_lt_dec n d) as [L|L]; [lia|]. rewrite nth_indep with (d' := nlit 394555475981047 10000000000000000) by (rewrite repeat_length; lia). rewrite nth_repeat. rewrite nlit_R. rewrite Rabs_pos_eq; lra.
  - split; auto.
Qed.
Print Assumptions C84_solver_never_returns.

(** The same for a call solve(funcs, a, b) with Chebyshev polynomials on the default box. *)
Theorem C84_solve_never_returns :
  forall (n d : nat) (X : ext R) (approx : fobj R -> list R -> list R -> res (tensor R * R)) (exact : bool) (minSize : R) (sfuel fuel : nat)
    (polys : list (tensor R)) (x : list R),
    externalsOK n X -> length polys = n -> Forall (fun M => wf M /\ ndim M = n) polys -> sizesOK exact polys ->
    (S d < n)%nat -> Forall (independentOf d) polys ->
    in_cube n x -> Forall (fun M => cheb_eval M x = 0) polys ->
    forall out, @solveTop R R_num X approx exact minSize sfuel fuel (FMany (map MCheb polys)) (BScalar (-1)) (BScalar 1) <> COk out.
Proof.
  intros n d X approx exact minSize sfuel fuel polys x HX Hl HM Hsz Hd HI Hx Hz out. unfold solveTop. destruct fuel as [|fuel]; [discriminate|]. cbn [csolve boundOf].
  rewrite map_length, !repeat_length, Nat.eqb_refl. cbn [negb]. destruct (existsb _ (map MCheb polys)); [discriminate|]. destruct (existsb _ _); [discriminate|].
  assert (E1 : @nearUnit R R_num (repeat (-1) (length polys)) (repeat 1 (length polys)) = true).
  { unfold nearUnit. apply andb_true_iff. split; apply forallb_forall; intros v Hv; apply repeat_spec in Hv; subst v; unfold close1; apply Rleb_true; rewrite !nlit_R; rnum;
      replace (_ - _) with 0 by lra; rewrite Rabs_R0; match goal with |- context [Rabs ?q] => pose proof (Rabs_pos q) end; lra. }
  assert (E2 : forall l, @approxAll R R_num approx (map MCheb l) (repeat (-1) (length polys)) (repeat 1 (length polys)) = Ok (map (fun M => (M, nlit 1 4503599627370496)) l)).
  { induction l as [|M l IH]; cbn [map approxAll approxFor]; auto. rewrite E1. cbn [bindR]. rewrite IH. reflexivity. }
  rewrite E2. cbn [ofRes cbind]. rewrite !map_map. cbn [fst snd]. rewrite map_id. set (errs := map (fun _ : tensor R => nlit 1 4503599627370496) polys).
  assert (Le : length errs = n) by (unfold errs; rewrite map_length; auto).
  destruct (solveChebyshevSubdivision _ _ _ _ _) as [sol| |] eqn:E; cbn [ofRes cbind]; try discriminate. exfalso. revert E.
  apply (C84_solver_never_returns n d X sfuel (defaultOpts exact true true false) polys errs (fun i y => cheb_eval (nth i polys noT) y) x); auto.
  - split; [lia|auto].
  - intros i Hi y Hy. cbv zeta. replace (cheb_eval (nth i polys noT) y - cheb_eval (nth i polys noT) y) with 0 by ring. rewrite Rabs_R0.
    assert (E : nth i errs 0 = / 4503599627370496) by (unfold errs; rewrite (nth_map_lt _ _ _ noT) by lia; rewrite nlit_R; lra). rewrite E. destruct (quadraticChecksOn _ _); lra.
  - split; auto. intros i Hi. rewrite Forall_forall in Hz. apply Hz, nth_In. lia.
Qed.
Print Assumptions C84_solve_never_returns.

(** the system {T1(y) = 0, T2(y) - T1(y) + 1 = 0} in the variables (x, y): its zeros are the points (x, 0) *)
Definition lineSys : list (tensor R) := [mkT [1%nat; 2%nat] [0; 1]; mkT [1%nat; 3%nat] [1; -1; 1]].
Example C84_example : externalsOK 2 (extWith svd2) /\ length lineSys = 2%nat /\ Forall (fun M => wf M /\ ndim M = 2%nat) lineSys /\ sizesOK false lineSys /\ (S 0 < 2)%nat /\ Forall (independentOf 0) lineSys /\
  in_cube 2 [1/3; 0] /\ Forall (fun M => cheb_eval M [1/3; 0] = 0) lineSys.
Proof.
  split; [split; [apply svd2_ok|split; [apply gauss_ok|split; [apply isort_ok|apply pySet_ok; lia]]]|]. split; [reflexivity|].
  split; [repeat constructor|]. split; [repeat constructor|]. split; [lia|]. split.
  { assert (G : forall m l, independentOf 0 (mkT [1%nat; m] l)).
    { intros m l [|i idx] Hr Hd; cbn in Hd; [lia|]. apply inrange_iff in Hr. destruct Hr as [_ Hr]. specialize (Hr 0%nat ltac:(cbn; lia)). cbn in Hr. lia. }
    constructor; [|constructor; [|constructor]]; apply G. }
  split; [repeat constructor; lra|]. repeat constructor; unfold cheb_eval, sumidx, basis; cbn; lra.
Qed.
