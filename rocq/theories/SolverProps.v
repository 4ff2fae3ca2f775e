(** * Property theorems C01, C03, C08 (solver level), C26, C27, C28: the subdivision solver *)
From Coq Require Import List Arith Bool ZArith QArith Qreals Reals Lra Lia.
From Verif Require Import Num RSum Cheb Tensor PolySpec SystemSpec TransformModel TransformChebProofs IntervalModel IntervalProofs LinearModel LinearProofs SvdExample
  QuadModel QuadNdFaces QuadTransfer GaussExample Transfer SolverModel OrderProofs SubdivReal ZoomProofs MergeProofs SolverProofs SolverTransfer ExtExample FinalProofs.
Import ListNotations.
Local Open Scope R_scope.

(** What is asked of the external routines: np.linalg.svd, matrix_rank and scipy's solve, np.argsort,
    and the iteration order of a Python set of axis numbers. *)
Definition externalsOK (n : nat) (X : ext R) : Prop :=
  svd_ok n (xsvd X) /\ sym_solver_ok n (xrank X) (xsolve X) /\ argsort_ok (xargsort X) /\ set_ok n (xset X).
(** The axis sizes: up to 7 in the default mode, up to 10^15 in the exact mode (see C12, C13). *)
Definition sizesOK (exact : bool) (Ms : list (tensor R)) : Prop :=
  Forall (fun M => Forall (fun N => if exact then INR N <= 1000000000000000 else (N <= 7)%nat) (shp M)) Ms.
(** [errors] bounds the distance of the functions from the polynomials, strictly if [strict] *)
Definition errorBounds (strict : bool) (n : nat) (fs : nat -> list R -> R) (Ms : list (tensor R)) (errors : list R) : Prop :=
  forall i, (i < n)%nat -> forall x, in_cube n x ->
    let d := Rabs (fs i x - cheb_eval (nth i Ms noT) x) in if strict then d < nth i errors 0 else d <= nth i errors 0.
(** the quadratic checks may run: low_dim_quadratic_check in dimension at most 3, or all_dim_quadratic_check *)
Definition quadraticChecksOn (o : opts) (n : nat) : bool := (olowq o && (n <=? 3)%nat) || oallq o.

Lemma start_inOK n : inOK n (@newInterval R R_num (repeat (-1, 1) n)).
Proof.
  constructor; [constructor|]; cbn; try discriminate; auto; [apply new_tok|]. intros _. auto.
Qed.
Lemma solve_good X n o fuel Ms errors sol : externalsOK n X -> squareSystem n Ms errors -> sizesOK (oexact o) Ms ->
  @solveChebyshevSubdivision R R_num X fuel o Ms errors = Ok sol ->
  exists i e, sBoxes sol = i ++ e /\ sRoots sol = flat_map (@rootsOf R R_num) (i ++ e) /\
    goodRes n o (@newInterval R R_num (repeat (-1, 1) n)) Ms errors (Ok (i, e)).
Proof.
  intros (H1 & H2 & H3 & H4) Hsq Hsz. pose proof Hsq as (Hn & HM & He & HF). unfold solveChebyshevSubdivision.
  destruct (existsb _ Ms); [discriminate|]. destruct (negb _); [discriminate|]. destruct Ms as [|M0 Ms0]; [discriminate|].
  rewrite Forall_forall in HF. destruct (HF M0 (or_introl eq_refl)) as [_ ->]. set (Ms := M0 :: Ms0) in *.
  assert (Hs : sysOK n (oexact o) Ms errors) by (split; auto).
  pose proof (solvePoly_good X n o H1 H2 H3 H4 fuel 0 Ms _ errors (start_inOK n) Hs) as G. change (@nopp R R_num (@n1 R R_num)) with (-1). change (@n1 R R_num) with 1.
  destruct (solvePoly _ _ _ _ _ _ _) as [[b1 b2]| |] eqn:E; cbn [bindR]; try discriminate. intros H. inversion H. exists b1, b2. cbn [sBoxes sRoots]. auto.
Qed.

(** ** C01 *)
Theorem C01_no_root_is_lost :
  forall (n : nat) (X : ext R) (fuel : nat) (o : opts) (Ms : list (tensor R)) (errors : list R) (sol : solution) (fs : nat -> list R -> R),
    externalsOK n X -> squareSystem n Ms errors -> sizesOK (oexact o) Ms ->
    errorBounds (quadraticChecksOn o n) n fs Ms errors ->
    @solveChebyshevSubdivision R R_num X fuel o Ms errors = Ok sol ->
    forall x, commonRoot n fs x -> exists t, In t (sBoxes sol) /\ inBox (@getFinalInterval R R_num t) x.
Proof.
  intros n X fuel o Ms errors sol fs HX Hsq Hsz Hb Hs x [Hx Hr].
  destruct (solve_good X n o fuel Ms errors sol HX Hsq Hsz Hs) as (i & e & -> & _ & G). destruct (G i e eq_refl) as [R1 R2].
  assert (HA : appr n (oexact o) (quadOn o n) fs [] Ms errors).
  { constructor; auto. }
  destruct (R2 fs x HA) as [_ R3]; [split; auto|]. destruct (R3 eq_refl) as (t & Ht & Hbx). exists t. split; auto.
  rewrite (final_cbox n), (cbox_final n) by apply (R1 t Ht). exact Hbx.
Qed.
Print Assumptions C01_no_root_is_lost.

(** a cubic whose two halves both have a vanishing linear Chebyshev coefficient *)
Definition cubQ : tensor Q := mkT [4%nat] [0#1; (-299532977929120108331618690351373)#400000000000000000000000000000000; (-3550999283829423)#40000000000000000; 1#1].
Definition cub : tensor R := tmap Q2R cubQ.
Definition allOn : opts := defaultOpts false true true true.
Definition cubRun := @solveChebyshevSubdivision Q Q_num (@ext1 Q Q_num) 10 allOn [cubQ] [1#1].
Lemma cubRun_ok : exists s, cubRun = Ok s /\ length (sRoots s) = 2%nat /\ length (sBoxes s) = 1%nat /\ sDup s = true.
Proof. eexists. split; [vm_compute; reflexivity|]. vm_compute. auto. Qed.
Lemma ext1_ok : externalsOK 1 (@ext1 R R_num).
Proof. split; [apply svd1g_ok|]. split; [apply gauss_ok|]. split; [apply isort_ok|apply pySet_ok; lia]. Qed.
Definition one : R := Q2R (1#1).
Lemma one_1 : one = 1. Proof. unfold one, Q2R. cbn. lra. Qed.
Lemma cub_run : @solveChebyshevSubdivision R R_num (@ext1 R R_num) 10 allOn [cub] [one] = hres (hsol (h := Q2R)) cubRun.
Proof. symmetry. exact (h_solve (NA := Q_num) (NB := R_num) (h := Q2R) Q_pos _ _ ext1_hom allOn 10 [cubQ] [1#1] eq_refl). Qed.
Lemma cub_solved : exists s, @solveChebyshevSubdivision R R_num (@ext1 R R_num) 10 allOn [cub] [1] = Ok s /\
  length (sRoots s) = 2%nat /\ length (sBoxes s) = 1%nat /\ sDup s = true.
Proof.
  destruct cubRun_ok as (s & E & A & B & C). exists (hsol (h := Q2R) s). rewrite <- one_1. split.
  - rewrite cub_run, E. reflexivity.
  - unfold hsol. cbn [sRoots sBoxes sDup]. rewrite !map_length. auto.
Qed.
Lemma cheb_eval_4 a b c d x : cheb_eval (mkT [4%nat] [a; b; c; d]) [x] = a + b * x + c * (2 * x * x - 1) + d * (4 * x * x * x - 3 * x).
Proof.
  unfold cheb_eval, tget. cbn [shp dat map indices flat_map seq app Rsum fold_right basis ravel_index prodn Nat.mul Nat.add nth].
  rewrite ?chebT_0, ?chebT_1, ?chebT_2. rewrite (chebT_SS 1 x), chebT_2, chebT_1. ring.
Qed.
(** the function is the cubic, shifted by its value at 0, so that 0 is a root *)
Example C01_case : let f := fun (_ : nat) x => cheb_eval cub x - cheb_eval cub [0] in
  externalsOK 1 (@ext1 R R_num) /\ squareSystem 1 [cub] [1] /\ sizesOK false [cub] /\
  errorBounds (quadraticChecksOn allOn 1) 1 f [cub] [1] /\ commonRoot 1 f [0] /\
  exists s, @solveChebyshevSubdivision R R_num (@ext1 R R_num) 10 allOn [cub] [1] = Ok s.
Proof.
  cbv zeta. split; [apply ext1_ok|]. split; [|split; [|split; [|split]]].
  - split; [lia|]. split; auto. split; auto. constructor; auto. split; [split; [reflexivity|repeat constructor]|reflexivity].
  - repeat constructor.
  - intros i Hi x Hx. assert (i = 0%nat) as -> by lia. cbn [nth quadraticChecksOn allOn defaultOpts olowq oallq Nat.leb andb orb].
    match goal with |- Rabs ?u < _ => replace u with (- cheb_eval cub [0]) by ring end.
    unfold cub, cubQ, tmap. cbn [map shp dat]. rewrite cheb_eval_4. unfold Q2R. cbn [Qnum Qden]. apply Rabs_def1; lra.
  - split; [split; [reflexivity|repeat constructor; lra]|]. intros i _. ring.
  - destruct cub_solved as (s & E & _). eauto.
Qed.

(** ** C03 *)
(** The reported points are grouped by box: there is one non-empty group per returned box, the groups
    in order are the reported roots, and every point lies in the final interval of its box, which is a
    box inside [-1,1]^n. *)
Theorem C03_roots_lie_in_their_boxes :
  forall (n : nat) (X : ext R) (fuel : nat) (o : opts) (Ms : list (tensor R)) (errors : list R) (sol : solution),
    externalsOK n X -> squareSystem n Ms errors -> sizesOK (oexact o) Ms ->
    @solveChebyshevSubdivision R R_num X fuel o Ms errors = Ok sol ->
    (forall t, In t (sBoxes sol) -> length (@getFinalInterval R R_num t) = n /\
       Forall (fun p => -1 <= fst p /\ fst p <= snd p /\ snd p <= 1) (@getFinalInterval R R_num t)) /\
    exists groups : list (list (list R)), concat groups = sRoots sol /\
      Forall2 (fun t g => g <> [] /\ Forall (fun r => inBox (@getFinalInterval R R_num t) r) g) (sBoxes sol) groups.
Proof.
  intros n X fuel o Ms errors sol HX Hsq Hsz Hs.
  destruct (solve_good X n o fuel Ms errors sol HX Hsq Hsz Hs) as (i & e & -> & -> & G). destruct (G i e eq_refl) as [R1 _]. clear G Hs.
  assert (Hfin : forall t, In t (i ++ e) -> @getFinalInterval R R_num t = @finalBox R R_num (unitBox n) (bt t)).
  { intros t Ht. rewrite (final_cbox n), (cbox_final n) by apply (R1 t Ht). auto. }
  split.
  - intros t Ht. rewrite (Hfin t Ht). apply (final_sub_ok n (bt t)). apply bt_ok. apply (R1 t Ht).
  - exists (map (@rootsOf R R_num) (i ++ e)). split; [symmetry; apply flat_map_concat_map|].
    induction (i ++ e) as [|t l IH]; cbn [map]; constructor.
    + split; [apply rootsOf_ne|]. rewrite (Hfin t (or_introl eq_refl)). destruct (R1 t (or_introl eq_refl)). apply (rootsOf_in n); auto.
    + apply IH; intros u Hu; [apply R1|apply Hfin]; right; auto.
Qed.
Print Assumptions C03_roots_lie_in_their_boxes.
Example C03_case : externalsOK 1 (@ext1 R R_num) /\ squareSystem 1 [cub] [1] /\ sizesOK false [cub] /\
  exists s, @solveChebyshevSubdivision R R_num (@ext1 R R_num) 10 allOn [cub] [1] = Ok s /\ length (sRoots s) = 2%nat /\ length (sBoxes s) = 1%nat.
Proof.
  destruct C01_case as (A & B & C & _). split; auto. split; auto. split; auto. destruct cub_solved as (s & E & H1 & H2 & _). eauto.
Qed.

(** ** C08, for the whole solver *)
(** With errors = 0 (a correct non-strict bound) and the default options the system 1 - T_3(x) = 0,
    y = 0 has the common root (1, 0), and the solver returns nothing, whatever the external routines do. *)
Theorem C08_solver_loses_root_refuted :
  exists (Ms : list (tensor R)) (errors : list R) (fs : nat -> list R -> R) (x : list R),
    squareSystem 2 Ms errors /\ sizesOK false Ms /\ errorBounds false 2 fs Ms errors /\ commonRoot 2 fs x /\
    forall (X : ext R) (fuel : nat),
      @solveChebyshevSubdivision R R_num X (S fuel) (defaultOpts false true true false) Ms errors = Ok (mkSol [] [] false false).
Proof.
  pose (A := mkT [4;1]%nat [1#1; 0#1; 0#1; -1#1]). pose (B := mkT [1;2]%nat [0#1; 1#1]).
  exists [tmap Q2R A; tmap Q2R B], [Q2R (0#1); Q2R (0#1)], (fun i => cheb_eval (nth i [tmap Q2R A; tmap Q2R B] noT)), [1; 0].
  split; [|split; [|split; [|split]]].
  - split; [lia|]. split; auto. split; auto. repeat constructor; cbn; lia.
  - repeat constructor.
  - intros i Hi x _. cbv zeta. rewrite Rminus_diag_eq by reflexivity. rewrite Rabs_R0. destruct i as [|[|i]]; [| |lia]; unfold Q2R; cbn; lra.
  - split; [split; [reflexivity|repeat constructor; lra]|]. intros i Hi. destruct i as [|[|i]]; [| |lia];
      unfold cheb_eval, tget, tmap, A, B; cbn [shp dat map indices flat_map seq app Rsum fold_right basis ravel_index prodn Nat.mul Nat.add nth].
    + rewrite ?chebT_0, ?chebT_1, ?chebT_2. rewrite (chebT_SS 1 1), chebT_2, chebT_1. unfold Q2R. cbn [Qnum Qden n0 R_num]. lra.
    + rewrite ?chebT_0, ?chebT_1. unfold Q2R. cbn [Qnum Qden n0 R_num]. lra.
  - intros X fuel. unfold solveChebyshevSubdivision. cbn [existsb ndim shp tmap A B length Nat.eqb negb orb]. cbn [solvePoly].
    set (Ms := [_; _]). set (es := [_; _]).
    match goal with |- context [isPoint ?u] => assert (E1 : isPoint u = false) end.
    { unfold isPoint. cbn [newInterval ivl repeat forallb andb fst snd]. rewrite nlit_R. rnum. apply andb_false_iff. left. apply Rltb_false. rewrite Rabs_left; lra. }
    rewrite E1. cbn [defaultOpts occheck].
    assert (E2 : @constantCheck R R_num Ms es = false).
    { change Ms with (map (tmap Q2R) [A; B]). change es with (map Q2R [0#1; 0#1]). rewrite <- (h_const (NA := Q_num) (h := Q2R)). vm_compute. reflexivity. }
    rewrite E2. cbn [andb].
    assert (E3 : quadCheck X (defaultOpts false true true false) Ms es = true).
    { unfold quadCheck. cbn [defaultOpts olowq oallq Ms nth ndim shp tmap A length Nat.leb andb orb existsb combine fst snd es]. apply orb_true_iff. left.
      unfold quadratic_check. cbn [ndim shp tmap length Nat.eqb andb negb A]. rewrite <- (h_quad2 (NA := Q_num) (h := Q2R)). vm_compute. reflexivity. }
    rewrite E3. reflexivity.
Qed.
Print Assumptions C08_solver_loses_root_refuted.

(** ** C26 *)
(** [constant_check] or a quadratic check discards the box on entry *)
Definition entryDiscards {T} {NT : Num T} (X : ext T) (o : opts) (Ms : list (tensor T)) (errors : list T) : bool :=
  (occheck o && constantCheck Ms errors) || quadCheck X o Ms errors.
(** In any arithmetic: a box that enters the final step, is not thrown-out-able, and passes the entry
    checks gives exactly one result, in the final step, with the same pre-final box. *)
Theorem C26_final_step_reports_the_box :
  forall (T : Type) (NT : Num T) (X : ext T) (fuel : nat) (o : opts) (level : nat) (Ms : list (tensor T)) (ti : tint T) (errors : list T)
         (interior exterior : list (tint T)),
    empt ti = false -> cthr ti = false -> entryDiscards X o Ms errors = false ->
    solvePoly X fuel o level Ms (startFinalStep ti) errors = Ok (interior, exterior) ->
    exists t, interior ++ exterior = [t] /\ fin t = true /\ preI t = ivl ti /\ preT t = trs ti.
Proof.
  intros T NT X fuel o level Ms ti errors i e He Hc Hd Hs. apply orb_false_iff in Hd.
  exact (proj2 (final_one X fuel o level Ms (startFinalStep ti) errors i e eq_refl He Hs) Hc (or_intror Hd)).
Qed.
Print Assumptions C26_final_step_reports_the_box.
(** Inside the final step nothing is ever reported twice: a box gives at most one result. *)
Theorem C26_final_step_at_most_one :
  forall (T : Type) (NT : Num T) (X : ext T) (fuel : nat) (o : opts) (level : nat) (Ms : list (tensor T)) (ti : tint T) (errors : list T)
         (interior exterior : list (tint T)),
    fin ti = true -> empt ti = false ->
    solvePoly X fuel o level Ms ti errors = Ok (interior, exterior) ->
    (length (interior ++ exterior) <= 1)%nat /\
    forall t, In t (interior ++ exterior) -> fin t = true /\ preI t = preI ti /\ preT t = preT ti.
Proof.
  intros T NT X fuel o level Ms ti errors i e Hf He Hs.
  destruct (final_one X fuel o level Ms ti errors i e Hf He Hs) as [[->|(t & -> & A)] _]; (split; [cbn; lia|]); [intros t []|]. intros u [<-|[]]. auto.
Qed.
Print Assumptions C26_final_step_at_most_one.
(** If the final step has to subdivide, the result is flagged as possibly extra when no child finds
    anything, and otherwise collects the distinct points its children found. *)
Theorem C26_final_step_flags :
  forall (T : Type) (NT : Num T) (X : ext T) (fuel : nat) (o : opts) (level : nat) (Ms : list (tensor T)) (ti : tint T) (errors : list T)
         (interior exterior : list (tint T)) M2 e2 t2 ch found,
    fin ti = true -> isPoint ti = false -> entryDiscards X o Ms errors = false ->
    (* the zooming ends without the stop flag *)
    (let '(M1, e1) := trimMs Ms errors in zoomLoop X fuel o M1 e1 (copyT ti) 0 (dimSize (copyT ti))) = Ok (Some (M2, e2, t2, false)) ->
    (* the children, and everything found in them *)
    getSubdivisionIntervals X (oexact o) M2 e2 (setCanThrow t2) (S level) = Ok ch ->
    runFlat (fun c => let '(M, e, t) := c in solvePoly X fuel o (S level) M t e) ch = Ok found ->
    solvePoly X (S fuel) o level Ms ti errors = Ok (interior, exterior) ->
    exists t, interior ++ exterior = [t] /\
      (found = [] -> extra t = true /\ dups t = dups ti) /\
      (found <> [] -> extra t = extra ti /\ dups t = dups ti ++ flat_map rootsOf (distinctResults found)).
Proof.
  intros T NT X fuel o level Ms ti errors i e M2 e2 t2 ch all Hf Hp Hd. apply orb_false_iff in Hd. intros Hz Hc Hr Hs.
  exact (final_flag X fuel o level Ms ti errors i e M2 e2 t2 ch all Hf Hp (proj1 Hd) (proj2 Hd) Hz Hc Hr Hs).
Qed.
Print Assumptions C26_final_step_flags.
(** 1.9 + T_1/20 + T_2 + T_3 has no root; the final step subdivides, finds nothing and flags the box *)
Example C26_case : let M := mkT [4%nat] [19#10; 1#20; 1#1; 1#1] in let ti := @newInterval Q Q_num [(-1#1, 1#1)] in
  empt ti = false /\ cthr ti = false /\ entryDiscards (NT := Q_num) (@ext1 Q Q_num) (defaultOpts false true false false) [M] [1#10] = false /\
  exists t, @solvePoly Q Q_num (@ext1 Q Q_num) 6 (defaultOpts false true false false) 0 [M] (startFinalStep ti) [1#10] = Ok ([], [t]) /\ extra t = true.
Proof. cbv zeta. split; [reflexivity|]. split; [reflexivity|]. split; [vm_compute; reflexivity|]. eexists. split; [vm_compute; reflexivity|reflexivity]. Qed.

(** ** C27 *)
Theorem C27_one_root_per_box_without_duplicates :
  forall (T : Type) (NT : Num T) (X : ext T) (fuel : nat) (o : opts) (Ms : list (tensor T)) (errors : list T) (sol : solution),
    solveChebyshevSubdivision X fuel o Ms errors = Ok sol ->
    (length (sBoxes sol) <= length (sRoots sol))%nat /\
    ((forall t, In t (sBoxes sol) -> dups t = []) -> sRoots sol = map getFinalPoint (sBoxes sol)).
Proof.
  intros T NT X fuel o Ms errors sol H. destruct (solve_result X fuel o Ms errors sol H) as (_ & A & B & _). auto.
Qed.
Print Assumptions C27_one_root_per_box_without_duplicates.
Theorem C27_one_root_per_box_refuted :
  exists (X : ext R) (o : opts) (M : tensor R) (error : R) (sol : solution),
    externalsOK 1 X /\ o = defaultOpts false true true true /\ squareSystem 1 [M] [error] /\ sizesOK false [M] /\
    @solveChebyshevSubdivision R R_num X 10 o [M] [error] = Ok sol /\
    length (sBoxes sol) = 1%nat /\ length (sRoots sol) = 2%nat.
Proof.
  destruct cub_solved as (s & E & H1 & H2 & _). destruct C01_case as (A & B & C & _).
  exists (@ext1 R R_num), allOn, cub, 1, s. repeat (split; auto).
Qed.
Print Assumptions C27_one_root_per_box_refuted.

(** ** C28 *)
Theorem C28_warnings_are_exact :
  forall (T : Type) (NT : Num T) (X : ext T) (fuel : nat) (o : opts) (Ms : list (tensor T)) (errors : list T) (sol : solution),
    solveChebyshevSubdivision X fuel o Ms errors = Ok sol ->
    (sExtra sol = true <-> exists t, In t (sBoxes sol) /\ extra t = true) /\
    (sDup sol = true <-> exists t, In t (sBoxes sol) /\ dups t <> []).
Proof.
  intros T NT X fuel o Ms errors sol H. destruct (solve_result X fuel o Ms errors sol H) as (_ & _ & _ & A & B). auto.
Qed.
Print Assumptions C28_warnings_are_exact.
Example C28_case : exists s, cubRun = Ok s /\ sDup s = true /\ sExtra s = false.
Proof. eexists. split; [vm_compute; reflexivity|]. vm_compute. auto. Qed.
