(** * Property theorems C117: an equation that visibly has no zero ends the search at once *)
From Coq Require Import List Arith Bool ZArith Reals Lra Lia.
From Verif Require Import Num RSum Cheb Tensor PolySpec IntervalModel IntervalProofs QuadNdFaces GaussExample LinearModel QuadSharpSpec SolverModel SharpProps PartProofs SystemSpec SolverProps
  CombinedModel CombinedSpec.
From Verif Require QuadModel.
From Coq Require Import List.
Import ListNotations.
Local Open Scope R_scope.

(** ** the sign of the low part cannot change without a zero *)
Lemma sum_continuous {A} (f : A -> R -> R) (l : list A) : (forall i, continuity (f i)) -> continuity (fun t => Rsum (map (fun i => f i t) l)).
Proof.
  intros H. induction l as [|i l IH]; cbn [map Rsum fold_right].
  - intros t. apply continuity_pt_const. intros ? ?; reflexivity.
  - intros t. apply (continuity_pt_plus (f i) (fun t => Rsum (map (fun i => f i t) l))); [apply H|apply IH].
Qed.
Lemma continuity_pt_ext (f g : R -> R) (t : R) : (forall s, f s = g s) -> continuity_pt f t -> continuity_pt g t.
Proof. intros E H eps He. destruct (H eps He) as (d & Hd & K). exists d. split; [exact Hd|]. intros s Hs. rewrite <- !E. apply K; auto. Qed.
Lemma chebT_continuous n (g : R -> R) : continuity g -> continuity (fun t => chebT n (g t)).
Proof.
  intros Hg. assert (H : continuity (fun t => chebT n (g t)) /\ continuity (fun t => chebT (S n) (g t))); [|apply H].
  induction n as [|n [IH1 IH2]].
  - split; [intros t; apply continuity_pt_const; intros ? ?; reflexivity|exact Hg].
  - split; [exact IH2|]. intros t. apply (continuity_pt_ext (fun t => 2 * g t * chebT (S n) (g t) - chebT n (g t))).
    + intros s. symmetry. apply chebT_SS.
    + apply (continuity_pt_minus (fun t => 2 * g t * chebT (S n) (g t))); [|apply IH1].
      apply (continuity_pt_mult (fun t => 2 * g t)); [|apply IH2]. apply (continuity_pt_scal g 2). apply Hg.
Qed.
Definition seg (x y : list R) (t : R) : list R := map (fun p => fst p + t * (snd p - fst p)) (combine x y).
Lemma basis_continuous i : forall x y, continuity (fun t => basis chebT i (seg x y t)).
Proof.
  induction i as [|k i IH]; intros [|u x] [|v y]; cbn; try (intros t; apply continuity_pt_const; intros ? ?; reflexivity).
  intros t. apply (continuity_pt_mult (fun t => chebT k (u + t * (v - u))) (fun t => basis chebT i (seg x y t))); [|apply IH].
  apply (chebT_continuous k (fun t => u + t * (v - u))). intros s. apply derivable_continuous_pt. reg.
Qed.
Lemma low_continuous M x y : continuity (fun t => lowPart M (seg x y t)).
Proof.
  unfold lowPart. apply (sum_continuous (fun i t => tget M i * basis chebT i (seg x y t))). intros i t.
  apply (continuity_pt_scal (fun t => basis chebT i (seg x y t))). apply basis_continuous.
Qed.
Lemma seg_cube n x y t : in_cube n x -> in_cube n y -> 0 <= t <= 1 -> in_cube n (seg x y t).
Proof.
  intros [Lx Hx] [Ly Hy] Ht. split; [unfold seg; rewrite map_length, combine_length; lia|].
  clear Lx Ly. revert y Hy. induction Hx as [|u x Hu Hx IH]; intros y Hy; [constructor|]. destruct Hy as [|v y Hv Hy]; [constructor|]. cbn. constructor; [|apply IH; auto]. cbn. nra.
Qed.
Lemma seg_0 x y : length x = length y -> seg x y 0 = x.
Proof. revert y; induction x as [|u x IH]; intros [|v y] H; try discriminate; cbn; auto. f_equal; [ring|apply IH; auto]. Qed.
Lemma seg_1 x y : length x = length y -> seg x y 1 = y.
Proof. revert y; induction x as [|u x IH]; intros [|v y] H; try discriminate; cbn; auto. f_equal; [ring|apply IH; auto]. Qed.

Lemma away_clears M tol : 0 < highSum M + tol -> (forall x, in_cube (ndim M) x -> highSum M + tol <= Rabs (lowPart M x)) -> clears (in_cube (ndim M)) M tol.
Proof.
  intros Hp H. set (n := ndim M) in *. set (s := highSum M + tol) in *.
  set (o := repeat 0 n). assert (Ho : in_cube n o) by (split; [apply repeat_length|apply Forall_forall; intros v Hv; apply repeat_spec in Hv; subst; lra]).
  assert (K : forall x y, in_cube n x -> in_cube n y -> lowPart M x < 0 -> 0 < lowPart M y -> False).
  { intros x y Hx Hy Nx Py. assert (L : length x = length y) by (destruct Hx, Hy; congruence).
    destruct (IVT (fun t => lowPart M (seg x y t)) 0 1) as (t & Ht & E); [apply low_continuous|lra|cbv beta; rewrite seg_0; auto|cbv beta; rewrite seg_1; auto|].
    specialize (H _ (seg_cube n x y t Hx Hy Ht)). rewrite E, Rabs_R0 in H. lra. }
  pose proof (H o Ho) as H0. destruct (Rlt_le_dec (lowPart M o) 0) as [N|N].
  - right. intros x Hx. specialize (H x Hx). destruct (Rlt_le_dec 0 (lowPart M x)) as [P|P]; [exfalso; apply (K o x); auto|]. rewrite Rabs_left1 in H by auto. unfold s in *. lra.
  - left. intros x Hx. specialize (H x Hx). destruct (Rlt_le_dec (lowPart M x) 0) as [P|P].
    + exfalso. apply (K x o); auto. rewrite Rabs_pos_eq in H0 by auto. lra.
    + rewrite Rabs_pos_eq in H by auto. exact H.
Qed.

(** ** the statements *)
(** neither the other coefficients nor the error can make up for the constant term *)
Definition constantDominates (M : tensor R) (e : R) : Prop :=
  let c := tget M (repeat 0%nat (ndim M)) in Rabs c > sumabs M - Rabs c + e.
(** everywhere on [-1,1]^n the terms of degree at most two are at least as far from 0 as the other coefficients and
    the error can reach ([lowPart], [highSum]: QuadSharpSpec.v) *)
Definition lowStaysAway (M : tensor R) (e : R) : Prop :=
  0 < highSum M + e /\ forall x, in_cube (ndim M) x -> highSum M + e <= Rabs (lowPart M x).

Lemma start_not_point n : (0 < n)%nat -> @isPoint R R_num (newInterval (repeat (- (1), 1) n)) = false.
Proof.
  intros H. destruct n as [|n]; [lia|]. unfold isPoint. cbn [newInterval ivl repeat forallb fst snd]. apply andb_false_iff. left. rewrite nlit_R. rnum. apply Rltb_false.
  rewrite Rabs_left; lra.
Qed.

(** The subdivision solver: whatever the other equations are, whatever the linear algebra routines answer (the
    quadratic check asks two of them in four and more variables), one such equation is enough. *)
Theorem C117_solver_returns_nothing :
  forall (n : nat) (X : ext R) (o : opts) (Ms : list (tensor R)) (errors : list R) (fuel : nat) (M : tensor R) (e : R),
    squareSystem n Ms errors -> In (M, e) (combine Ms errors) ->
    (occheck o = true /\ constantDominates M e) \/
    (quadraticChecksOn o n = true /\ sym_solver_ok n (xrank X) (xsolve X) /\ lowStaysAway M e) ->
    (1 <= fuel)%nat ->
    @solveChebyshevSubdivision R R_num X fuel o Ms errors = Ok (mkSol [] [] false false).
Proof.
  intros n X o Ms errors fuel M e (Hn & HM & He & HMs) HI HD Hf. destruct fuel as [|fuel]; [lia|].
  assert (HMI : wf M /\ ndim M = n) by (rewrite Forall_forall in HMs; apply HMs; apply in_combine_l in HI; auto). destruct HMI as [HW HN].
  unfold solveChebyshevSubdivision.
  assert (E1 : existsb (fun M => negb (ndim M =? length Ms)%nat) Ms = false).
  { apply not_true_iff_false. intros Q. apply existsb_exists in Q. destruct Q as (M' & I' & Q). rewrite Forall_forall in HMs. destruct (HMs _ I') as [_ W]. rewrite W, HM, Nat.eqb_refl in Q. discriminate. }
  rewrite E1, HM, He, Nat.eqb_refl. cbn [negb]. destruct Ms as [|M0 Ms]; [cbn in HM; lia|].
  assert (N0 : ndim M0 = n) by (inversion HMs as [|? ? [_ Q] _]; exact Q). rewrite N0. cbn [solvePoly].
  change (@nopp R R_num (@n1 R R_num)) with (- (1)). change (@n1 R R_num) with 1. rewrite start_not_point by auto.
  assert (HC : occheck o && @constantCheck R R_num (M0 :: Ms) errors = true \/ quadCheck X o (M0 :: Ms) errors = true).
  { destruct HD as [[Ho HD]|(Ho & HS & [HP HD])].
    - left. rewrite Ho. cbn [andb]. unfold constantCheck. apply existsb_exists. exists (M, e). split; auto. cbv zeta beta iota. unfold ngtb. rewrite tconst_R, tsumabs_R by auto. rnum.
      apply Rltb_true. unfold constantDominates in HD. cbv zeta in HD. unfold zidx. exact HD.
    - right. unfold quadCheck. cbn [nth]. rewrite N0. unfold quadraticChecksOn in Ho. rewrite Ho. cbn [andb]. apply existsb_exists. exists (M, e). split; auto. cbn [fst snd].
      rewrite <- HN in HS. apply (C94_quadratic_check_is_exact _ _ M e false HW HS). apply away_clears; auto. }
  destruct HC as [HC|HC]; rewrite HC; [reflexivity|]. destruct (occheck o && _); reflexivity.
Qed.
Print Assumptions C117_solver_returns_nothing.

(** A whole call solve(funcs, a, b), default options.  [approx] is whatever chebApproximate returns for the functions
    (for Multi* objects near [-1,1] it is not called).  One function whose approximation is as above, and the answer is
    "no roots" after one search, of the box given. *)
Theorem C117_solve_returns_nothing :
  forall (n : nat) (X : ext R) (approx : fobj R -> list R -> list R -> res (tensor R * R)) (exact : bool) (minSize : R) (sfuel fuel : nat)
         (funcs : list (fobj R)) (a b : boundArg R) (f : fobj R) (M : tensor R) (e : R),
    (0 < n)%nat -> length funcs = n -> ~ In NotCallable funcs -> ordered (boundOf n a) (boundOf n b) ->
    (forall g, In g funcs -> exists Mg eg, approxFor approx g (boundOf n a) (boundOf n b) = Ok (Mg, eg) /\ wf Mg /\ ndim Mg = n) ->
    In f funcs -> approxFor approx f (boundOf n a) (boundOf n b) = Ok (M, e) ->
    constantDominates M e \/ ((n <= 3)%nat /\ sym_solver_ok n (xrank X) (xsolve X) /\ lowStaysAway M e) ->
    (1 <= sfuel)%nat -> (1 <= fuel)%nat ->
    @solveTop R R_num X approx exact minSize sfuel fuel (FMany funcs) a b = COk (mkOut [] [] [(boundOf n a, boundOf n b)]).
Proof.
  intros n X approx exact minSize sfuel fuel funcs a b f M e Hn Hl HC HO HA HI HF HD Hs Hf. unfold solveTop. rewrite Hl.
  set (a' := boundOf n a) in *. set (b' := boundOf n b) in *. destruct fuel as [|fuel]; [lia|]. cbn [csolve].
  assert (E1 : existsb (fun g : fobj R => match g with NotCallable => true | _ => false end) funcs = false).
  { apply not_true_iff_false. intros Q. apply existsb_exists in Q. destruct Q as (g & Ig & Q). destruct g; try discriminate. contradiction. }
  destruct HO as [LO HO]. rewrite E1, LO, Nat.eqb_refl. cbn [negb].
  assert (E2 : existsb (fun p : R * R => @nltb R R_num (snd p) (fst p)) (combine a' b') = false).
  { apply not_true_iff_false. intros Q. apply existsb_exists in Q. destruct Q as (p & Ip & Q). rnum. apply Rltb_true in Q. rewrite Forall_forall in HO. specialize (HO p Ip). lra. }
  rewrite E2.
  assert (E3 : exists ps, approxAll approx funcs a' b' = Ok ps /\ length ps = length funcs /\ Forall (fun p => wf (fst p) /\ ndim (fst p) = n) ps /\ In (M, e) ps).
  { clear - HA HI HF. revert HI. assert (G : exists ps, approxAll approx funcs a' b' = Ok ps /\ length ps = length funcs /\ Forall (fun p => wf (fst p) /\ ndim (fst p) = n) ps /\ (In f funcs -> In (M, e) ps)).
    { induction funcs as [|g l IH]; [exists []; cbn; auto|]. destruct IH as (ps & I1 & I2 & I3 & I4); [intros; apply HA; cbn; auto|].
      destruct (HA g (or_introl eq_refl)) as (Mg & eg & Q1 & Q2 & Q3). exists ((Mg, eg) :: ps). cbn [approxAll]. rewrite Q1. cbn [bindR]. rewrite I1. cbn [bindR length].
      split; auto. split; [lia|]. split; [constructor; auto|]. intros [<-|Q]; [left; congruence|right; auto]. }
    destruct G as (ps & ? & ? & ? & ?). eauto 6. }
  destruct E3 as (ps & P1 & P2 & P3 & P4). rewrite P1. cbn [ofRes cbind].
  rewrite (C117_solver_returns_nothing n X _ (map fst ps) (map snd ps) sfuel M e); auto.
  - split; [auto|]. rewrite !map_length. split; [lia|]. split; [lia|]. apply Forall_map. exact P3.
  - clear - P4. induction ps as [|[M' e'] ps IH]; [destruct P4|]. cbn. destruct P4 as [Q|Q]; [left; congruence|right; auto].
  - destruct HD as [HD|(H3 & HS & HD)]; [left; split; [reflexivity|exact HD]|right]. split; [|split; auto]. unfold quadraticChecksOn, defaultOpts. cbn [olowq oallq]. cbn [andb].
    apply orb_true_iff. left. apply Nat.leb_le. exact H3.
Qed.
Print Assumptions C117_solve_returns_nothing.

(** 1 + (x + y)^2 and x - y on [-1,1]^2, each with the error 1/100: the constant term 2 does not dominate, but the first
    function stays away from 0.  3 + x + y on [-1,1]^2 is a case for the constant term. *)
Definition bowl : tensor R := mkT [3; 3]%nat [2; 0; 1/2; 0; 2; 0; 1/2; 0; 0].
Definition diff2 : tensor R := mkT [2; 2]%nat [0; -1; 1; 0].
Definition tilted : tensor R := mkT [2; 2]%nat [3; 1; 1; 0].
Lemma bowl_low x y : lowPart bowl [x; y] = 1 + (x + y) * (x + y).
Proof. unfold lowPart. cbn. rewrite ?chebT_0, ?chebT_1, ?chebT_2. unfold tget. cbn. field. Qed.
Lemma bowl_high : highSum bowl = 0.
Proof. unfold highSum. cbn. unfold tget. cbn. rewrite Rabs_R0. ring. Qed.
Example C117_example : squareSystem 2 [bowl; diff2] [/ 100; / 100] /\ lowStaysAway bowl (/ 100) /\ ~ constantDominates bowl (/ 100) /\
  squareSystem 2 [diff2; tilted] [/ 100; / 100] /\ constantDominates tilted (/ 100) /\
  (exists X : ext R, sym_solver_ok 2 (xrank X) (xsolve X)) /\
  ordered (boundOf 2 (BScalar (-1))) (boundOf 2 (BScalar 1)) /\
  exists approx : fobj R -> list R -> list R -> res (tensor R * R),
    approxFor approx (MCheb bowl) (boundOf 2 (BScalar 0)) (boundOf 2 (BScalar 1)) = Ok (bowl, / 100).
Proof.
  assert (R0 : Rabs 0 = 0) by apply Rabs_R0.
  assert (R1 : Rabs 1 = 1) by (apply Rabs_pos_eq; lra). assert (R2 : Rabs 2 = 2) by (apply Rabs_pos_eq; lra). assert (R3 : Rabs 3 = 3) by (apply Rabs_pos_eq; lra).
  assert (Rh : Rabs (1 / 2) = 1 / 2) by (apply Rabs_pos_eq; lra).
  assert (SQ : forall A B : tensor R, wf A -> ndim A = 2%nat -> wf B -> ndim B = 2%nat -> squareSystem 2 [A; B] [/ 100; / 100]).
  { intros A B W1 N1 W2 N2. split; [lia|]. split; [reflexivity|]. split; [reflexivity|]. repeat constructor; auto; try apply W1; try apply W2. }
  assert (W1 : wf bowl) by (split; [reflexivity|repeat constructor]). assert (W2 : wf diff2) by (split; [reflexivity|repeat constructor]). assert (W3 : wf tilted) by (split; [reflexivity|repeat constructor]).
  split; [apply SQ; auto|]. split; [|split; [|split; [apply SQ; auto|split; [|split; [|split]]]]].
  - split; [rewrite bowl_high; lra|]. intros x [Hl Hx]. destruct x as [|x [|y [|? ?]]]; try discriminate. rewrite bowl_low, bowl_high.
    pose proof (Rle_0_sqr (x + y)) as Q. unfold Rsqr in Q. rewrite Rabs_pos_eq; lra.
  - unfold constantDominates, sumabs, bowl. cbn. unfold tget. cbn. rewrite ?R0, ?R2, ?Rh. lra.
  - unfold constantDominates, sumabs, tilted. cbn. unfold tget. cbn. rewrite ?R0, ?R1, ?R3. lra.
  - exists (mkExt (fun _ => ([], [], [])) (@gauss_rank R R_num) (@gauss_solve R R_num) (fun l => l) (fun l => l)). apply gauss_ok.
  - split; [reflexivity|]. repeat constructor; cbn; lra.
  - exists (fun _ _ _ => Ok (bowl, / 100)). cbn [approxFor]. unfold nearUnit. destruct (forallb _ _ && _) eqn:E; [exfalso|reflexivity].
    apply andb_true_iff in E. destruct E as [E _]. cbn [boundOf repeat forallb] in E. apply andb_true_iff in E. destruct E as [E _]. unfold close1 in E. rewrite !nlit_R in E. rnum. apply Rleb_true in E.
    replace (0 - - (1)) with 1 in E by ring. rewrite Rabs_Ropp, R1 in E. lra.
Qed.
