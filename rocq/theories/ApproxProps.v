(** * Property theorems C32-C39, C61-C65: ChebyshevApproximator *)
From Coq Require Import List Arith Bool ZArith Reals Lra Lia.
From Coq Require PrimFloat Uint63.
From Verif Require Import Num RSum Cheb Tensor PolySpec IntervalModel IntervalProofs LinearModel SolverModel ExtExample SolverProps CombinedModel CombinedSpec
  ApproxModel ApproxDct ApproxInterp ApproxError ApproxDegree ApproxTerm ApproxPoly ApproxOne ApproxLoss ApproxCall.
From Verif Require PolyModel.
Import ListNotations.
Local Open Scope R_scope.

(** Vocabulary of the statements.
    - [boxPoint a b y] (CombinedSpec): the point of the box [a,b] at relative position y in [-1,1]^n;
    - [cosR m n] (ApproxDct) is cos(m pi / n); [rootR x k] (ApproxDegree) is x**(1/k) as numpy computes it;
    - [cheb_eval M y] (PolySpec): the value at y of the Chebyshev series with coefficients M;
    - [callAt f x] (ApproxModel): the value of a function object at x, as the approximator computes it
      (for polynomial objects equal to [valueOf f x], lemma callAt_value);
    - [seriesOn f a b P]: f on the box is the Chebyshev series P, which may have any number of terms. *)
Definition seriesOn (f : fobj R) (a b : list R) (P : tensor R) : Prop :=
  ndim P = length a /\ forall y, in_cube (length a) y -> callAt f (boxPoint a b y) = cheb_eval P y.
(** the coefficients, the sup norm and the final value of [degs] of interval_approximate_nd *)
Notation ivCoeffs f degs a b := (fst (fst (intervalApproximate cosR f degs a b))).
Notation ivDegs f degs a b := (snd (intervalApproximate cosR f degs a b)).

(** ** C32 *)
Theorem C32_transform_is_the_affine_map_onto : forall a b : R,
  @transformPt R R_num (-1) a b = a /\ @transformPt R R_num 1 a b = b /\
  (a <= b -> forall x y, x <= y -> @transformPt R R_num x a b <= @transformPt R R_num y a b) /\
  (a <= b -> forall v, a <= v <= b <-> exists x, -1 <= x <= 1 /\ @transformPt R R_num x a b = v) /\
  (a < b -> forall x y, @transformPt R R_num x a b = @transformPt R R_num y a b -> x = y).
Proof.
  intros a b. assert (E : forall x, @transformPt R R_num x a b = ((b - a) * x + (b + a)) / 2) by (intros; unfold transformPt; rnum; rewrite n2_R; reflexivity).
  repeat setoid_rewrite E. split; [field|]. split; [field|]. split; [|split].
  - intros H x y Hxy. nra.
  - intros H v. split.
    + intros Hv. destruct (Req_dec a b) as [Q|Q].
      * exists 0. split; [lra|]. subst. lra.
      * exists ((2 * v - (b + a)) / (b - a)). split; [|field; lra]. split.
        -- apply Rmult_le_reg_r with (b - a); [lra|]. unfold Rdiv. rewrite Rmult_assoc, Rinv_l by lra. lra.
        -- apply Rmult_le_reg_r with (b - a); [lra|]. unfold Rdiv. rewrite Rmult_assoc, Rinv_l by lra. lra.
    + intros (x & Hx & <-). nra.
  - intros H x y Q. nra.
Qed.
Print Assumptions C32_transform_is_the_affine_map_onto.
Example C32_case : (-2) < 4 /\ @transformPt R R_num (1 / 3) (-2) 4 = 2.
Proof. split; [lra|]. unfold transformPt. rnum. rewrite n2_R. field. Qed.

(** real arithmetic in which every result is rounded by [rnd] *)
Definition rounded (rnd : R -> R) : Num R := {|
  n0 := 0; n1 := 1; nadd := fun x y => rnd (x + y); nsub := fun x y => rnd (x - y); nmul := fun x y => rnd (x * y); ndiv := fun x y => rnd (x / y);
  nopp := Ropp; nabs := Rabs; nltb := Rltb; nleb := Rleb; neqb := Reqb; nlit := fun m d => rnd (IZR m / IZR (Zpos d)); npow2fl := Rpow2fl |}.
Theorem C32_transform_monotone_in_any_rounding : forall rnd : R -> R,
  (forall x y, x <= y -> rnd x <= rnd y) -> rnd 0 = 0 -> rnd 1 = 1 ->
  forall a b x y, a <= b -> x <= y -> @transformPt R (rounded rnd) x a b <= @transformPt R (rounded rnd) y a b.
Proof.
  intros rnd HM H0 H1 a b x y Hab Hxy. unfold transformPt. cbn [nadd nsub nmul ndiv rounded].
  set (two := @n2 R (rounded rnd)). assert (H2 : 1 <= two) by (unfold two, n2; cbn; rewrite <- H1 at 1; apply HM; lra).
  assert (HB : 0 <= rnd (b - a)) by (rewrite <- H0; apply HM; lra).
  apply HM. apply Rmult_le_compat_r; [left; apply Rinv_0_lt_compat; lra|]. apply HM. apply Rplus_le_compat_r. apply HM. apply Rmult_le_compat_l; auto.
Qed.
Print Assumptions C32_transform_monotone_in_any_rounding.
(** rounding to binary64 is such a rounding *)
Example C32_rounding_case : (forall x y, x <= y -> b64 x <= b64 y) /\ b64 0 = 0 /\ b64 1 = 1 /\ rounded b64 = B64_num.
Proof.
  split; [intros; apply Flocq.Core.Generic_fmt.round_le; [apply Flocq.Core.FLT.FLT_exp_valid; reflexivity|apply Flocq.Core.Generic_fmt.valid_rnd_N|auto]|].
  split; [apply Flocq.Core.Generic_fmt.round_0; apply Flocq.Core.Generic_fmt.valid_rnd_N|]. split; [|reflexivity].
  apply Flocq.Core.Generic_fmt.round_generic; [apply Flocq.Core.Generic_fmt.valid_rnd_N|].
  replace 1 with (Flocq.Core.Raux.bpow Flocq.Core.Zaux.radix2 0) by reflexivity. apply Flocq.Core.Generic_fmt.generic_format_bpow. compute. discriminate.
Qed.
(** In binary64 the lower end is not kept: on [1, 1e17] the point -1 is mapped to 0. *)
Theorem C32_transform_keeps_the_ends_refuted : exists a b : PrimFloat.float,
  PrimFloat.ltb a b = true /\ @transformPt _ F_num PrimFloat.one a b = b /\
  PrimFloat.ltb (@transformPt _ F_num (PrimFloat.opp PrimFloat.one) a b) a = true /\ @transformPt _ F_num (PrimFloat.opp PrimFloat.one) a b = PrimFloat.zero.
Proof. exists PrimFloat.one, (PrimFloat.of_uint63 (Uint63.of_Z 100000000000000000)). vm_compute. auto. Qed.
Print Assumptions C32_transform_keeps_the_ends_refuted.

(** ** C33 *)
Lemma fixDegs_max degs : fixDegs degs = map (Nat.max 1) degs.
Proof. unfold fixDegs. apply map_ext. intros [|d]; reflexivity. Qed.
Lemma box_upd a : forall b y cur v, exists w, boxPoint a b (upd y cur v) = upd (boxPoint a b y) cur w.
Proof.
  unfold boxPoint. induction a as [|p a IH]; intros b y cur v.
  - exists 0. cbn [combine]. destruct y as [|? y], cur; reflexivity.
  - destruct b as [|q b]; [exists 0; cbn [combine]; destruct y as [|? y], cur; reflexivity|].
    destruct y as [|u y]; [exists 0; destruct cur; reflexivity|].
    destruct cur as [|cur]; cbn [upd combine map fst snd]; [eexists; reflexivity|].
    destruct (IH b y cur v) as [w E]. exists w. f_equal. exact E.
Qed.
Lemma nodes_upd D : forall idx cur k, exists v, nodes D (upd idx cur k) = upd (nodes D idx) cur v.
Proof.
  unfold nodes. induction D as [|d D IH]; intros [|i idx] [|cur] k; cbn [upd combine map]; try (exists 0; reflexivity); [eexists; reflexivity|].
  destruct (IH idx cur k) as [v E]. exists v. f_equal. exact E.
Qed.
Lemma indep_zero degs : forall F : list nat -> R, (forall cur idx k, (cur < length degs)%nat -> nth cur degs 0%nat = 0%nat -> F (upd idx cur k) = F idx) -> indepZero degs F.
Proof.
  induction degs as [|d degs IH]; intros F H; cbn [indepZero]; auto. split.
  - intros -> j r _ _. apply (H 0%nat (0%nat :: r) j); [simpl; lia|reflexivity].
  - intros j _. apply IH. intros cur idx k Hc Hz. apply (H (S cur) (j :: idx) k); [simpl; lia|exact Hz].
Qed.
(** The grid of degree n in one coordinate is cos(k pi / n), k = 0..n; an entry 0 of [degs] means that the
    coordinate is sampled with degree 1, so f must not depend on it. *)
Theorem C33_interpolates_at_every_grid_point : forall (f : fobj R) degs a b idx,
  length a = length degs -> length b = length degs ->
  (forall d, (d < length degs)%nat -> nth d degs 0%nat = 0%nat -> forall x v, callAt f (upd x d v) = callAt f x) ->
  Forall2 (fun k n => (k <= Nat.max 1 n)%nat) idx degs ->
  let y := map (fun p => cos (INR (fst p) * PI / INR (Nat.max 1 (snd p)))) (combine idx degs) in
  shp (ivCoeffs f degs a b) = map S degs /\ wf (ivCoeffs f degs a b) /\
  cheb_eval (ivCoeffs f degs a b) y = callAt f (boxPoint a b y).
Proof.
  intros f degs a b idx Ha Hb Hz HI y. pose proof (interval_coeffs f degs a b) as H. destruct (intervalApproximate cosR f degs a b) as [[c s] d]. cbn [fst].
  destruct H as (_ & S & W & HK). split; auto. split; auto.
  assert (Ey : y = nodes (fixDegs degs) idx).
  { unfold y, nodes. rewrite fixDegs_max. clear. revert degs. induction idx; intros [|d degs]; cbn [combine map]; auto. f_equal; auto. }
  rewrite Ey, cheb_eval_sumidx, S.
  rewrite (sumidx_ext (map Datatypes.S degs) _ (fun K => allOps imat (fixDegs degs) (fun J => callAt f (gridPoint cosR (fixDegs degs) a b J)) K * basis chebT K (nodes (fixDegs degs) idx))) by (intros K HKr; rewrite HK by auto; reflexivity).
  rewrite interp_nodes; [rewrite gridPoint_box; reflexivity| |].
  - apply indep_zero. intros cur J k Hc Hn. rewrite !gridPoint_box. destruct (nodes_upd (fixDegs degs) J cur k) as [v ->].
    destruct (box_upd a b (nodes (fixDegs degs) J) cur v) as [w ->]. apply Hz; auto.
  - rewrite fixDegs_max, map_map. clear - HI. induction HI; cbn [map]; constructor; auto. lia.
Qed.
Print Assumptions C33_interpolates_at_every_grid_point.
Example C33_case : let f := Plain (fun x => exp (nth 0 x 0)) in
  (forall d, (d < 2)%nat -> nth d [3; 0]%nat 0%nat = 0%nat -> forall x v, callAt f (upd x d v) = callAt f x) /\
  Forall2 (fun k n => (k <= Nat.max 1 n)%nat) [2; 1]%nat [3; 0]%nat.
Proof.
  split; [|repeat constructor]. intros [|[|d]] Hd Hn x v; [discriminate| |lia]. cbn [callAt]. destruct x as [|? [|]]; reflexivity.
Qed.
(** A polynomial object is reproduced exactly, on every box, whatever lies outside the grid. *)
Theorem C33_reproduces_every_polynomial_of_these_degrees : forall n (f : fobj R) degs a b,
  polyObject n f -> length degs = n -> length a = n -> length b = n ->
  Forall2 (fun s d => (s <= S d)%nat) (objShape f) degs ->
  forall y, length y = n -> cheb_eval (ivCoeffs f degs a b) y = valueOf f (boxPoint a b y).
Proof.
  intros n f degs a b HO Hd Ha Hb HS y Hy. destruct (object_series n f a b HO Ha Hb) as (P & W & SP & HP).
  assert (ND : ndim P = length degs) by (unfold ndim; rewrite SP; apply (Forall2_length_eq _ _ _ HS)).
  pose proof (series_eval f degs a b P y ND ltac:(lia)) as E. destruct (intervalApproximate cosR f degs a b) as [[c s] d]. cbn [fst].
  rewrite E by (intros z [Hz _]; apply HP; lia). rewrite <- (callAt_value n) by (auto using boxPoint_length'). rewrite HP by auto. rewrite cheb_eval_sumidx.
  apply sumidx_ext. intros L HL. pose proof (Forall2_length_eq _ _ _ HL) as LL. unfold ndim in ND. rewrite ibasisL_within; [reflexivity|lia|lia|].
  rewrite SP in HL. clear - HL HS. unfold within. revert L HL. induction HS; intros L HL; inversion HL; subst; [reflexivity|]. cbn [combine forallb fst snd].
  rewrite IHHS by auto. rewrite andb_true_r. apply Nat.leb_le. lia.
Qed.
Print Assumptions C33_reproduces_every_polynomial_of_these_degrees.
Example C33_poly_case : let f := MPower (mkT [3; 2]%nat [1; 2; 3; 4; 5; 6]) in
  polyObject 2 f /\ Forall2 (fun s d => (s <= S d)%nat) (objShape f) [2; 1]%nat.
Proof. split; [|repeat constructor]. eexists. split; [|split; [|left; reflexivity]]; [split; [reflexivity|repeat constructor; lia]|reflexivity]. Qed.

(** ** C34 *)
Theorem C34_leaves_its_argument_alone_refuted : exists (f : fobj R) degs a b, ivDegs f degs a b <> degs.
Proof. exists (Plain (fun _ => 1)), [0%nat], [-1], [1]. discriminate. Qed.
Print Assumptions C34_leaves_its_argument_alone_refuted.
(** Exactly the zero entries are changed, to 1; the coefficients still have the shape asked for; and the
    error estimate computed from the changed degrees is at least the one for the degrees chosen. *)
Theorem C34_zero_degrees_become_one : forall (f : fobj R) degs a b,
  ivDegs f degs a b = map (Nat.max 1) degs /\
  (ivDegs f degs a b = degs <-> ~ In 0%nat degs) /\
  shp (ivCoeffs f degs a b) = map S degs /\
  forall eps rhos, length eps = length degs -> length rhos = length degs -> ratesBig rhos ->
    exists e e', getApproxError degs eps rhos = Some e /\ getApproxError (ivDegs f degs a b) eps rhos = Some e' /\ e <= e'.
Proof.
  intros f degs a b. pose proof (interval_coeffs f degs a b) as H. destruct (intervalApproximate cosR f degs a b) as [[c s] d]. cbn [fst snd].
  destruct H as (-> & S & _ & _). rewrite fixDegs_max. split; [reflexivity|]. split; [|split; auto].
  - clear. induction degs as [|[|d] degs IH]; cbn [map Nat.max In].
    + tauto.
    + split; [discriminate|tauto].
    + split.
      * intros H. injection H. intros Q [E|E]; [discriminate|]. apply IH in Q. contradiction.
      * intros H. f_equal. apply IH. tauto.
  - intros eps rhos He Hr HB. exists (errorFormula degs eps rhos), (errorFormula (map (Nat.max 1) degs) eps rhos).
    split; [apply getApproxError_R; auto using ratesBig_OK|]. split; [apply getApproxError_R; rewrite ?map_length; auto using ratesBig_OK|].
    apply errorFormula_mono; auto; clear.
    + induction degs; cbn [map]; constructor; auto. apply Nat.le_max_r.
    + induction eps; constructor; auto. lra.
Qed.
Print Assumptions C34_zero_degrees_become_one.
Example C34_case : ratesBig [Some 2; None] /\ map (Nat.max 1) [4; 0]%nat = [4; 1]%nat /\ errorFormula [4; 0]%nat [1; 0] [Some 2; None] < errorFormula [4; 1]%nat [1; 0] [Some 2; None].
Proof.
  split; [repeat constructor; lra|]. split; [reflexivity|]. unfold errorFormula. cbn [length boolLists map app filter existsb orb eprod emax efac]. unfold Rsum. cbn [map fold_right eprod emax efac INR].
  rewrite !(Rmax_left 1) by (rewrite ?Rmax_left; lra). rewrite ?Rmax_left by lra. lra.
Qed.

(** ** C35 *)
(** The documented sum: over every non-empty set S of dimensions, the product of 1/(rho_d - 1) over d in S and
    of (deg_d + 1) over d not in S, times the largest epsilon in S.  A rate that is infinite ([None])
    contributes a factor 0.  [boolLists n] lists all n-tuples of booleans. *)
Definition sumOverSets (degs : list nat) (eps : list R) (rhos : list (option R)) : R :=
  let n := length degs in
  let inS := fun S d => nth d S false in
  Rsum (map (fun S => Rprod (map (fun d => if inS S d then match nth d rhos None with Some r => 1 / (r - 1) | None => 0 end else INR (nth d degs 0%nat) + 1) (seq 0 n))
                      * fold_right Rmax 0 (map (fun d => if inS S d then nth d eps 0 else 0) (seq 0 n)))
        (filter (existsb (fun u => u)) (boolLists n))).
Lemma eprod_nth S : forall degs rhos, length S = length degs -> length rhos = length degs ->
  eprod S degs rhos = Rprod (map (fun d => if nth d S false then match nth d rhos None with Some r => 1 / (r - 1) | None => 0 end else INR (nth d degs 0%nat) + 1) (seq 0 (length degs))).
Proof.
  induction S as [|u S IH]; intros [|d degs] [|r rhos] H1 H2; simpl in H1, H2; try lia; [reflexivity|].
  cbn [eprod length seq map]. rewrite <- seq_shift, map_map. unfold Rprod. cbn [fold_right nth]. f_equal.
  - unfold efac. destruct u; auto. destruct r; auto. unfold Rdiv. ring.
  - apply IH; lia.
Qed.
Lemma emax_nth S : forall eps, length S = length eps -> emax S eps = fold_right Rmax 0 (map (fun d => if nth d S false then nth d eps 0 else 0) (seq 0 (length eps))).
Proof.
  induction S as [|u S IH]; intros [|e eps] H; simpl in H; try lia; [reflexivity|].
  cbn [emax length seq map fold_right nth]. rewrite <- seq_shift, map_map. cbn [nth]. rewrite <- IH by lia. destruct u; auto.
  rewrite Rmax_right; auto. apply emax_nonneg.
Qed.
Lemma errorFormula_sets degs eps rhos : length eps = length degs -> length rhos = length degs -> errorFormula degs eps rhos = sumOverSets degs eps rhos.
Proof.
  intros He Hr. unfold errorFormula, sumOverSets. apply Rsum_map_ext. intros S HS. apply filter_In in HS. destruct HS as [HS _]. apply boolLists_length in HS.
  rewrite eprod_nth, emax_nth by lia. rewrite He. reflexivity.
Qed.
Theorem C35_error_estimate_is_the_documented_sum : forall degs eps rhos,
  length eps = length degs -> length rhos = length degs -> ~ In (Some 1) rhos ->
  getApproxError degs eps rhos = Some (sumOverSets degs eps rhos).
Proof.
  intros degs eps rhos He Hr H1. rewrite getApproxError_R; auto; [rewrite errorFormula_sets; auto|].
  apply Forall_forall. intros x Hx ->. contradiction.
Qed.
Print Assumptions C35_error_estimate_is_the_documented_sum.
Example C35_case : ~ In (Some 1) [Some 3; Some 2] /\ sumOverSets [4; 6]%nat [1; 5] [Some 3; Some 2] = 1 * 5 * 5 + 1 / 2 * 7 * 1 + 1 / 2 * 1 * 5.
Proof.
  split; [intros [H|[H|[]]]; injection H; lra|]. rewrite <- errorFormula_sets by reflexivity. unfold errorFormula. cbn [length boolLists map app filter existsb orb eprod emax efac]. unfold Rsum. cbn [map fold_right eprod emax efac INR].
  rewrite !(Rmax_left _ 0) by lra. rewrite (Rmax_right 1 5) by lra. field.
Qed.
(** every rate is greater than 1 (or infinite) *)
Theorem C35_error_estimate_nonnegative_and_monotone : forall degs eps rhos,
  length eps = length degs -> length rhos = length degs -> ratesBig rhos ->
  exists e, getApproxError degs eps rhos = Some e /\ 0 <= e /\
  forall degs' eps', Forall2 Nat.le degs degs' -> Forall2 Rle eps eps' ->
    exists e', getApproxError degs' eps' rhos = Some e' /\ e <= e'.
Proof.
  intros degs eps rhos He Hr HB. exists (errorFormula degs eps rhos). split; [apply getApproxError_R; auto using ratesBig_OK|].
  split; [apply errorFormula_nonneg; auto|]. intros degs' eps' Hd Hp. exists (errorFormula degs' eps' rhos).
  pose proof (Forall2_length_eq _ _ _ Hd). pose proof (Forall2_length_eq _ _ _ Hp).
  split; [apply getApproxError_R; auto using ratesBig_OK; lia|]. apply errorFormula_mono; auto.
Qed.
Print Assumptions C35_error_estimate_nonnegative_and_monotone.
(** The size allowed for the coefficient at position L beyond the degrees: the largest epsilon of the
    coordinates in which L exceeds the degrees, divided by rho_d^(L_d - deg_d) for each of them. *)
Definition allowed (degs : list nat) (eps : list R) (rhos : list (option R)) (L : list nat) : R :=
  let n := length degs in
  let out := fun d => (nth d degs 0 <? nth d L 0)%nat in
  fold_right Rmax 0 (map (fun d => if out d then nth d eps 0 else 0) (seq 0 n))
  * Rprod (map (fun d => if out d then match nth d rhos None with Some r => / r ^ (nth d L 0 - nth d degs 0)%nat | None => 0 end else 1) (seq 0 n)).
(** sum of |coefficient| over the coefficients of P that exceed the degrees in some coordinate *)
Definition tailMass (degs : list nat) (P : tensor R) : R :=
  sumidx (shp P) (fun L => if existsb (fun d => (nth d degs 0 <? nth d L 0)%nat) (seq 0 (length degs)) then Rabs (tget P L) else 0).
Definition geometricTail (degs : list nat) (eps : list R) (rhos : list (option R)) (P : tensor R) : Prop :=
  forall L, inrange (shp P) L -> (exists d, (d < length degs)%nat /\ (nth d degs 0 < nth d L 0)%nat) -> Rabs (tget P L) <= allowed degs eps rhos L.
Lemma within_exists degs : forall L, length L = length degs -> within degs L = negb (existsb (fun d => (nth d degs 0 <? nth d L 0)%nat) (seq 0 (length degs))).
Proof.
  induction degs as [|d degs IH]; intros [|l L] H; simpl in H; try lia; [reflexivity|].
  unfold within. cbn [combine forallb fst snd length seq existsb]. fold (within degs L). rewrite IH by lia.
  rewrite <- seq_shift, negb_orb. assert (E : forall l, existsb (fun d0 => (nth d0 (d :: degs) 0 <? nth d0 (l :: L) 0)%nat) (map S (seq 0 (length degs))) = existsb (fun d => (nth d degs 0 <? nth d L 0)%nat) (seq 0 (length degs))).
  { intros l0. generalize (seq 0 (length degs)). clear. intros Q. induction Q as [|z q IQ]; cbn [map existsb]; [reflexivity|]. rewrite IQ. reflexivity. }
  rewrite E. cbn [nth]. f_equal. destruct (Nat.leb_spec l d), (Nat.ltb_spec d l); try lia; reflexivity.
Qed.
Lemma nth_beyond degs : forall L d, length L = length degs -> (d < length degs)%nat -> nth d (beyond degs L) false = (nth d degs 0 <? nth d L 0)%nat.
Proof.
  unfold beyond. induction degs as [|x degs IH]; intros [|l L] d H Hd; simpl in H, Hd; try lia. destruct d as [|d]; [reflexivity|].
  cbn [combine map nth]. apply IH; lia.
Qed.
Lemma decay_nth degs : forall L rhos, length L = length degs -> length rhos = length degs ->
  decay degs L rhos = Rprod (map (fun d => if (nth d degs 0 <? nth d L 0)%nat then match nth d rhos None with Some r => / r ^ (nth d L 0 - nth d degs 0)%nat | None => 0 end else 1) (seq 0 (length degs))).
Proof.
  induction degs as [|d degs IH]; intros [|l L] [|r rhos] HL Hr; simpl in HL, Hr; try lia; [reflexivity|].
  cbn [decay length seq map]. rewrite <- seq_shift, map_map. unfold Rprod. cbn [fold_right nth]. rewrite IH by lia. reflexivity.
Qed.
Lemma allowed_eq degs eps rhos L : length eps = length degs -> length rhos = length degs -> length L = length degs ->
  allowed degs eps rhos L = emax (beyond degs L) eps * decay degs L rhos.
Proof.
  intros He Hr HL. unfold allowed. rewrite decay_nth by auto. rewrite emax_nth by (unfold beyond; rewrite map_length, combine_length; lia). f_equal.
  f_equal. rewrite He. apply map_ext_in. intros d Hd. apply in_seq in Hd. rewrite nth_beyond by lia. reflexivity.
Qed.
Lemma tail_decays degs eps rhos P : ndim P = length degs -> length eps = length degs -> length rhos = length degs -> geometricTail degs eps rhos P -> decaysFrom degs eps rhos P.
Proof.
  intros HP He Hr H L HL HW. pose proof (Forall2_length_eq _ _ _ HL). unfold ndim in HP. rewrite <- allowed_eq by lia. apply H; auto.
  rewrite within_exists in HW by lia. apply negb_false_iff, existsb_exists in HW. destruct HW as (d & Hd & HW). apply in_seq in Hd. apply Nat.ltb_lt in HW. exists d. split; auto. lia.
Qed.
Lemma tailMass_eq degs P : ndim P = length degs -> tailMass degs P = neglected degs P.
Proof.
  intros HP. unfold tailMass, neglected. apply sumidx_ext. intros L HL. pose proof (Forall2_length_eq _ _ _ HL). unfold ndim in HP.
  rewrite within_exists by lia. destruct (existsb _ _); reflexivity.
Qed.
Theorem C35_error_estimate_bounds_the_neglected_coefficients : forall degs eps rhos (P : tensor R),
  ndim P = length degs -> length eps = length degs -> length rhos = length degs -> ratesBig rhos ->
  geometricTail degs eps rhos P ->
  exists e, getApproxError degs eps rhos = Some e /\ tailMass degs P <= e.
Proof.
  intros degs eps rhos P HP He Hr HB HG. exists (errorFormula degs eps rhos). split; [apply getApproxError_R; auto using ratesBig_OK|].
  rewrite tailMass_eq by auto. apply neglected_bound; auto. apply tail_decays; auto.
Qed.
Print Assumptions C35_error_estimate_bounds_the_neglected_coefficients.
Example C35_tail_case : let P := mkT [3; 3]%nat [9; 8; 1; 7; 6; 1; 1; 1; 1 / 2] in
  ratesBig [Some 2; Some 2] /\ geometricTail [1; 1]%nat [2; 2] [Some 2; Some 2] P /\ tailMass [1; 1]%nat P = 9 / 2.
Proof.
  split; [repeat constructor; lra|]. split.
  - intros L HL HX. rewrite allowed_eq by (try reflexivity; apply Forall2_length_eq in HL; exact HL).
    inversion HL as [|i ? r ? Hi Hr]; subst. inversion Hr as [|j ? r' ? Hj Hr']; subst. inversion Hr'; subst.
    destruct i as [|[|[|i]]]; destruct j as [|[|[|j]]]; try lia; try (exfalso; destruct HX as (d & Hd & HB); destruct d as [|[|d]]; cbn in Hd, HB; lia);
      cbn; rewrite ?Rabs_right by lra; unfold Rmax; repeat destruct (Rle_dec _ _); lra.
  - unfold tailMass. cbn. rewrite ?Rabs_right by lra. lra.
Qed.

(** ** C36 *)
(** Calls are written [chebApproximate cosR rootR accepts fuel f a b rel]: [accepts] tells which numbers of
    arguments a plain Python function takes, [fuel] bounds the doubling loop; the results below hold for every
    such table and every bound at least the one shown. *)
Theorem C36_reported_error_is_nonnegative_refuted : forall acc fuel rel c,
  let f := fun x : list R => c * nth 0 x 0 in
  0 < rel < 1 -> acc f 1%nat = true -> c <> 0 -> Rabs c < / 2 ^ 51 ->
  exists e, chebApproximate cosR rootR acc (S fuel) (Plain f) [-1] [1] rel = AOk (mkT [2%nat] [0; c], e) /\ e < - Rabs c.
Proof.
  intros acc fuel rel c f Hr Ha Hc Hs. replace (/ 2 ^ 51) with (/ 2251799813685248) in Hs by (f_equal; simpl; lra).
  exists (eTiny c). split; [apply (approx_tiny acc fuel rel c); auto|apply eTiny_neg; auto].
Qed.
Print Assumptions C36_reported_error_is_nonnegative_refuted.
(** ... and the negative error makes solve() return no root although x = 0 is one: *)
Theorem C36_solve_keeps_the_root_refuted : forall X acc exact minSize sfuel fa fuel c,
  let f := fun x : list R => c * nth 0 x 0 in
  acc f 1%nat = true -> c <> 0 -> Rabs c < / 2 ^ 51 ->
  csolve X (approxOf cosR rootR acc (S fa)) exact minSize (S sfuel) (S fuel) [Plain f] [-1] [1] = COk (mkOut [] [] [([-1], [1])]) /\
  commonZero [Plain f] [0].
Proof.
  intros X acc exact minSize sfuel fa fuel c f Ha Hc Hs. replace (/ 2 ^ 51) with (/ 2251799813685248) in Hs by (f_equal; simpl; lra).
  split; [apply (solve_tiny X acc exact minSize sfuel fa fuel c); auto|]. intros g [<-|[]]. cbn. unfold f. cbn. ring.
Qed.
Print Assumptions C36_solve_keeps_the_root_refuted.
Example C36_case : exists (acc : (list R -> R) -> nat -> bool) c, acc (fun x => c * nth 0 x 0) 1%nat = true /\ c <> 0 /\ Rabs c < / 2 ^ 51.
Proof. exists (fun _ _ => true), (/ 2 ^ 52). assert (0 < / 2 ^ 52) by (apply Rinv_0_lt_compat, pow_lt; lra). split; auto. split; [lra|]. rewrite Rabs_right by lra. apply Rinv_lt_contravar; [apply Rmult_lt_0_compat; apply pow_lt; lra|]. simpl. lra. Qed.

(** ** C37 *)
(** The convergence test makes the last quarter of the coefficients negligible: its largest entry, at least machine
    epsilon 2^-52, doubled, is the level [eps] below which coefficients are dropped. *)
Theorem C37_degree_selection_keeps_every_significant_coefficient : forall coeff tol, coeff <> [] ->
  let '(deg, eps, rho) := getFinalDegree rootR coeff tol in
  let N := length coeff in
  (deg < N)%nat /\
  (deg = 0%nat <-> forall i, (1 <= i < N)%nat -> nth i coeff 0 < tol) /\
  (deg <> 0%nat -> forall i, (deg < i < N)%nat -> nth i coeff 0 <= eps) /\
  ((2 <= deg)%nat -> eps < nth deg coeff 0) /\
  (2 / 2 ^ 52 <= eps /\ (forall i, (3 * (N - 1) / 4 <= i < N)%nat -> 2 * nth i coeff 0 <= eps) /\
   (eps = 2 / 2 ^ 52 \/ exists i, (3 * (N - 1) / 4 <= i < N)%nat /\ eps = 2 * nth i coeff 0)).
Proof.
  intros coeff tol Hc. pose proof (deg_lt coeff tol Hc) as H1. pose proof (deg_zero coeff tol Hc) as H2. pose proof (deg_above coeff tol) as H3. pose proof (deg_big coeff tol) as H4.
  pose proof (final_eps coeff tol) as H5. pose proof (eps_tail coeff tol) as H6. pose proof (eps_attained coeff tol Hc) as H7.
  destruct (getFinalDegree rootR coeff tol) as [[deg eps] rho]. cbn [fst snd] in *.
  assert (E : 2 / 2 ^ 52 = 2 * / 4503599627370496) by (unfold Rdiv; f_equal; f_equal; simpl; lra).
  rewrite E. split; [exact H1|]. split; [exact H2|]. split; [intros; apply H3; auto|]. split; [exact H4|]. split; [|split; [intros; apply H6; auto|exact H7]].
  rewrite H5. apply Rmult_le_compat_l; [lra|]. apply Rmax_l.
Qed.
Print Assumptions C37_degree_selection_keeps_every_significant_coefficient.
(** the rate: the largest coefficient decays to eps one step after the degree *)
Theorem C37_rate_reaches_epsilon : forall coeff tol, coeff <> [] -> let '(deg, eps, rho) := getFinalDegree rootR coeff tol in
  exists m, (m < length coeff)%nat /\ (forall i, (i < length coeff)%nat -> nth i coeff 0 <= nth m coeff 0) /\
    (0 < nth m coeff 0 -> (m <= deg)%nat -> exists r, rho = Some r /\ 0 < r /\ nth m coeff 0 / r ^ (deg - m + 1) = eps).
Proof.
  intros coeff tol Hc. pose proof (rho_decay coeff tol) as HR. destruct (argmax_spec coeff Hc) as (A1 & A2 & _).
  destruct (getFinalDegree rootR coeff tol) as [[deg eps] rho]. cbn [fst snd] in *. exists (argmax coeff). split; auto. split; auto.
  intros Hp Hm. destruct (HR Hp Hm) as (r & E & Hr & Q). exists r. split; auto. split; auto. rewrite <- Q. field. apply pow_nonzero. lra.
Qed.
Print Assumptions C37_rate_reaches_epsilon.
Example C37_case : [1; 1 / 2; 1 / 4; 0; 0; 0; 0; 0] <> [] /\ fst (fst (getFinalDegree rootR [1; 1 / 2; 1 / 4; 0; 0; 0; 0; 0] (1 / 100))) = 2%nat.
Proof.
  split; [discriminate|]. pose proof (C37_degree_selection_keeps_every_significant_coefficient [1; 1 / 2; 1 / 4; 0; 0; 0; 0; 0] (1 / 100) ltac:(discriminate)) as H.
  destruct (getFinalDegree _ _ _) as [[deg eps] rho]. cbn [fst snd length] in *. destruct H as (H1 & H2 & H3 & H4 & H5 & _ & H7).
  assert (He : 0 < eps < 1 / 1000).
  { assert (0 < / 2 ^ 52) by (apply Rinv_0_lt_compat, pow_lt; lra). assert (B : 1000000 < 2 ^ 52) by (simpl; lra). apply Rinv_lt_contravar in B; [|apply Rmult_lt_0_compat; lra].
    assert (eps = 2 / 2 ^ 52); [|lra]. destruct H7 as [H7|(i & Hi & H7)]; auto. exfalso. change (3 * (8 - 1) / 4)%nat with 5%nat in Hi.
    assert (nth i [1; 1 / 2; 1 / 4; 0; 0; 0; 0; 0] 0 = 0) by (destruct i as [|[|[|[|[|[|[|[|i]]]]]]]]; try lia; reflexivity). lra. }
  destruct (Nat.eq_dec deg 0) as [Q|Q].
  - exfalso. pose proof (proj1 H2 Q 1%nat ltac:(lia)) as X. cbn in X. lra.
  - destruct (Nat.lt_trichotomy deg 2) as [L|[L|L]]; auto; exfalso.
    + specialize (H3 Q 2%nat ltac:(lia)). cbn in H3. lra.
    + specialize (H4 ltac:(lia)). destruct deg as [|[|[|[|[|[|[|[|i]]]]]]]]; try lia; cbn in H4; lra.
Qed.

(** ** C38 *)
Theorem C38_started_converging_means_the_last_five_are_small : forall coeff (tol : R),
  startedConverging coeff tol = true <-> forall i, (length coeff <= i + 5)%nat -> (i < length coeff)%nat -> nth i coeff 0 < tol.
Proof. intros. rewrite started_iff. split; intros H i; [intros; apply H; lia|intros; apply H; lia]. Qed.
Print Assumptions C38_started_converging_means_the_last_five_are_small.
(** the entry of t at idx, 0 outside its shape *)
Definition padded (t : tensor R) (idx : list nat) : R := if forallb (fun p => (fst p <? snd p)%nat) (combine idx (shp t)) then tget t idx else 0.
Theorem C38_has_converged_means_all_differences_are_small : forall (c c2 : tensor R) tol, wf c2 -> ndim c = ndim c2 ->
  (hasConverged c c2 tol = true <-> forall idx, inrange (shp c2) idx -> Rabs (tget c2 idx - padded c idx) < tol).
Proof.
  intros c c2 tol [_ W] HN. rewrite converged_iff by auto.
  assert (E : forall idx, inrange (shp c2) idx -> coefOr0 c idx = padded c idx).
  { intros idx HI. unfold coefOr0, padded. apply Forall2_length_eq in HI. unfold ndim in HN. rewrite <- HN in HI.
    assert (Q : PolyModel.inrangeb (shp c) idx = forallb (fun p => (fst p <? snd p)%nat) (combine idx (shp c))); [|rewrite Q; reflexivity].
    revert HI. generalize (shp c). clear. intros s. revert s. induction idx as [|i idx IH]; intros [|n s] H; simpl in H; try lia; [reflexivity|].
    cbn [PolyModel.inrangeb combine forallb fst snd]. rewrite IH by lia. reflexivity. }
  split; intros H idx HI; [rewrite <- E by auto|rewrite E by auto]; auto.
Qed.
Print Assumptions C38_has_converged_means_all_differences_are_small.
Example C38_case : startedConverging [5; 0; 0; 0; 0; 0] (1 / 10) = true /\ startedConverging [0; 5; 0; 0; 0; 0] (1 / 10) = false /\
  hasConverged (mkT [2%nat] [1; 2]) (mkT [3%nat] [1; 2; 1 / 100]) (1 / 10) = true /\ hasConverged (mkT [2%nat] [1; 2]) (mkT [3%nat] [1; 2; 1]) (1 / 10) = false.
Proof.
  split; [|split; [|split]].
  - apply C38_started_converging_means_the_last_five_are_small. cbn [length]. intros [|[|[|[|[|[|i]]]]]] H1 H2; try lia; cbn; lra.
  - apply not_true_iff_false. rewrite C38_started_converging_means_the_last_five_are_small. cbn [length]. intros H. specialize (H 1%nat ltac:(lia) ltac:(lia)). cbn in H. lra.
  - apply C38_has_converged_means_all_differences_are_small; [split; [reflexivity|repeat constructor; lia]|reflexivity|]. intros idx HI.
    inversion HI as [|i ? r ? Hi Hr]; subst. inversion Hr; subst. destruct i as [|[|[|i]]]; cbn in Hi; try lia; unfold padded; cbn; apply Rabs_def1; lra.
  - apply not_true_iff_false. rewrite C38_has_converged_means_all_differences_are_small; [|split; [reflexivity|repeat constructor; lia]|reflexivity]. intros H.
    assert (HI : inrange [3%nat] [2%nat]) by (constructor; [lia|constructor]). specialize (H _ HI). unfold padded in H. cbn in H. apply Rabs_def2 in H. lra.
Qed.

(** ** C39 *)
(** the two points of the box at which the test samples *)
Definition probeA (a b : list R) : list R := boxPoint a b (map (fun v => (8984743990614998 / 10000000000000000) ^ (v + 1)) (seq 0 (length a))).
Definition probeB (a b : list R) : list R :=
  boxPoint a b (map (fun v => (-2598647169391334 / 10000000000000000 * INR (v + 1) / INR (length a)) ^ 2) (seq 0 (length a))).
Lemma zip_box (y a b : list R) : zip3 transformPt y a b = boxPoint a b y.
Proof. unfold boxPoint, zip3. apply map_ext. intros [x [u v]]. unfold transformPt. rnum. rewrite n2_R. reflexivity. Qed.
Theorem C39_independent_coordinate_is_reported_constant : forall (f : fobj R) a b d rel, 0 <= rel ->
  (forall x v, callAt f (upd x d v) = callAt f x) -> callAt f (probeA a b) <> 0 -> callAt f (probeB a b) <> 0 ->
  checkConstantInDimension f a b d rel 0 = true.
Proof.
  intros f a b d rel Hr Hi HA HB. unfold checkConstantInDimension. apply andb_true_intro. rewrite !zip_box.
  split; apply constAlong_indep; auto.
  intros E. apply HB. rewrite <- E. unfold probeB, probe2. apply (f_equal (fun z => callAt f (boxPoint a b z))). apply map_ext. intros v. symmetry. etransitivity; [apply npow_R|]. rewrite nlit_R, !nofnat_R. rnum. reflexivity.
Qed.
Print Assumptions C39_independent_coordinate_is_reported_constant.
Example C39_case : let f := Plain (fun x => exp (nth 0 x 0)) in (forall x v, callAt f (upd x 1 v) = callAt f x) /\ callAt f (probeA [0; 0] [1; 1]) <> 0 /\ callAt f (probeB [0; 0] [1; 1]) <> 0.
Proof.
  cbn [callAt]. split; [|split]; [intros [|? [|? ?]] v; reflexivity| |]; pose proof exp_pos as E; intros Q; match type of Q with exp ?t = 0 => specialize (E t) end; lra.
Qed.
(** a function with the root 1/2 that is not constant but is reported constant, for every tolerance *)
Theorem C39_reported_constant_means_constant_refuted : exists f : list R -> R,
  (forall rel, 0 <= rel -> checkConstantInDimension (Plain f) [-1] [1] 0 rel 0 = true) /\ f [1 / 2] = 0 /\ f [0] = 1 /\
  (forall acc fuel rel, 0 <= rel -> acc f 1%nat = true -> chebApproximate cosR rootR acc fuel (Plain f) [-1] [1] rel = AOk (mkT [1%nat] [1], 0)).
Proof.
  exists spike. split; [apply spike_const|]. split; [apply spike_zero|]. split; [|apply approx_spike].
  apply spike_probe. rewrite <- (transform_unit 0). apply in_probes. apply in_or_app. right. apply in_or_app. left. cbn [steps1 In]. change (@n0 R R_num) with 0. tauto.
Qed.
Print Assumptions C39_reported_constant_means_constant_refuted.
Theorem C39_solve_keeps_the_root_refuted : exists f : list R -> R, commonZero [Plain f] [1 / 2] /\
  forall X acc exact minSize sfuel fa fuel, acc f 1%nat = true ->
    csolve X (approxOf cosR rootR acc fa) exact minSize (S sfuel) (S fuel) [Plain f] [-1] [1] = COk (mkOut [] [] [([-1], [1])]).
Proof. exists spike. split; [intros g [<-|[]]; apply spike_zero|intros; apply solve_spike; auto]. Qed.
Print Assumptions C39_solve_keeps_the_root_refuted.

(** ** C61 *)
Lemma value_plain (g : list R -> R) x : valueOf (Plain g) x = g x.
Proof. reflexivity. Qed.
(** T_33 on [-1,1]: on the grids of degree 8 and 17 it cannot be told from x, so it is approximated by x, with a
    tiny error, ... *)
Theorem C61_reported_error_bounds_the_error_refuted : exists f : list R -> R, (forall x, f x = chebT 33 (nth 0 x 0)) /\ forall acc fuel rel, 0 < rel < 1 -> acc f 1%nat = true ->
  exists M e, chebApproximate cosR rootR acc (S fuel) (Plain f) [-1] [1] rel = AOk (M, e) /\ (forall y, cheb_eval M [y] = y) /\ 0 < e < / 10 ^ 30 /\
    exists y, -1 <= y <= 1 /\ Rabs (f (boxPoint [-1] [1] [y]) - cheb_eval M [y]) = sqrt 3 / 2.
Proof.
  exists T33. split; [apply chebF_eq|]. intros acc fuel rel Hr Ha. exists (mkT [2%nat] [0; 1]), e33. split; [apply (approx_T33 acc fuel rel); auto|].
  assert (HE : forall y, cheb_eval (mkT [2%nat] [0; 1]) [y] = y) by (intros y; unfold cheb_eval; cbn; ring).
  split; [exact HE|]. split.
  - unfold e33, Rdiv. rewrite <- Rinv_mult. split; [apply Rinv_0_lt_compat; lra|]. apply Rinv_lt_contravar; [apply Rmult_lt_0_compat; simpl; lra|simpl; lra].
  - assert (S3 : 0 <= sqrt 3 <= 2). { split; [apply sqrt_pos|]. rewrite <- (sqrt_square 2) by lra. apply sqrt_le_1; lra. }
    exists (sqrt 3 / 2). split; [lra|]. rewrite HE, unit_point. rewrite T33_zero.
    rewrite Rminus_0_l, Rabs_Ropp, Rabs_right; lra.
Qed.
Print Assumptions C61_reported_error_bounds_the_error_refuted.
(** ... and solve() then reports one box only, around 0, and none of the other 32 roots, such as sqrt 3 / 2. *)
Theorem C61_solve_finds_the_roots_refuted : exists f : list R -> R, (forall x, f x = chebT 33 (nth 0 x 0)) /\ forall acc fa fuel,
  acc f 1%nat = true ->
  exists r B, csolve ext1 (approxOf cosR rootR acc (S fa)) false (1 / 100000) 50 (S fuel) [Plain f] [-1] [1] = COk (mkOut [[r]] [B] [([-1], [1])]) /\
    commonZero [Plain f] [sqrt 3 / 2] /\ -1 <= sqrt 3 / 2 <= 1 /\ ~ inBox B [sqrt 3 / 2].
Proof.
  exists T33. split; [apply chebF_eq|]. intros acc fa fuel Ha. destruct (solve_T33 acc fa fuel Ha) as (r & B & E & HB). exists r, B. split; [exact E|].
  split; [intros g [<-|[]]; rewrite value_plain; exact T33_zero|].
  assert (S3 : 1 < sqrt 3 <= 2). { split; [rewrite <- sqrt_1; apply sqrt_lt_1; lra|]. rewrite <- (sqrt_square 2) by lra. apply sqrt_le_1; lra. }
  split; [lra|]. intros HI. destruct (HB _ HI) as (v & Q & Hv). injection Q. intros <-. lra.
Qed.
Print Assumptions C61_solve_finds_the_roots_refuted.
Example C61_case : exists acc : (list R -> R) -> nat -> bool, forall f, acc f 1%nat = true /\ acc f 2%nat = false.
Proof. exists (fun _ n => (n =? 1)%nat). split; reflexivity. Qed.

(** ** C62 *)
Theorem C62_interpolation_error_is_twice_the_tail : forall (f : fobj R) degs a b P,
  length a = length degs -> seriesOn f a b P ->
  forall y, in_cube (length a) y -> Rabs (callAt f (boxPoint a b y) - cheb_eval (ivCoeffs f degs a b) y) <= 2 * tailMass degs P.
Proof.
  intros f degs a b P Ha [HP Hf] y Hy. rewrite tailMass_eq by lia. rewrite Ha in *. apply series_error; auto.
Qed.
Print Assumptions C62_interpolation_error_is_twice_the_tail.
(** The reported error, doubled, bounds the error when the coefficients decay as the degree search assumed. *)
Theorem C62_reported_error_bounds_half_the_error : forall acc fuel (f : fobj R) a b rel M e degs eps rhos P,
  chebApproximate cosR rootR acc fuel f a b rel = AOk (M, e) ->
  getChebyshevDegrees cosR rootR fuel f a b rel 0 = Some (degs, eps, rhos) -> ratesBig rhos ->
  seriesOn f a b P -> geometricTail degs eps rhos P ->
  forall y, in_cube (length a) y -> Rabs (callAt f (boxPoint a b y) - cheb_eval M y) <= 2 * e.
Proof.
  intros acc fuel f a b rel M e degs eps rhos P HC HG HB HS HT y Hy. apply call_ok in HC. destruct HC as (d' & e' & r' & HG' & -> & HE & L1 & L2 & L3 & L4).
  rewrite HG in HG'. injection HG'. intros <- <- <-. destruct HS as [HP Hf].
  eapply Rle_trans; [apply (C62_interpolation_error_is_twice_the_tail f degs a b P); auto; split; auto|].
  apply Rmult_le_compat_l; [lra|]. rewrite getApproxError_R in HE by (rewrite ?fixDegs_length; auto using ratesBig_OK; lia). injection HE. intros <-.
  rewrite tailMass_eq by lia. apply Rle_trans with (errorFormula degs eps rhos).
  - apply neglected_bound; auto; try lia. apply tail_decays; auto; lia.
  - rewrite fixDegs_max. apply errorFormula_mono; auto; clear.
    + induction degs; cbn [map]; constructor; auto. apply Nat.le_max_r.
    + induction eps; constructor; auto. lra.
Qed.
Print Assumptions C62_reported_error_bounds_half_the_error.
(** Without the factor 2 the claim is false, even with exactly this decay: x + T_2(x) / 2^102. *)
Theorem C62_reported_error_bounds_the_error_refuted : exists f P, forall acc fuel rel, 0 < rel <= 1 / 2 -> acc f 1%nat = true ->
  exists M e degs eps rhos, chebApproximate cosR rootR acc (S fuel) (Plain f) [-1] [1] rel = AOk (M, e) /\
  getChebyshevDegrees cosR rootR (S fuel) (Plain f) [-1] [1] rel 0 = Some (degs, eps, rhos) /\ ratesBig rhos /\
  seriesOn (Plain f) [-1] [1] P /\ geometricTail degs eps rhos P /\
  exists y, in_cube 1 y /\ e < Rabs (f (boxPoint [-1] [1] y) - cheb_eval M y).
Proof.
  exists bent, bentP. intros acc fuel rel Hr Ha. exists (mkT [2%nat] [bentC; 1]), e33, [1%nat], [/ 2251799813685248], [Some 2251799813685248].
  split; [apply bent_call; auto|]. split; [apply bent_facts; auto|]. split; [repeat constructor; lra|]. split; [|split].
  - split; [reflexivity|]. intros y [Hy _]. destruct y as [|v [|]]; try discriminate. cbn [callAt]. rewrite bent_box, bentP_eval. reflexivity.
  - intros L HL (d & Hd & HB). pose proof (Forall2_length_eq _ _ _ HL) as LL. rewrite allowed_eq by auto. apply bent_decay; auto.
    rewrite within_exists by auto. apply negb_false_iff, existsb_exists. exists d. split; [apply in_seq; cbn in *; lia|apply Nat.ltb_lt; auto].
  - exists [0]. split; [split; [reflexivity|repeat constructor; lra]|]. rewrite unit_point. apply bent_error.
Qed.
Print Assumptions C62_reported_error_bounds_the_error_refuted.
(** What solve() needs of the approximator (property C02): the coefficients, with any error above twice the tail, are an
    approximation in the sense of [closeOn]. *)
Theorem C62_approximation_meets_the_contract_of_solve : forall n (f : fobj R) degs a b P e,
  polyObject n f -> length degs = n -> length a = n -> length b = n -> Forall (fun d => (d <= 6)%nat) degs ->
  seriesOn f a b P -> 2 * tailMass degs P < e -> closeOn false n f a b (ivCoeffs f degs a b) e.
Proof.
  intros n f degs a b P e HO Hd Ha Hb H6 HS HE. pose proof (interval_coeffs f degs a b) as HI.
  pose proof (C62_interpolation_error_is_twice_the_tail f degs a b P ltac:(lia) HS) as HX.
  destruct (intervalApproximate cosR f degs a b) as [[c s] d]. cbn [fst] in *. destruct HI as (_ & HSh & W & _). split; [split; [auto|split]|].
  - unfold ndim. rewrite HSh, map_length. auto.
  - rewrite HSh. clear - H6. induction H6; cbn [map]; constructor; auto. lia.
  - intros y Hy. rewrite Ha in HX. specialize (HX y Hy). rewrite (callAt_value n) in HX by (auto; apply boxPoint_length'; auto; apply Hy).
    destruct (n <=? 3); lra.
Qed.
Print Assumptions C62_approximation_meets_the_contract_of_solve.
Example C62_case : let f := MCheb (mkT [3%nat] [0; 1; 1 / 100]) in
  polyObject 1 f /\ seriesOn f [-1] [1] (mkT [3%nat] [0; 1; 1 / 100]) /\ 2 * tailMass [1%nat] (mkT [3%nat] [0; 1; 1 / 100]) = 1 / 50.
Proof.
  assert (O : polyObject 1 (MCheb (mkT [3%nat] [0; 1; 1 / 100]))) by (eexists; split; [|split; [|right; reflexivity]]; [split; [reflexivity|repeat constructor; lia]|reflexivity]).
  split; [exact O|]. split.
  - split; [reflexivity|]. intros y [Hy _]. destruct y as [|v [|]]; try discriminate. rewrite unit_point. rewrite (callAt_value 1) by auto. reflexivity.
  - unfold tailMass. cbn. rewrite Rabs_right by lra. lra.
Qed.

(** ** C63 *)
(** A polynomial object whose value at the upper corner is not 0: the degree search ends. *)
Theorem C63_terminates_on_polynomials : forall acc n (f : fobj R) a b rel fuel,
  polyObject n f -> (1 <= n)%nat -> ordered a b -> length a = n -> valueOf f b <> 0 -> 0 < rel ->
  (forall s, In s (objShape f) -> (s + 6 <= fuel)%nat) ->
  chebApproximate cosR rootR acc fuel f a b rel <> AFuel.
Proof.
  intros acc n f a b rel fuel HO Hn Hab Ha Hv Hr Hf. assert (Hb : length b = n) by (destruct Hab; lia). destruct (object_series n f a b HO Ha Hb) as (P & W & SP & HP).
  rewrite call_right; try lia; try (apply ordered_not_inverted; auto).
  - unfold getChebyshevDegrees. pose proof (degrees_end f a b P rel) as HD.
    match goal with |- context [degreeLoop cosR rootR (length a) fuel f a b rel 0 0 ?cd] => assert (Q : degreeLoop cosR rootR (length a) fuel f a b rel 0 0 cd <> None) end.
    { apply HD; auto; try lia.
      - unfold ndim. rewrite SP, Ha. destruct HO as (t & Wt & Nt & [-> | ->]); exact Nt.
      - intros y [Hy _]. apply HP. lia.
      - rewrite (callAt_value n); auto.
      - intros s Hs. apply Hf. rewrite <- SP. auto.
      - rewrite map_length, seq_length. reflexivity. }
    destruct (degreeLoop cosR rootR (length a) fuel f a b rel 0 0 _) as [[[c e] r]|]; [|contradiction]. destruct (getApproxError _ _ _); discriminate.
  - destruct HO as (t & Wt & Nt & [-> | ->]); discriminate.
  - destruct HO as (t & Wt & Nt & [-> | ->]); cbn [arityOK]; apply Nat.eqb_eq; lia.
Qed.
Print Assumptions C63_terminates_on_polynomials.
Example C63_case : let f := MPower (mkT [3; 2]%nat [1; 2; 3; 4; 5; 6]) in polyObject 2 f /\ ordered [0; 0] [1; 1] /\ valueOf f [1; 1] <> 0 /\ (forall s, In s (objShape f) -> (s + 6 <= 9)%nat).
Proof.
  split; [eexists; split; [|split; [|left; reflexivity]]; [split; [reflexivity|repeat constructor; lia]|reflexivity]|].
  split; [split; [reflexivity|repeat constructor; cbn; lra]|]. split; [unfold valueOf, power_eval; cbn; lra|]. cbn. intros s [<-|[<-|[]]]; lia.
Qed.
(** The zero function: the degree search never ends, whatever the bound on it, in every dimension. *)
Theorem C63_terminates_on_the_zero_function_refuted : forall acc fuel (f : fobj R) a b rel,
  f <> NotCallable -> (forall x, length x = length a -> callAt f x = 0) -> ordered a b -> (1 <= length a)%nat -> arityOK acc f (length a) = true ->
  chebApproximate cosR rootR acc fuel f a b rel = AFuel.
Proof. intros acc fuel f a b rel Hf Hz Ho Hn Ha. apply call_zero; auto; [apply Ho|apply ordered_not_inverted; auto]. Qed.
Print Assumptions C63_terminates_on_the_zero_function_refuted.
Example C63_zero_case : let f := MPower (mkT [1; 1]%nat [0]) in (forall x, length x = 2%nat -> callAt f x = 0) /\ arityOK (fun _ _ => true) f 2 = true.
Proof.
  split; [|reflexivity]. intros x Hx. rewrite (callAt_value 2); auto.
  - unfold valueOf, power_eval. destruct x as [|u [|v [|]]]; try discriminate. cbn. ring.
  - eexists; split; [|split; [|left; reflexivity]]; [split; [reflexivity|repeat constructor; lia]|reflexivity].
Qed.
(** Nor does it end on the polynomial x (T_4(y) - T_6(y)), which vanishes on the grid lines used for y while the
    degree in x is searched: neither for the MultiCheb object nor for the same function in plain Python ... *)
Theorem C63_terminates_on_nonzero_polynomials_refuted : exists f, polyObject 2 f /\ (forall x y, valueOf f [x; y] = x * (chebT 4 y - chebT 6 y)) /\
  forall acc fuel rel, 0 < rel < 1 -> chebApproximate cosR rootR acc fuel f [-1; -1] [1; 1] rel = AFuel.
Proof.
  exists slats. split; [apply slats_object|]. split; [apply slats_value|]. intros. apply slats_endless; auto; [discriminate|apply slats_call].
Qed.
Print Assumptions C63_terminates_on_nonzero_polynomials_refuted.
(** ... and then solve() does not return either. *)
Theorem C63_solve_terminates_refuted : exists g : list R -> R, (forall x y, g [x; y] = x * (chebT 4 y - chebT 6 y)) /\
  forall X acc exact minSize sfuel fa fuel h, acc g 2%nat = true -> h <> NotCallable ->
    csolve X (approxOf cosR rootR acc fa) exact minSize sfuel fuel [Plain g; h] [-1; -1] [1; 1] = CFuel.
Proof.
  set (g := fun x : list R => nth 0 x 0 * (chebT 4 (nth 1 x 0) - chebT 6 (nth 1 x 0))). exists g. split; [reflexivity|].
  intros X acc exact minSize sfuel fa fuel h Hacc Hh. destruct fuel as [|fuel]; [reflexivity|]. cbn [csolve].
  assert (HA : approxOf cosR rootR acc fa (Plain g) [-1; -1] [1; 1] = OutOfFuel).
  { unfold approxOf. rewrite slats_endless; [reflexivity|discriminate|exact Hacc|reflexivity|rewrite nlit_R; lra]. }
  assert (E : existsb (fun f => match f with NotCallable => true | _ => false end) [Plain g; h] = false) by (destruct h; [contradiction|reflexivity..]). rewrite E.
  cbn [length Nat.eqb negb combine existsb fst snd]. rnum. assert (Q : Rltb 1 (-1) = false) by (apply Rltb_false; lra). rewrite Q. cbn [orb].
  cbn [approxAll approxFor]. rewrite HA. reflexivity.
Qed.
Print Assumptions C63_solve_terminates_refuted.

(** ** C64 *)
(** some coordinate has its lower bound above its upper bound *)
Definition hasInverted (a b : list R) : Prop := exists i, (i < length a)%nat /\ nth i b 0 < nth i a 0.
(** f can be called with n numbers *)
Definition takes (acc : (list R -> R) -> nat -> bool) (f : fobj R) (n : nat) : Prop :=
  match f with NotCallable => False | Plain g => acc g n = true | MPower t | MCheb t => ndim t = n end.
Theorem C64_argument_errors : forall acc fuel (f : fobj R) a b rel, let r := chebApproximate cosR rootR acc fuel f a b rel in
  (r = ANotCallable <-> f = NotCallable) /\
  (r = ABadLengths <-> f <> NotCallable /\ length a <> length b) /\
  (r = AInverted <-> f <> NotCallable /\ length a = length b /\ hasInverted a b) /\
  (r = AArity <-> f <> NotCallable /\ length a = length b /\ ~ hasInverted a b /\ ~ takes acc f (length a)).
Proof.
  intros acc fuel f a b rel r. destruct (call_args acc fuel f a b rel) as (H1 & H2 & H3 & H4). fold r in H1, H2, H3, H4.
  split; [exact H1|]. split; [exact H2|]. split; [exact H3|]. rewrite H4.
  assert (E : f <> NotCallable -> (arityOK acc f (length a) = false <-> ~ takes acc f (length a))).
  { intros Hf. unfold takes. destruct f; [contradiction| | |]; cbn [arityOK]; [apply iff_sym, not_true_iff_false|apply Nat.eqb_neq..]. }
  unfold inverted, hasInverted. split; intros (A & B & C & D); (split; [exact A|split; [exact B|split; [exact C|apply (E A); exact D]]]).
Qed.
Print Assumptions C64_argument_errors.
Example C64_case : hasInverted [0; 3] [1; 2] /\ ~ hasInverted [0; 2] [1; 3] /\ ~ takes (fun _ _ => true) (MPower (mkT [1%nat] [5])) 2.
Proof. split; [exists 1%nat; split; [cbn; lia|cbn; lra]|]. split; [|cbn; discriminate]. intros (i & Hi & Q). destruct i as [|[|i]]; cbn in Hi, Q; try lia; lra. Qed.

(** ** C65 *)
Theorem C65_result_is_a_series_in_as_many_variables : forall acc fuel (f : fobj R) a b rel M e,
  chebApproximate cosR rootR acc fuel f a b rel = AOk (M, e) ->
  wf M /\ ndim M = length a /\ length a = length b /\
  exists degs eps rhos, getChebyshevDegrees cosR rootR fuel f a b rel 0 = Some (degs, eps, rhos) /\ shp M = map S degs /\
    getApproxError (map (Nat.max 1) degs) eps rhos = Some e.
Proof.
  intros acc fuel f a b rel M e H. pose proof (call_shape _ _ _ _ _ _ _ _ H) as [W N]. apply call_ok in H. destruct H as (degs & eps & rhos & HG & HM & HE & L1 & L2 & L3 & L4).
  split; [exact W|]. split; [exact N|]. split; [exact L4|]. exists degs, eps, rhos. split; [exact HG|]. split; [subst M; reflexivity|]. rewrite <- fixDegs_max. exact HE.
Qed.
Print Assumptions C65_result_is_a_series_in_as_many_variables.
Example C65_case : exists M e, chebApproximate cosR rootR (fun _ _ => true) 1 (Plain bent) [-1] [1] (1 / 10) = AOk (M, e).
Proof. exists (mkT [2%nat] [bentC; 1]), e33. apply bent_call; [lra|reflexivity]. Qed.
