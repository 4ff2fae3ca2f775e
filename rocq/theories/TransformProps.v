(** * Property theorems C11, C12, C13, C14: the Chebyshev change of variables *)
From Coq Require Import Reals List Lia Lra Arith Bool ZArith.
From Verif Require Import Num Tensor RSum Cheb PolySpec TransformModel TransformProofs TransformExactProofs
  TransformNDProofs TransformChebProofs TransformChecked.
Import ListNotations.
Local Open Scope R_scope.

(** C11.  If the transform kept as many coefficients as it was given, the returned
    series is the composition with alpha*x+beta, at every real x. *)
Theorem C11_transform_is_composition :
  forall (exact : bool) (c : list R) (alpha beta x : R),
    (2 <= length c)%nat ->
    length (@transform1Dx R R_num exact c alpha beta) = length c ->
    cheb1 (@transform1Dx R R_num exact c alpha beta) x = cheb1 c (alpha * x + beta).
Proof. exact transform1Dx_exact. Qed.
Print Assumptions C11_transform_is_composition.

(** ... and nothing is dropped as long as |alpha|^k is above the dropping threshold. *)
Theorem C11_nothing_dropped_for_moderate_alpha :
  forall (exact : bool) (c : list R) (alpha beta : R),
    (2 <= length c)%nat ->
    (forall k, (2 <= k < length c)%nat ->
       1 / (if exact then 100000000000000000000000000000000 else 10000000000000000) < Rabs alpha ^ k) ->
    length (@transform1Dx R R_num exact c alpha beta) = length c.
Proof.
  intros [] c alpha beta Hc H.
  - apply transformEF_full; [exact Hc | exact H].
  - apply transform1D_full; [exact Hc | exact H].
Qed.
Print Assumptions C11_nothing_dropped_for_moderate_alpha.

(** No work array is ever read or written out of bounds, in any arithmetic: the variant of
    the code that stops at the first bad index always runs to the end with the same result. *)
Theorem C11_array_accesses_in_bounds :
  forall (T : Type) (NT : Num T) (exact : bool) (c : list T) (alpha beta : T),
    (2 <= length c)%nat ->
    transform1DxC exact c alpha beta = Some (transform1Dx exact c alpha beta).
Proof. exact @transform1DxC_ok. Qed.
Print Assumptions C11_array_accesses_in_bounds.

(** the hypotheses are met: x^2-like series 1 + 2 T_1 + 3 T_2 + 4 T_3 on [0,1] *)
Example C11_case : forall exact x,
  cheb1 (@transform1Dx R R_num exact [1; 2; 3; 4] (1/2) (1/2)) x = cheb1 [1; 2; 3; 4] (1/2 * x + 1/2).
Proof.
  intros exact x. apply C11_transform_is_composition; [simpl; lia|].
  apply C11_nothing_dropped_for_moderate_alpha; [simpl; lia|]. intros k Hk. simpl length in Hk.
  rewrite Rabs_pos_eq by lra. assert (k = 2 \/ k = 3)%nat as [-> | ->] by lia; destruct exact; simpl; lra.
Qed.

(** C12.  Whatever is dropped, the result stays within an explicit bound ... *)
Theorem C12_dropped_tail_bound :
  forall (exact : bool) (c : list R) (alpha beta x : R),
    (2 <= length c)%nat -> -1 <= x <= 1 -> -1 <= alpha * x + beta <= 1 ->
    Rabs (cheb1 (@transform1Dx R R_num exact c alpha beta) x - cheb1 c (alpha * x + beta))
    <= (if exact then 1 / 100000000000000000000000000000000 * (3 * (INR (length c - 1) * INR (length c - 2) / 2) + 1)
        else 1 / 10000000000000000 * (INR (length c - 1) * INR (length c - 2) / 2))
       * Rsum (map Rabs c).
Proof.
  intros exact c alpha beta x Hc Hx Hy. pose proof (transform1Dx_bound exact c alpha beta x Hc Hx Hy) as H.
  replace (sumn (length c) (fun j => Rabs (nth j c 0))) with (Rsum (map Rabs c)) in H.
  - destruct exact; simpl drop in H; unfold tau16, tau32 in H; rewrite nlit_R in H; exact H.
  - rewrite Rsum_nth, map_length. apply sumn_ext. intros i Hi.
    rewrite nth_indep with (d' := Rabs 0) by (rewrite map_length; auto). apply map_nth.
Qed.
Print Assumptions C12_dropped_tail_bound.

(** ... and for n-dimensional systems it stays within the error the code charges
    (INR N * 2^-52 * sum |c| per axis, accumulated into the second component), for axis sizes
    up to 7, or 10^15 with the error-free version. *)
Theorem C12_charged_error_covers_small_axes :
  forall (exact : bool) (M : tensor R) (ab : list (R * R)) (err : R),
    wf M -> length ab = ndim M ->
    Forall (fun N => if exact then INR N <= 1000000000000000 else (N <= 7)%nat) (shp M) ->
    Forall (fun p => Rabs (fst p) + Rabs (snd p) <= 1) ab ->
    forall x, in_cube (ndim M) x ->
    let r := @transformCheb R R_num M ab err exact in
    Rabs (cheb_eval (fst r) x - cheb_eval M (affine ab x)) <= snd r - err.
Proof.
  intros exact M ab err Hw Hl Hc Hin x Hx. apply (transformCheb_bound exact M ab err Hw Hl); auto.
Qed.
Print Assumptions C12_charged_error_covers_small_axes.

Example C12_case : let M := mkT [2; 3]%nat [1; 2; 3; 4; 5; 6] in let ab := [(1/2, -1/2); (1/4, 1/8)] in
  wf M /\ length ab = ndim M /\ Forall (fun N => (N <= 7)%nat) (shp M) /\
  Forall (fun p => Rabs (fst p) + Rabs (snd p) <= 1) ab /\ in_cube (ndim M) [1/3; -1].
Proof.
  cbv zeta. split; [split; [reflexivity | repeat constructor]|]. split; [reflexivity|].
  split; [repeat constructor; simpl; lia|]. split.
  - repeat constructor; simpl; unfold Rabs; repeat destruct Rcase_abs; lra.
  - split; [reflexivity|]. repeat constructor; lra.
Qed.

(** C13.  The documented claim "getTransformationError is an upper bound on the error of
    transforming" is false, in exact arithmetic and with the new interval inside [-1,1]. *)
Theorem C13_charged_error_is_no_bound_refuted :
  exists (c : list R) (alpha beta x : R),
    (2 <= length c)%nat /\ -1 <= x <= 1 /\ Rabs alpha + Rabs beta <= 1 /\
    @getTransformationError R R_num (mkT [length c] c) 0
      < Rabs (cheb1 (@transform1D R R_num c alpha beta) x - cheb1 c (alpha * x + beta)).
Proof. exact getTransformationError_not_bound. Qed.
Print Assumptions C13_charged_error_is_no_bound_refuted.

(** C14.  Transforming along axis d: only the size of axis d can change, it never grows nor
    vanishes, ... *)
Theorem C14_only_one_axis_changes :
  forall (exact : bool) (d : nat) (M : tensor R) (alpha beta : R),
    wf M -> (d < ndim M)%nat ->
    let M' := @transformND R R_num M d alpha beta exact in
    wf M' /\ ndim M' = ndim M /\
    (1 <= nth d (shp M') 0 <= nth d (shp M) 0)%nat /\
    (forall j, j <> d -> nth j (shp M') 0%nat = nth j (shp M) 0%nat).
Proof.
  intros exact d M alpha beta Hw Hd. destruct (transformND_shape exact d M alpha beta Hw Hd) as (W & k & Hk & Hs).
  cbv zeta. split; [exact W|]. split; [unfold ndim; rewrite Hs, upd_length; reflexivity|]. rewrite Hs. split.
  - rewrite nth_upd_eq by auto. exact Hk.
  - intros j Hj. rewrite nth_upd_neq by auto. reflexivity.
Qed.
Print Assumptions C14_only_one_axis_changes.

(** ... the polynomial is composed with alpha*x_d+beta in coordinate d only, exactly if the
    axis kept its size and within the stated bound in general, ... *)
Theorem C14_composes_in_one_coordinate :
  forall (exact : bool) (d : nat) (M : tensor R) (alpha beta : R) (x : list R),
    wf M -> (d < ndim M)%nat -> length x = ndim M ->
    shp (@transformND R R_num M d alpha beta exact) = shp M ->
    cheb_eval (@transformND R R_num M d alpha beta exact) x = cheb_eval M (upd x d (alpha * nth d x 0 + beta)).
Proof. exact transformND_exact. Qed.
Print Assumptions C14_composes_in_one_coordinate.

Theorem C14_composes_within_bound :
  forall (exact : bool) (d : nat) (M : tensor R) (alpha beta : R) (x : list R),
    wf M -> (d < ndim M)%nat -> in_cube (ndim M) x -> -1 <= alpha * nth d x 0 + beta <= 1 ->
    let N := nth d (shp M) 0%nat in
    Rabs (cheb_eval (@transformND R R_num M d alpha beta exact) x - cheb_eval M (upd x d (alpha * nth d x 0 + beta)))
    <= (if exact then 1 / 100000000000000000000000000000000 * (3 * (INR (N - 1) * INR (N - 2) / 2) + 1)
        else 1 / 10000000000000000 * (INR (N - 1) * INR (N - 2) / 2))
       * sumabs M.
Proof.
  intros exact d M alpha beta x Hw Hd Hx Hy N. pose proof (transformND_bound exact d M alpha beta x Hw Hd Hx Hy) as H.
  destruct exact; simpl drop in H; unfold tau16, tau32 in H; rewrite nlit_R in H; exact H.
Qed.
Print Assumptions C14_composes_within_bound.

(** ... all axes at once: transformCheb composes with the whole affine map. *)
Theorem C14_whole_system :
  forall (exact : bool) (M : tensor R) (ab : list (R * R)) (err : R),
    wf M -> length ab = ndim M ->
    shp (fst (@transformCheb R R_num M ab err exact)) = shp M ->
    forall x, length x = ndim M ->
    cheb_eval (fst (@transformCheb R R_num M ab err exact)) x
      = cheb_eval M (map (fun p => fst (fst p) * snd p + snd (fst p)) (combine ab x)).
Proof. exact transformCheb_exact. Qed.
Print Assumptions C14_whole_system.

(** Identity transforms and constant axes return the tensor itself, in any arithmetic. *)
Theorem C14_identity_and_constant_axes :
  forall (T : Type) (NT : Num T) (exact : bool) (d : nat) (M : tensor T) (alpha beta : T),
    (neqb alpha n1 = true /\ neqb beta n0 = true) \/ nth d (shp M) 0%nat = 1%nat ->
    transformND M d alpha beta exact = M.
Proof.
  intros T NT exact d M alpha beta H. unfold transformND.
  destruct H as [[-> ->] | ->]; [reflexivity|]. rewrite Nat.eqb_refl, orb_true_r. reflexivity.
Qed.
Print Assumptions C14_identity_and_constant_axes.

(** a 2 x 3 tensor transformed along its second axis keeps its shape *)
Example C14_case : let M := mkT [2; 3]%nat [1; 2; 3; 4; 5; 6] in
  wf M /\ (1 < ndim M)%nat /\ shp (@transformND R R_num M 1 (1/2) (1/4) false) = shp M.
Proof.
  cbv zeta. split; [split; [reflexivity | repeat constructor]|]. split; [unfold ndim; simpl; lia|].
  assert (Hd : (1 < ndim (mkT [2; 3]%nat [1; 2; 3; 4; 5; 6]))%nat) by (unfold ndim; simpl; lia).
  rewrite transformND_eq by auto. rnum.
  assert (E : Reqb (1/2) 1 = false) by (apply Reqb_false; lra). rewrite E. cbn [andb orb shp nth Nat.eqb].
  unfold apply_axis. rewrite shp_tbuild. cbn [shp upd].
  rewrite (C11_nothing_dropped_for_moderate_alpha false); [rewrite fibre_length; reflexivity | rewrite fibre_length; simpl; lia |].
  rewrite fibre_length. cbn [shp nth]. intros k Hk. assert (k = 2)%nat by lia. subst.
  rewrite Rabs_pos_eq by lra. simpl. lra.
Qed.
