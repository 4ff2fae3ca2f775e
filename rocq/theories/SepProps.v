(** * Property theorems C66: results that are not sent to the combining step *)
From Coq Require Import List Arith Bool ZArith QArith Qreals Reals Lra Lia.
From Verif Require Import Num RSum Cheb Tensor PolySpec SystemSpec TransformModel TransformChebProofs IntervalModel IntervalProofs IntervalProps LinearModel LinearProofs SvdExample
  QuadModel QuadNdFaces QuadTransfer GaussExample Transfer SolverModel OrderProofs SubdivReal ZoomProofs MergeProofs SolverProofs SolverTransfer ExtExample SolverProps SepProofs.
Import ListNotations.
Local Open Scope R_scope.

(** the box of a result *)
Definition resultBox (t : tint R) : list (R * R) := @getIntervalForCombining R t.
(** A tracked interval as the solver passes it on, outside the final step: its top box is [-1,1]^n, its
    box is the composition of its transforms, its split points lie strictly between -1 and 1, and the
    attributes of the final step have their initial values. *)
Definition searching (n : nat) (t : tint R) : Prop := inOK n t /\ fin t = false.

(** A recursive call returns its results in two lists, interior and exterior.  Only the exterior ones
    take part in combining.  The interior ones lie strictly inside the box of the call, in every
    coordinate and on both sides. *)
Theorem C66_interior_results_are_strictly_inside :
  forall (n : nat) (X : ext R) (fuel : nat) (o : opts) (level : nat) (Ms : list (tensor R)) (errors : list R) (ti : tint R) (interior exterior : list (tint R)),
    externalsOK n X -> squareSystem n Ms errors -> sizesOK (oexact o) Ms -> searching n ti ->
    @solvePoly R R_num X fuel o level Ms ti errors = Ok (interior, exterior) ->
    forall t, In t interior -> Forall2 (fun p q => fst q < fst p /\ snd p < snd q) (resultBox t) (resultBox ti).
Proof.
  intros n X fuel o level Ms errors ti i e (H1 & H2 & H3 & H4) Hsq Hsz (Hin & Hf) E t Ht.
  pose proof (solvePoly_sep X n o H1 H2 H3 H4 fuel level Ms ti errors i e Hin (conj Hsq Hsz) E) as H. unfold sepRes in H. rewrite Hf in H. exact (H t Ht).
Qed.
Print Assumptions C66_interior_results_are_strictly_inside.

(** Therefore an interior result of one piece of a subdivided box has no point in common with any
    result, interior or exterior, of another piece: leaving it out of the combining step misses no pair
    of touching boxes. *)
Theorem C66_interior_results_do_not_touch_neighbours :
  forall (n : nat) (X : ext R) (o : opts) (level : nat) (Ms : list (tensor R)) (errors : list R) (ti : tint R) (ch : children),
    externalsOK n X -> squareSystem n Ms errors -> sizesOK (oexact o) Ms -> searching n ti ->
    @getSubdivisionIntervals R R_num X (oexact o) Ms errors ti level = Ok ch ->
    forall (j k : nat) (M1 M2 : list (tensor R)) (e1 e2 : list R) (t1 t2 : tint R) (f1 f2 l1 l2 : nat) (int1 ext1 int2 ext2 : list (tint R)),
      nth_error ch j = Some (M1, e1, t1) -> nth_error ch k = Some (M2, e2, t2) -> j <> k ->
      @solvePoly R R_num X f1 o l1 M1 t1 e1 = Ok (int1, ext1) -> @solvePoly R R_num X f2 o l2 M2 t2 e2 = Ok (int2, ext2) ->
      forall u v, In u int1 -> In v (int2 ++ ext2) -> ~ exists x, inBox (resultBox u) x /\ inBox (resultBox v) x.
Proof.
  intros n X o level Ms errors ti ch (H1 & H2 & H3 & H4) Hsq Hsz (Hin & Hf) Hch j k M1 M2 e1 e2 t1 t2 f1 f2 l1 l2 i1 x1 i2 x2 A B C D E.
  exact (interior_apart X n o H1 H2 H3 H4 Ms errors ti level ch Hin Hf (conj Hsq Hsz) Hch j k M1 e1 t1 M2 e2 t2 A B C f1 f2 l1 l2 i1 x1 i2 x2 D E).
Qed.
Print Assumptions C66_interior_results_do_not_touch_neighbours.

(** T_2 + 1/2 with error 1/128, on a box whose split point is 0 (as it is after the first subdivision),
    without the final step: each half returns one interior box. *)
Definition twoQ : tensor Q := mkT [3%nat] [1#2; 0#1; 1#1].
Definition zoomOnly : opts := mkOpts false true true true 25 false.
Definition halfQ : tint Q := setNext (@newInterval Q Q_num [(-1#1, 1#1)%Q]) [0#1].
Definition kidsQ := @getSubdivisionIntervals Q Q_num (@ext1 Q Q_num) false [twoQ] [1#128] halfQ 1.
Definition kidQ c := let '(M, e, t) := c in @solvePoly Q Q_num (@ext1 Q Q_num) 9 zoomOnly 1 M t e.
Definition oneInside {A} (r : res (list A * list A)) : bool := match r with Ok ([_], []) => true | _ => false end.
Definition bothInside {A B} (r : res (list A)) (f : A -> res (list B * list B)) : bool :=
  match r with Ok [c1; c2] => oneInside (f c1) && oneInside (f c2) | _ => false end.
Lemma bothInside_ok {A B} (r : res (list A)) (f : A -> res (list B * list B)) : bothInside r f = true ->
  exists c1 c2 u v, r = Ok [c1; c2] /\ f c1 = Ok ([u], []) /\ f c2 = Ok ([v], []).
Proof.
  unfold bothInside. destruct r as [[|c1 [|c2 [|c3 ch]]]| |]; try discriminate. intros H. apply andb_true_iff in H. destruct H as [P Q].
  destruct (f c1) as [[[|u [|u' i1]] [|x1 e1]]| |] eqn:E1; try discriminate. destruct (f c2) as [[[|v [|v' i2]] [|x2 e2]]| |] eqn:E2; try discriminate.
  exists c1, c2, u, v. auto.
Qed.
Lemma kidsQ_ok : bothInside kidsQ kidQ = true.
Proof. vm_compute. reflexivity. Qed.
Lemma kidR c u : kidQ c = Ok ([u], []) -> let c' := hchild (h := Q2R) c in
  @solvePoly R R_num (@ext1 R R_num) 9 zoomOnly 1 (fst (fst c')) (snd c') (snd (fst c')) = Ok ([ht (h := Q2R) u], []).
Proof.
  destruct c as [[M e] t]. unfold kidQ. intros E. cbn [hchild fst snd]. cbv zeta. rewrite <- (h_solvePoly (NA := Q_num) (h := Q2R) Q_pos _ _ ext1_hom zoomOnly eq_refl). rewrite E. reflexivity.
Qed.
Lemma kidsR ch : kidsQ = Ok ch -> @getSubdivisionIntervals R R_num (@ext1 R R_num) false [tmap Q2R twoQ] [Q2R (1#128)] (ht (h := Q2R) halfQ) 1 = Ok (map (hchild (h := Q2R)) ch).
Proof.
  unfold kidsQ. intros E. change [tmap Q2R twoQ] with (map (tmap Q2R) [twoQ]). change [Q2R (1#128)] with (map Q2R [1#128]).
  rewrite <- (h_children (NA := Q_num) (h := Q2R) _ _ ext1_hom). rewrite E. reflexivity.
Qed.
Example C66_case : exists ti ch c1 c2 u v,
  externalsOK 1 (@ext1 R R_num) /\ squareSystem 1 [tmap Q2R twoQ] [Q2R (1#128)] /\ sizesOK false [tmap Q2R twoQ] /\ searching 1 ti /\
  @getSubdivisionIntervals R R_num (@ext1 R R_num) false [tmap Q2R twoQ] [Q2R (1#128)] ti 1 = Ok ch /\ nth_error ch 0 = Some c1 /\ nth_error ch 1 = Some c2 /\
  @solvePoly R R_num (@ext1 R R_num) 9 zoomOnly 1 (fst (fst c1)) (snd c1) (snd (fst c1)) = Ok ([u], []) /\
  @solvePoly R R_num (@ext1 R R_num) 9 zoomOnly 1 (fst (fst c2)) (snd c2) (snd (fst c2)) = Ok ([v], []).
Proof.
  destruct (bothInside_ok _ _ kidsQ_ok) as (c1 & c2 & u & v & Ek & E1 & E2).
  exists (ht (h := Q2R) halfQ), (map (hchild (h := Q2R)) [c1; c2]), (hchild (h := Q2R) c1), (hchild (h := Q2R) c2), (ht (h := Q2R) u), (ht (h := Q2R) v).
  split; [apply ext1_ok|]. split; [|split; [|split; [|split; [|split; [|split; [|split]]]]]].
  - split; [lia|]. split; auto. split; auto. constructor; auto. split; [split; [reflexivity|repeat constructor]|reflexivity].
  - repeat constructor.
  - unfold halfQ. rewrite (h_setNext (h := Q2R)). rewrite (h_new (h := Q2R)). cbn [map]. unfold h2. cbn [fst snd].
    replace (Q2R (-1 # 1)) with (-1) by (unfold Q2R; cbn; lra). replace (Q2R (1 # 1)) with 1 by (unfold Q2R; cbn; lra). replace (Q2R (0 # 1)) with 0 by (unfold Q2R; cbn; lra).
    change [(-1, 1)] with (repeat (-1, 1) 1). destruct (start_inOK 1) as [[[T1 T2 T3 T4 T5 T6 T7] K2 K3] D]. split; [|reflexivity]. constructor; [constructor; [constructor|..]|]; auto.
    cbn [setNext npts]. constructor; [split; lra|constructor].
  - exact (kidsR _ Ek).
  - reflexivity.
  - reflexivity.
  - exact (kidR _ _ E1).
  - exact (kidR _ _ E2).
Qed.
