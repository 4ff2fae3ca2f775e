(** * Properties of tracked intervals: C19, C20, C21, C54 *)
From Coq Require Import List Arith Bool ZArith Reals Lra Lia.
From Verif Require Import Num RSum Cheb Tensor PolySpec TransformModel TransformChebProofs IntervalModel IntervalProofs HeapModel HeapProofs.
Import ListNotations.
Local Open Scope R_scope.

(** ** C19 *)
(** The plain meaning of "the point with local coordinates y in the k-th nested box": each
    sub-box (a,b) sends v in [-1,1] to a + (v+1)/2 * (b-a). *)
Definition zoomOut (sub : list (R * R)) (y : list R) : list R :=
  map (fun p => fst (fst p) + (snd p + 1) / 2 * (snd (fst p) - fst (fst p))) (combine sub y).
Definition inUnit (sub : list (R * R)) (n : nat) : Prop :=
  length sub = n /\ Forall (fun p => -1 <= fst p /\ fst p <= snd p /\ snd p <= 1) sub.

Definition history (n : nat) (subs : list (box R)) : tint R :=
  fold_left (@addTransform R R_num) subs (@newInterval R R_num (repeat (-1, 1) n)).

Lemma zoomOut_affine n s y : sub_ok n s -> length y = n -> zoomOut s y = affine (map (@alphaBeta R R_num) s) y.
Proof.
  intros Hs Hy. pose proof (proj1 Hs). apply list_eq_nth with 0.
  - unfold zoomOut, affine. rewrite !map_length, !combine_length, map_length. lia.
  - unfold zoomOut at 1. rewrite map_length, combine_length. intros i Hi. unfold zoomOut.
    rewrite (nth_map_combine _ _ _ _ (0,0) 0) by lia. rewrite affine_nth by (rewrite ?map_length; lia).
    rewrite ab_nth, alphaBeta_R. cbn [fst snd]. field.
Qed.
Lemma history_snoc n subs s : history n (subs ++ [s]) = @addTransform R R_num (history n subs) s.
Proof. unfold history. rewrite fold_left_app. reflexivity. Qed.
Lemma history_ok n subs : Forall (sub_ok n) subs ->
  tok n (history n subs) /\ trs (history n subs) = map (map (@alphaBeta R R_num)) subs /\
  fin (history n subs) = false /\ empt (history n subs) = false.
Proof.
  induction subs as [|s subs IH] using rev_ind; intros H.
  - split; [apply new_tok|]. auto.
  - apply Forall_app in H. destruct H as [H1 H2]. inversion H2; subst. destruct (IH H1) as (Ht & Et & Ef & Ee).
    rewrite history_snoc. destruct (addTransform_sub n (history n subs) s H3) as [E1 E2]. split.
    + apply addTransform_tok; auto.
    + rewrite addTransform_eq by auto. cbn. rewrite E1, Et, map_app. auto.
Qed.
Lemma place_zoom n subs y : Forall (sub_ok n) subs -> length y = n ->
  place (map (map (@alphaBeta R R_num)) subs) y = fold_right zoomOut y subs.
Proof.
  induction 1; simpl; intros; auto. rewrite IHForall by auto. rewrite (zoomOut_affine n); auto.
  rewrite <- IHForall by auto. apply place_length; auto. apply Forall_map. eapply Forall_impl; [|exact H0]. apply sub_ok_tr.
Qed.

(** After any sequence of addTransform calls with sub-boxes of [-1,1]^n: the stored interval is
    the interval recomputed from the recorded transforms, it is exactly the set of points whose
    nested local coordinates lie in [-1,1]^n, and it is contained in every earlier interval. *)
Theorem C19_interval_is_composed_transforms :
  forall (n : nat) (subs : list (box R)),
    Forall (fun s => inUnit s n) subs ->
    let t := history n subs in
    ivl t = @getFinalInterval R R_num t /\
    (forall x, Forall2 (fun v p => fst p <= v <= snd p) x (ivl t) <->
               exists y, length y = n /\ Forall (fun v => -1 <= v <= 1) y /\ x = fold_right zoomOut y subs) /\
    (forall earlier later, subs = earlier ++ later -> forall x,
       Forall2 (fun v p => fst p <= v <= snd p) x (ivl t) ->
       Forall2 (fun v p => fst p <= v <= snd p) x (ivl (history n earlier))) /\
    inUnit (ivl t) n.
Proof.
  intros n subs H t. destruct (history_ok n subs H) as (Ht & Et & Ef & _).
  assert (Htr : trs_ok n (map (map (@alphaBeta R R_num)) subs)) by (rewrite <- Et; apply Ht).
  assert (Ei : ivl t = @finalBox R R_num (unitBox n) (map (map (@alphaBeta R R_num)) subs)) by (unfold t; rewrite (tok_ivl n) by auto; rewrite Et; auto).
  split; [|split; [|split]].
  - unfold getFinalInterval, t. rewrite Ef, (tok_top n), (tok_ivl n) by auto. reflexivity.
  - intros x. rewrite Ei. split.
    + intros Hx. destruct (final_reached n _ x Htr Hx) as (y & Hy & ->). exists y. destruct Hy as [Hy1 Hy2].
      split; auto. split; auto. apply (place_zoom n); auto.
    + intros (y & Hy1 & Hy2 & ->). rewrite <- (place_zoom n) by auto. apply place_in_final; auto. split; auto.
  - intros earlier later E x Hx. rewrite Ei, E, map_app in Hx. rewrite E, map_app in Htr. apply Forall_app in Htr. destruct Htr as [Htr1 Htr2].
    rewrite E in H. apply Forall_app in H. destruct H as [H1 H2]. destruct (history_ok n earlier H1) as (Ht1 & Et1 & _ & _).
    rewrite (tok_ivl n), Et1 by auto. eapply final_nested; eauto.
  - rewrite Ei. apply final_sub_ok; auto.
Qed.
Print Assumptions C19_interval_is_composed_transforms.

(** two different steps in dimension 2 *)
Example C19_case : Forall (fun s => inUnit s 2) [[(-1, 0); (0, 1)]; [(-1/2, 1/2); (-1, 1)]].
Proof. repeat constructor; cbn; lra. Qed.

(** ** C20 *)
(** [run l]: the heap with shared arrays after the history [l]; [views]: what reading each object
    gives; [frun l]: the same history on independent values. *)
Theorem C20_objects_behave_as_values :
  forall (T : Type) (NT : Num T) (l : list (op T)),
    disciplined [] l -> views (run l) = frun l.
Proof. exact @run_refines. Qed.
Print Assumptions C20_objects_behave_as_values.

(** An operation on one object changes no other object, and no operation changes any top interval;
    in particular mutating a copy never changes its original. *)
Theorem C20_copies_are_independent :
  forall (T : Type) (NT : Num T) (l : list (op T)) (c : op T),
    disciplined [] (l ++ [c]) ->
    (forall d j, (j < length (views (run l)))%nat -> (target c <> Some j \/ exists i, c = OCopy i) ->
       nth j (views (run (l ++ [c]))) d = nth j (views (run l)) d) /\
    (forall d j, (j < length (views (run l)))%nat ->
       top (nth j (views (run (l ++ [c]))) d) = top (nth j (views (run l)) d)) /\
    (forall i d, c = OCopy i ->
       let new := nth (length (views (run l))) (views (run (l ++ [c]))) d in
       let old := nth i (views (run l)) d in
       top new = top old /\ ivl new = ivl old /\ trs new = trs old /\ npts new = npts old /\ empt new = empt old /\ fin new = fin old).
Proof.
  intros T NT l c H. rewrite !run_refines by (auto; apply disciplined_app in H; apply H).
  assert (E : frun (l ++ [c]) = fexec (frun l) c) by (unfold frun; rewrite fold_left_app; reflexivity). rewrite E. clear E.
  assert (Hi : forall i, target c = Some i -> (i < length (frun l))%nat).
  { intros i Hi. pose proof H as H0. apply disciplined_app in H. destruct H as [H1 H2]. pose proof (run_inv l s0 [] inv0 H1) as HI.
    rewrite <- run_refines by auto. unfold views. rewrite map_length. unfold run. rewrite <- (iv_len _ _ HI).
    apply disciplined_cons in H2. destruct H2 as [[H2 _] _]. rewrite Hi in H2. auto. }
  clear H. set (v := frun l) in *. split; [|split].
  - intros d j Hj Ht. destruct c; cbn [fexec target] in *; try (apply app_nth1; auto);
      destruct Ht as [Ht | [i' Ht]]; try discriminate; apply nth_upd_neq; congruence.
  - intros d j Hj. destruct c; cbn [fexec target] in *; try (rewrite app_nth1 by auto; auto; fail);
      (destruct (Nat.eq_dec i j); [subst; rewrite nth_upd_eq by auto | rewrite nth_upd_neq by auto; auto]);
      rewrite nth_indep with (d' := d) by auto; try reflexivity.
    unfold addTransform. destruct (_ && _); reflexivity.
  - intros i d ->. specialize (Hi i eq_refl). cbn [fexec]. cbv zeta. rewrite app_nth2 by auto. rewrite Nat.sub_diag. cbn [nth].
    rewrite nth_indep with (d' := d) by auto. unfold copyT; cbn. repeat split.
Qed.
Print Assumptions C20_copies_are_independent.

(** a history that copies, shrinks the copy, starts its final step, copies again and shrinks *)
Example C20_case : disciplined [] [ONew (T:=R) [(-1,1)]; OCopy 0; OAdd 1 [(0,1)]; OStart 1; OCopy 1; OAdd 2 [(-1,0)]; OAddDups 1 [[0]]].
Proof. cbn. repeat split; lia. Qed.

(** ** C21 *)
(** Without the intermediate copy, addTransform changes the top interval, and the final interval
    differs from the stored interval. *)
Theorem C21_top_interval_is_original_refuted :
  exists (l : list (op R)),
    l = [ONew [(-1, 1)]; OAdd 0 [(0, 1)]] /\
    let t := nth 0 (views (run l)) (@dtint R R_num) in
    top t = [(0, 1)] /\ ivl t = [(0, 1)] /\ @getFinalInterval R R_num t = [(1/2, 1)].
Proof.
  eexists. split; [reflexivity|]. cbv zeta.
  assert (Hinv : @anyInverted R R_num [(0, 1)] = false) by (apply (anyInverted_sub 1); repeat constructor; cbn; lra).
  assert (E : nth 0 (views (run [ONew [(-1, 1)]; OAdd 0 [(0, 1)]])) (@dtint R R_num) =
    mkTint [(0,1)] [(0,1)] [[(1/2,1/2)]] false false false [] false [@nlit R R_num 394555475981047 10000000000000000] [] []).
  { unfold run. cbn [fold_left]. unfold exec at 1. cbn [target]. rewrite Hinv. cbn [andb].
    unfold addTransform. rewrite Hinv. cbn [andb].
    assert (Er : @newRow R R_num (0,1) (-1,1) = (0,1)).
    { rewrite newRow_R by (cbn; lra). cbn. f_equal; lra. }
    assert (Ea : @alphaBeta R R_num (0,1) = (1/2,1/2)) by (rewrite alphaBeta_R; cbn; f_equal; lra).
    unfold views, exec, s0, ob, view, rdb, rdl, rdp, rdd. cbn -[newRow alphaBeta nlit anyInverted clampRow]. rewrite ?Hinv. cbn -[newRow alphaBeta nlit anyInverted clampRow]. rewrite Er, Ea. reflexivity. }
  rewrite E. split; [reflexivity|]. split; [reflexivity|].
  unfold getFinalInterval. cbn [fin top trs]. rewrite finalBox_R. cbn. f_equal. f_equal; lra.
Qed.
Print Assumptions C21_top_interval_is_original_refuted.

(** ** C54 *)
(** The final interval only equals the stored interval when the top interval is [-1,1]^n: for the
    top interval [0,2] they differ after one step. *)
Theorem C54_final_interval_for_other_top_boxes_refuted :
  exists (b s : box R), b = [(0, 2)] /\ s = [(-1, 0)] /\
    let t := @addTransform R R_num (@newInterval R R_num b) s in
    ivl t = [(0, 1)] /\ @getFinalInterval R R_num t = [(-1/2, 1/2)].
Proof.
  exists [(0,2)], [(-1,0)]. split; auto. split; auto. cbv zeta.
  assert (Hinv : @anyInverted R R_num [(-1, 0)] = false) by (apply (anyInverted_sub 1); repeat constructor; cbn; lra).
  unfold addTransform. rewrite Hinv. cbn [andb].
  assert (Er : @newRow R R_num (-1,0) (0,2) = (0,1)) by (rewrite newRow_R by (cbn; lra); cbn; f_equal; lra).
  assert (Ea : @alphaBeta R R_num (-1,0) = (1/2,-1/2)) by (rewrite alphaBeta_R; cbn; f_equal; lra).
  unfold newInterval. cbn [ivl combine map fst snd trs app]. rewrite Er, Ea. split; [reflexivity|].
  unfold getFinalInterval. cbn [fin top trs]. rewrite finalBox_R. cbn. f_equal. f_equal; lra.
Qed.
Print Assumptions C54_final_interval_for_other_top_boxes_refuted.
