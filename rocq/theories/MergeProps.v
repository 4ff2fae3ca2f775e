(** * Property theorems C24, C25: combining touching boxes *)
From Coq Require Import List Arith Bool ZArith QArith Qreals Reals Lra Lia.
From Verif Require Import Num RSum Cheb Tensor PolySpec SystemSpec TransformModel TransformChebProofs IntervalModel IntervalProofs IntervalProps LinearModel QuadModel QuadTransfer Transfer
  SolverModel SubdivReal ZoomProofs MergeProofs SolverTransfer.
Import ListNotations.
Local Open Scope R_scope.

(** the box of a result, as used for combining *)
Definition bbox (t : tint R) : list (R * R) := @getIntervalForCombining R t.

Section Tight.
  Variables (n : nat) (orig : tint R).
  Hypothesis Ho : okti n orig.
  Hypothesis Hof : fin orig = false.
  Variable ext : list (tint R).
  (** every end point of the box is an end point of one of the original boxes inside it *)
  Definition tight (t : tint R) : Prop := forall i, (i < n)%nat ->
    (exists u, In u ext /\ boxLe (bbox u) (bbox t) /\ fst (nth i (bbox t) (0, 0)) = fst (nth i (bbox u) (0, 0))) /\
    (exists u, In u ext /\ boxLe (bbox u) (bbox t) /\ snd (nth i (bbox t) (0, 0)) = snd (nth i (bbox u) (0, 0))).
  Lemma tight_hull t1 t2 c : length (bbox t1) = n -> length (bbox t2) = n -> bbox c = @hull R R_num (bbox t1) (bbox t2) -> tight t1 -> tight t2 -> tight c.
  Proof.
    intros L1 L2 E H1 H2 i Hi. rewrite E. rewrite hull_nth by lia. cbn [fst snd].
    pose proof (hull_le_l (bbox t1) (bbox t2) ltac:(lia)) as Q1. pose proof (hull_le_r (bbox t1) (bbox t2) ltac:(lia)) as Q2.
    destruct (H1 i Hi) as [(a1 & A1 & A2 & A3) (b1 & B1 & B2 & B3)], (H2 i Hi) as [(a2 & C1 & C2 & C3) (b2 & D1 & D2 & D3)]. split.
    - destruct (Rle_dec (fst (nth i (bbox t1) (0, 0))) (fst (nth i (bbox t2) (0, 0)))) as [L|L].
      + exists a1. split; auto. split; [eapply boxLe_trans; eauto|]. rewrite Rmin_left by auto. auto.
      + exists a2. split; auto. split; [eapply boxLe_trans; eauto|]. rewrite Rmin_right by lra. auto.
    - destruct (Rle_dec (snd (nth i (bbox t1) (0, 0))) (snd (nth i (bbox t2) (0, 0)))) as [L|L].
      + exists b2. split; auto. split; [eapply boxLe_trans; eauto|]. rewrite Rmax_right by auto. auto.
      + exists b1. split; auto. split; [eapply boxLe_trans; eauto|]. rewrite Rmax_left by lra. auto.
  Qed.
  Lemma mergeLoop_tight : forall k i1 i2 (l l' : list flagged), (i1 < i2)%nat -> Forall (mrg n orig) l -> Forall (fun p => tight (snd p)) l ->
    @mergeLoop R R_num k orig i1 i2 l = Ok l' -> Forall (fun p => tight (snd p)) l'.
  Proof.
    induction k as [|k IH]; intros i1 i2 l l' H12 HF HT H; cbn [mergeLoop] in H; [discriminate|].
    destruct (Nat.ltb_spec i1 (length l)) as [L1|L1]; [|inversion H; subst; auto].
    destruct (Nat.ltb_spec i2 (length l)) as [L2|L2]; [|apply (IH (S i1) (S (S i1)) l l'); auto].
    destruct (overlapsWith _ _); [|apply (IH i1 (S i2) l l'); auto; lia].
    set (p1 := nth i1 l (false, dint)) in *. set (p2 := nth i2 l (false, dint)) in *.
    assert (I1 : In p1 l) by (apply nth_In; auto). assert (I2 : In p2 l) by (apply nth_In; auto).
    pose proof HF as HF'. rewrite Forall_forall in HF'. destruct (HF' p1 I1) as [T1 B1 _], (HF' p2 I2) as [T2 B2 _].
    pose proof (combine_ok n orig Ho Hof (snd p1) (snd p2) T1 T2 B1 B2) as (C1 & C2 & C3 & C4). set (c := combineIntervals orig (snd p1) (snd p2)) in *.
    assert (Ecb : bbox c = hull (bbox (snd p1)) (bbox (snd p2))) by (unfold bbox, getIntervalForCombining at 1; rewrite C2, C3; auto).
    assert (Hl : forall t, tok n t -> length (bbox t) = n) by (intros t Ht; unfold bbox; rewrite (cbox_final n) by auto; rewrite finalBox_length, unitBox_length; auto).
    apply (IH i1 (S i1) (listdel (listdel l i2) i1 ++ [(true, c)]) l'); auto.
    - apply Forall_app. split; [apply Forall_forall; intros p Hp; apply HF'; apply listdel_incl in Hp; apply listdel_incl in Hp; auto|].
      constructor; auto. constructor; cbn [fst snd]; [apply C1|fold (bbox c); rewrite Ecb; apply hull_lub; auto; fold (bbox (snd p1)); fold (bbox (snd p2)); rewrite !Hl; auto|auto].
    - rewrite Forall_forall in HT. apply Forall_app. split; [apply Forall_forall; intros p Hp; apply HT; apply listdel_incl in Hp; apply listdel_incl in Hp; auto|].
      constructor; auto. cbn [snd]. apply (tight_hull (snd p1) (snd p2)); auto.
  Qed.
End Tight.

(** ** C24 *)
(** In any arithmetic the loop ends. *)
Theorem C24_combining_terminates :
  forall (T : Type) (NT : Num T) (orig : tint T) (ext : list (tint T)), exists out, mergeExterior orig ext = Ok out.
Proof. intros T NT orig ext. exact (mergeExterior_total orig ext). Qed.
Print Assumptions C24_combining_terminates.

(** Over the reals, for result boxes inside the parent box: every box is contained in a box of the
    outcome; every box of the outcome lies in the parent, is either one of the boxes (not flagged for a
    second run) or flagged, and each of its end points is an end point of a box it contains. *)
Theorem C24_combining_loses_nothing :
  forall (n : nat) (orig : tint R) (ext : list (tint R)) (out : list (bool * tint R)),
    tok n orig -> empt orig = false -> fresh orig -> fin orig = false ->
    Forall (fun t => tok n t /\ boxLe (bbox t) (ivl orig)) ext ->
    @mergeExterior R R_num orig ext = Ok out ->
    (forall t, In t ext -> exists p, In p out /\ boxLe (bbox t) (bbox (snd p))) /\
    (forall again t, In (again, t) out -> boxLe (bbox t) (ivl orig) /\ (again = false -> In t ext) /\
       forall i, (i < n)%nat ->
         (exists u, In u ext /\ boxLe (bbox u) (bbox t) /\ fst (nth i (bbox t) (0, 0)) = fst (nth i (bbox u) (0, 0))) /\
         (exists u, In u ext /\ boxLe (bbox u) (bbox t) /\ snd (nth i (bbox t) (0, 0)) = snd (nth i (bbox u) (0, 0)))).
Proof.
  intros n orig ext out Ht He Hf Hfin HF E. assert (Ho : okti n orig) by (constructor; auto).
  destruct (mergeExterior_ok n orig Ho Hfin ext out HF E) as (A & B & C). split; auto. intros again t Hi.
  pose proof A as A'. rewrite Forall_forall in A. destruct (A _ Hi) as [T1 T2 _]. cbn [snd] in *. split; auto. split; [intros ->; auto|].
  assert (HT : Forall (fun p => tight n ext (snd p)) out); [|rewrite Forall_forall in HT; exact (HT _ Hi)].
  unfold mergeExterior in E. eapply (mergeLoop_tight n orig Ho Hfin ext); [| | |exact E]; [lia| |].
  - apply Forall_map. eapply Forall_impl; [|exact HF]. intros u [P Q]. constructor; cbn; auto. discriminate.
  - apply Forall_map. apply Forall_forall. intros u Hu i Hin. cbn [snd]. split; exists u; split; auto; split; auto; apply boxLe_refl.
Qed.
Print Assumptions C24_combining_loses_nothing.

Section Sep.
  Context {T : Type} {NT : Num T}.
  Notation d0 := (false, @dint T NT).
  Lemma nth_listdel (l : list (@flagged T)) i j : (i < length l)%nat -> nth j (listdel l i) d0 = if (j <? i)%nat then nth j l d0 else nth (S j) l d0.
  Proof.
    intros Hi. unfold listdel. destruct (Nat.ltb_spec j i) as [H|H].
    - rewrite app_nth1 by (rewrite firstn_length; lia). revert i j Hi H. induction l as [|a l IH]; intros [|i] [|j] Hi H; cbn in *; try lia; auto. apply IH; lia.
    - rewrite app_nth2 by (rewrite firstn_length; lia). rewrite firstn_length, Nat.min_l by lia. revert i j Hi H. induction l as [|a l IH]; intros [|i] [|j] Hi H; cbn [length skipn nth] in *; try lia; auto.
      apply (IH i j); lia.
  Qed.
  (** a box that was never combined meets no box before it in the list *)
  Lemma mergeLoop_sep orig : forall k i1 i2 (l l' : list flagged), (i1 < i2)%nat ->
    (forall p q, (p < q < length l)%nat -> fst (nth q l d0) = false -> ((p < i1)%nat \/ (p = i1 /\ q < i2)%nat) -> overlapsWith (snd (nth p l d0)) (snd (nth q l d0)) = false) ->
    mergeLoop k orig i1 i2 l = Ok l' ->
    forall p q, (p < q < length l')%nat -> fst (nth q l' d0) = false -> overlapsWith (snd (nth p l' d0)) (snd (nth q l' d0)) = false.
  Proof.
    induction k as [|k IH]; intros i1 i2 l l' H12 HI H; cbn [mergeLoop] in H; [discriminate|].
    destruct (Nat.ltb_spec i1 (length l)) as [L1|L1]; [|inversion H; subst; intros; apply HI; auto; lia].
    destruct (Nat.ltb_spec i2 (length l)) as [L2|L2].
    2: { apply (IH (S i1) (S (S i1)) l l'); auto. intros p q Hpq Hf Hc. apply HI; auto. lia. }
    destruct (overlapsWith _ _) eqn:Eo.
    - eapply IH; [| |exact H]; [lia|]. intros p q Hpq Hf Hc.
      rewrite app_length, listdel_length in Hpq by (rewrite listdel_length; lia). rewrite listdel_length in Hpq by lia. cbn [length] in Hpq.
      assert (Lq : (q < length l - 2)%nat).
      { destruct (Nat.eq_dec q (length l - 2)) as [->|]; [|lia]. exfalso. rewrite app_nth2 in Hf by (rewrite !listdel_length; rewrite ?listdel_length; lia).
        rewrite listdel_length in Hf by (rewrite listdel_length; lia). rewrite listdel_length in Hf by lia. replace (length l - 2 - (length l - 1 - 1))%nat with 0%nat in Hf by lia. discriminate. }
      assert (Lp : (p < i1)%nat) by lia.
      rewrite app_nth1 in Hf by (rewrite !listdel_length; rewrite ?listdel_length; lia). rewrite !app_nth1 by (rewrite !listdel_length; rewrite ?listdel_length; lia).
      assert (EN : forall r, nth r (listdel (listdel l i2) i1) d0 = if (r <? i1)%nat then nth r l d0 else if (S r <? i2)%nat then nth (S r) l d0 else nth (S (S r)) l d0).
      { intros r. rewrite nth_listdel by (rewrite listdel_length; lia). rewrite !nth_listdel by lia. destruct (Nat.ltb_spec r i1); auto. destruct (Nat.ltb_spec r i2); auto; lia. }
      rewrite EN in Hf. rewrite !EN.
      destruct (Nat.ltb_spec p i1); [|lia].
      assert (HG : forall r, (p < r < length l)%nat -> fst (nth r l d0) = false -> overlapsWith (snd (nth p l d0)) (snd (nth r l d0)) = false) by (intros r Hr Hr'; apply HI; auto).
      destruct (q <? i1)%nat; [|destruct (S q <? i2)%nat]; apply HG; auto; lia.
    - apply (IH i1 (S i2) l l'); auto. intros p q Hpq Hf Hc. destruct (Nat.eq_dec p i1) as [->|]; [|apply HI; auto; lia]. destruct (Nat.eq_dec q i2) as [->|]; [auto|]. apply HI; auto. lia.
  Qed.
End Sep.
(** Two different boxes of the outcome have no common point, unless the later one is a combination
    (in particular the boxes that were left alone are pairwise disjoint). *)
Theorem C24_boxes_left_alone_are_disjoint :
  forall (orig : tint R) (ext : list (tint R)) (out : list (bool * tint R)),
    @mergeExterior R R_num orig ext = Ok out ->
    forall (i j : nat) (p q : bool * tint R), nth_error out i = Some p -> nth_error out j = Some q -> (i < j)%nat -> fst q = false ->
    ~ exists x, inBox (bbox (snd p)) x /\ inBox (bbox (snd q)) x.
Proof.
  intros orig ext out E i j p q Hi Hj Hij Hq (x & Hp & Hx).
  assert (Li : (i < length out)%nat) by (apply nth_error_Some; congruence). assert (Lj : (j < length out)%nat) by (apply nth_error_Some; congruence).
  apply nth_error_nth with (d := (false, dint)) in Hi, Hj.
  assert (O : overlapsWith (snd p) (snd q) = false).
  { rewrite <- Hi, <- Hj. refine (mergeLoop_sep orig _ 0 1 _ out _ _ E i j _ _); [lia| |exact (conj Hij Lj)|exact (eq_trans (f_equal fst Hj) Hq)]. intros; lia. }
  enough (overlapsWith (snd p) (snd q) = true) by congruence. unfold overlapsWith, boxesOverlap. fold (bbox (snd p)) (bbox (snd q)).
  unfold inBox in Hp, Hx. clear - Hp Hx. revert Hx. generalize (bbox (snd q)). induction Hp as [|v u x b Hv Hb IH]; intros b' Hx; inversion Hx as [|v' u' x' c' Hv' Hx']; subst; cbn [combine forallb]; auto.
  rewrite IH by auto. rewrite andb_true_r. cbn [fst snd]. apply negb_true_iff, orb_false_iff. unfold ngtb. split; apply Rltb_false; lra.
Qed.
Print Assumptions C24_boxes_left_alone_are_disjoint.

(** ** C25 *)
Definition inQ (b : list (Q * Q)) : tint Q := @addTransform Q Q_num (@newInterval Q Q_num [(-1#1, 1#1)%Q; (-1#1, 1#1)%Q]) b.
Definition inR (b : list (R * R)) : tint R := @addTransform R R_num (@newInterval R R_num (repeat (-1, 1) 2)) b.
Lemma inQ_inR b : ht (h := Q2R) (inQ b) = inR (map (h2 (h := Q2R)) b).
Proof.
  unfold inQ, inR. rewrite h_addTr, h_new. cbn [map h2 repeat fst snd]. do 2 f_equal. unfold h2. cbn [fst snd].
  replace (Q2R (-1 # 1)) with (-1) by (unfold Q2R; cbn; lra). replace (Q2R (1 # 1)) with 1 by (unfold Q2R; cbn; lra). reflexivity.
Qed.
(** three boxes inside [-1,1]^2: the second and third touch at the origin, the first touches neither *)
Definition bA : list (Q * Q) := [(1#2, 1#1); (-1#1, -1#2)]%Q.
Definition bB : list (Q * Q) := [(-1#1, 0#1); (-1#1, 0#1)]%Q.
Definition bC : list (Q * Q) := [(0#1, 1#1); (0#1, 1#1)]%Q.
Definition unitR : tint R := @newInterval R R_num (repeat (-1, 1) 2).
Lemma unit_ht : ht (h := Q2R) (@newInterval Q Q_num [(-1#1, 1#1)%Q; (-1#1, 1#1)%Q]) = unitR.
Proof.
  rewrite h_new. unfold unitR. cbn [map repeat]. unfold h2. cbn [fst snd].
  replace (Q2R (-1 # 1)) with (-1) by (unfold Q2R; cbn; lra). replace (Q2R (1 # 1)) with 1 by (unfold Q2R; cbn; lra). reflexivity.
Qed.
Definition runQ := @mergeExterior Q Q_num (@newInterval Q Q_num [(-1#1, 1#1)%Q; (-1#1, 1#1)%Q]) [inQ bA; inQ bB; inQ bC].
Lemma inR_ok b : Forall (fun p => (-1 <= fst p)%Q /\ (fst p <= snd p)%Q /\ (snd p <= 1)%Q) b -> length b = 2%nat ->
  tok 2 (ht (h := Q2R) (inQ b)) /\ boxLe (bbox (ht (h := Q2R) (inQ b))) (ivl unitR).
Proof.
  intros Hb Hl. assert (Hs : sub_ok 2 (map (h2 (h := Q2R)) b)).
  { split; [rewrite map_length; auto|]. apply Forall_map. eapply Forall_impl; [|exact Hb]. intros p (A & B & C). unfold h2. cbn [fst snd].
    apply Qle_Rle in A, B, C. replace (Q2R (-1)) with (-1) in A by (unfold Q2R; cbn; lra). replace (Q2R 1) with 1 in C by (unfold Q2R; cbn; lra). lra. }
  rewrite inQ_inR. unfold inR. destruct (addTransform_sub 2 unitR _ Hs) as [E1 E2]. split.
  - apply addTransform_tok; [apply new_tok|exact E2|left; auto].
  - assert (TT : tok 2 (addTransform unitR (map h2 b))) by (apply addTransform_tok; [apply new_tok|exact E2|left; auto]).
    assert (Fn : fin (@addTransform R R_num unitR (map h2 b)) = false) by (unfold addTransform; rewrite E2; reflexivity).
    unfold bbox, getIntervalForCombining. change (newInterval (repeat (-1, 1) 2)) with unitR. rewrite Fn. rewrite (tok_ivl 2 _ TT). destruct (final_sub_ok 2 _ (tok_trs 2 _ TT)) as [F1 F2].
    apply (Forall2_nth_iff _ _ _ (0,0) (0,0)). split; [rewrite F1; reflexivity|]. intros i Hi. rewrite F1 in Hi. rewrite Forall_forall in F2.
    specialize (F2 _ (nth_In _ (0,0) ltac:(rewrite F1; exact Hi))). change (ivl unitR) with (unitBox 2). rewrite unitBox_nth by auto. cbn [fst snd]. lra.
Qed.

Lemma boxes_ok : Forall (fun t => tok 2 t /\ boxLe (bbox t) (ivl unitR)) (map (ht (h := Q2R)) [inQ bA; inQ bB; inQ bC]).
Proof.
  cbn [map]. repeat (apply Forall_cons_iff; split); try apply Forall_nil; apply inR_ok; try reflexivity; repeat constructor; cbn; unfold Qle; cbn; lia.
Qed.
Lemma run_R : @mergeExterior R R_num unitR (map (ht (h := Q2R)) [inQ bA; inQ bB; inQ bC]) = hres (map (hfl (h := Q2R))) runQ.
Proof. rewrite <- unit_ht. symmetry. apply (h_mergeExt (NA := Q_num) (NB := R_num) (h := Q2R)). Qed.
Lemma runQ_ok : exists p q, runQ = Ok [p; q] /\ @overlapsWith Q Q_num (snd p) (snd q) = true /\ fst p = false /\ fst q = true.
Proof. eexists. eexists. split; [vm_compute; reflexivity|]. split; [vm_compute; reflexivity|]. split; reflexivity. Qed.

(** The claim "after combining, no two boxes touch or overlap" is false. *)
Theorem C25_combined_boxes_are_disjoint_refuted :
  exists (orig : tint R) (ext : list (tint R)) (p q : bool * tint R),
    tok 2 orig /\ empt orig = false /\ fresh orig /\ fin orig = false /\
    Forall (fun t => tok 2 t /\ boxLe (bbox t) (ivl orig)) ext /\
    @mergeExterior R R_num orig ext = Ok [p; q] /\ fst p = false /\ fst q = true /\ overlapsWith (snd p) (snd q) = true.
Proof.
  destruct runQ_ok as (p & q & E & O & F1 & F2). exists unitR, (map (ht (h := Q2R)) [inQ bA; inQ bB; inQ bC]), (hfl (h := Q2R) p), (hfl (h := Q2R) q).
  split; [apply new_tok|]. split; auto. split; [intros _; auto|]. split; auto. split; [apply boxes_ok|]. split; [rewrite run_R, E; reflexivity|].
  destruct p as [f p], q as [g q]. cbn [hfl fst snd] in *. split; auto. split; auto. rewrite <- (h_overlap (NA := Q_num) (NB := R_num) (h := Q2R)). exact O.
Qed.
Print Assumptions C25_combined_boxes_are_disjoint_refuted.
Example C24_case : tok 2 unitR /\ empt unitR = false /\ fresh unitR /\ fin unitR = false /\
  Forall (fun t => tok 2 t /\ boxLe (bbox t) (ivl unitR)) (map (ht (h := Q2R)) [inQ bA; inQ bB; inQ bC]).
Proof. split; [apply new_tok|]. split; auto. split; [intros _; auto|]. split; auto. apply boxes_ok. Qed.
(** two boxes that do not touch are both left alone *)
Example C24_disjoint_case : exists p q : bool * tint R,
  @mergeExterior R R_num unitR (map (ht (h := Q2R)) [inQ bA; inQ bB]) = Ok [p; q] /\ fst p = false /\ fst q = false.
Proof.
  assert (E : exists p q, @mergeExterior Q Q_num (@newInterval Q Q_num [(-1#1, 1#1)%Q; (-1#1, 1#1)%Q]) [inQ bA; inQ bB] = Ok [p; q] /\ fst p = false /\ fst q = false).
  { eexists. eexists. split; [vm_compute; reflexivity|]. split; reflexivity. }
  destruct E as (p & q & E & F1 & F2). exists (hfl (h := Q2R) p), (hfl (h := Q2R) q). rewrite <- unit_ht.
  rewrite <- (h_mergeExt (NA := Q_num) (NB := R_num) (h := Q2R)), E. destruct p, q. auto.
Qed.
