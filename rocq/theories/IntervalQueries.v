(** * C86: the questions a tracked interval answers *)
From Coq Require Import List Arith Bool ZArith Reals Lra Lia.
From Verif Require Import Num RSum Cheb Tensor PolySpec TransformModel TransformChebProofs LinearModel LinearProofs IntervalModel IntervalProofs IntervalProps.
Import ListNotations.
Local Open Scope R_scope.

(** ** Specification *)
(** the set of points a history of sub-boxes of [-1,1]^n stands for: the images of [-1,1]^n *)
Definition region (n : nat) (subs : list (list (R * R))) (x : list R) : Prop :=
  exists y, length y = n /\ Forall (fun v => -1 <= v <= 1) y /\ x = fold_right zoomOut y subs.
(** the part of the volume a sub-box of [-1,1]^n takes *)
Definition share (s : list (R * R)) : R := fold_right (fun p v => (snd p - fst p) / 2 * v) 1 s.

Lemma region_iff n subs x : Forall (fun s => inUnit s n) subs -> (region n subs x <-> inBox (ivl (history n subs)) x).
Proof. intros H. destruct (C19_interval_is_composed_transforms n subs H) as (_ & E & _). symmetry. apply E. Qed.
Lemma containsPt_iff (t : tint R) pt : length pt = length (ivl t) -> (@containsPt R R_num t pt = true <-> inBox (ivl t) pt).
Proof.
  unfold containsPt, inBox. generalize (ivl t). intros b. revert b. induction pt as [|v pt IH]; intros [|p b] L; try discriminate.
  - split; intros _; [constructor|reflexivity].
  - cbn [combine forallb fst snd]. injection L as L. specialize (IH b L). rewrite !andb_true_iff in *. unfold ngeb in *. cbn [nleb R_num] in *. rewrite !Rleb_true in *.
    split.
    + intros [[H1 H2] [H3 H4]]. constructor; [lra|]. apply IH. auto.
    + intros H. inversion H; subst. destruct (proj2 IH H5). repeat split; auto; lra.
Qed.

(** point in interval: precisely the points the interval stands for *)
Theorem C86_contains_exactly_the_points n subs pt : Forall (fun s => inUnit s n) subs -> length pt = n ->
  (@containsPt R R_num (history n subs) pt = true <-> region n subs pt).
Proof.
  intros H L. rewrite region_iff by auto. apply containsPt_iff. destruct (C19_interval_is_composed_transforms n subs H) as (_ & _ & _ & [E _]). congruence.
Qed.
Print Assumptions C86_contains_exactly_the_points.

(** size: the volume; [-1,1]^n has 2^n, and every step multiplies by the share of its sub-box *)
Theorem C86_size_is_the_volume n subs s : Forall (fun s => inUnit s n) subs -> inUnit s n ->
  @size R R_num (history n []) = 2 ^ n /\
  @size R R_num (history n (subs ++ [s])) = share s * @size R R_num (history n subs).
Proof.
  intros H Hs. split.
  - unfold size, history. cbn [fold_left newInterval ivl]. rewrite nprod_R. unfold boxDims, Rprod. clear. induction n; [reflexivity|].
    cbn [repeat map fold_right pow]. rewrite IHn. rnum. cbn [fst snd]. lra.
  - rewrite history_snoc. destruct (addTransform_sub n (history n subs) s Hs) as [E1 E2]. rewrite addTransform_eq by auto. rewrite E1.
    unfold size. rewrite !nprod_R. cbn [ivl].
    assert (Li : length (ivl (history n subs)) = n) by (destruct (C19_interval_is_composed_transforms n subs H) as (_ & _ & _ & [E _]); auto).
    destruct Hs as [Ls Hs]. revert Li. generalize (ivl (history n subs)). intros b Lb. rewrite <- Ls in Lb. clear -Lb Hs. revert b Lb Hs.
    unfold boxDims, share, Rprod. induction s as [|p s IH]; intros [|q b] L Hs; try discriminate; [cbn; lra|].
    inversion Hs; subst. cbn [combine map fold_right]. rewrite IH by auto. cbn [fst snd]. rewrite newRow_R by tauto. rnum. cbn [fst snd]. lra.
Qed.
Print Assumptions C86_size_is_the_volume.

(** overlapsWith: precisely when the two intervals have a point in common (before the final step) *)
Theorem C86_overlap_is_a_common_point n subs subs' : Forall (fun s => inUnit s n) subs -> Forall (fun s => inUnit s n) subs' ->
  (@overlapsWith R R_num (history n subs) (history n subs') = true <-> exists x, region n subs x /\ region n subs' x).
Proof.
  intros H H'. unfold overlapsWith, getIntervalForCombining. destruct (history_ok n subs H) as (_ & _ & -> & _). destruct (history_ok n subs' H') as (_ & _ & -> & _).
  assert (E : (exists x, region n subs x /\ region n subs' x) <-> exists x, inBox (ivl (history n subs)) x /\ inBox (ivl (history n subs')) x).
  { split; intros [x [H1 H2]]; exists x; [rewrite <- !region_iff by auto|rewrite !region_iff by auto]; auto. }
  rewrite E. clear E. destruct (C19_interval_is_composed_transforms n subs H) as (_ & _ & _ & [L1 F1]), (C19_interval_is_composed_transforms n subs' H') as (_ & _ & _ & [L2 F2]).
  revert L1 F1 L2 F2. generalize (ivl (history n subs)) (ivl (history n subs')). clear. intros b. revert n. induction b as [|p b IH]; intros n [|q c] L1 F1 L2 F2; cbn in L1, L2; try lia.
  - cbn. split; auto. intros _. exists []. split; constructor.
  - apply Forall_cons_iff in F1 as [P1 F1], F2 as [P2 F2]. unfold boxesOverlap. cbn [combine forallb fst snd].
    fold (@boxesOverlap R R_num b c). rewrite andb_true_iff, (IH (length b)) by (auto; lia). rewrite negb_true_iff, orb_false_iff. unfold ngtb. cbn [nltb R_num]. rewrite !Rltb_false.
    split.
    + intros [[A B] [x [X1 X2]]]. exists (Rmax (fst p) (fst q) :: x). split; constructor; auto; unfold Rmax; destruct (Rle_dec (fst p) (fst q)); lra.
    + intros [x [X1 X2]]. inversion X1; subst. inversion X2; subst. split; [lra|]. eauto.
Qed.
Print Assumptions C86_overlap_is_a_common_point.

(** isPoint: precisely when any two points of the interval differ by less than 10^-32 in every coordinate *)
Theorem C86_is_point n subs : Forall (fun s => inUnit s n) subs ->
  (@isPoint R R_num (history n subs) = true <->
   forall x x' i, region n subs x -> region n subs x' -> (i < n)%nat -> Rabs (nth i x 0 - nth i x' 0) < / 10 ^ 32).
Proof.
  intros H. unfold isPoint.
  assert (E10 : / 10 ^ 32 = @nlit R R_num 1 100000000000000000000000000000000) by (rewrite nlit_R; simpl; lra).
  rewrite E10. set (tol := nlit 1 100000000000000000000000000000000). clearbody tol. clear E10.
  destruct (C19_interval_is_composed_transforms n subs H) as (_ & _ & _ & [L F]).
  assert (E : (forall x x' i, region n subs x -> region n subs x' -> (i < n)%nat -> Rabs (nth i x 0 - nth i x' 0) < tol) <->
     (forall x x' i, inBox (ivl (history n subs)) x -> inBox (ivl (history n subs)) x' -> (i < n)%nat -> Rabs (nth i x 0 - nth i x' 0) < tol)).
  { split; intros G x x' i H1 H2; apply G; auto; apply region_iff; auto. }
  rewrite E. clear E. revert L F. generalize (ivl (history n subs)). clear. intros b L F. rewrite forallb_forall. split.
  - intros G x x' i H1 H2 Hi. apply (Forall2_nth_iff _ _ _ 0 (0, 0)) in H1 as [L1 H1], H2 as [L2 H2]. specialize (H1 i ltac:(lia)). specialize (H2 i ltac:(lia)).
    assert (I : In (nth i b (0, 0)) b) by (apply nth_In; lia). specialize (G (nth i b (0, 0)) I). clear I. cbn [nltb nabs nsub R_num] in G. apply Rltb_true in G. revert G H1 H2. generalize (nth i b (0, 0)) (nth i x 0) (nth i x' 0).
    intros p u v G H1 H2. cbv beta in H1, H2. rewrite Rabs_left1 in G by lra. unfold Rabs. destruct (Rcase_abs (u - v)); lra.
  - intros G p Hp. cbn [nltb nabs nsub R_num]. apply Rltb_true. destruct (In_nth _ _ (0, 0) Hp) as [i [Hi <-]].
    assert (Q : forall f : R * R -> R, (f = fst \/ f = snd) -> inBox b (map f b)).
    { intros f Hf. clear -F Hf. unfold inBox. induction F; cbn; constructor; auto. destruct Hf as [-> | ->]; lra. }
    specialize (G (map fst b) (map snd b) i (Q fst (or_introl eq_refl)) (Q snd (or_intror eq_refl)) ltac:(lia)).
    rewrite (nth_indep (map fst b) 0 (fst (0, 0))), (nth_indep (map snd b) 0 (snd (0, 0))), !map_nth in G by (rewrite map_length; auto). exact G.
Qed.
Print Assumptions C86_is_point.

(** two steps in dimension 2, and a neighbour that shares an edge with the first step's box *)
Example C86_case : let subs := [[(-1, 0); (0, 1)]; [(-1/2, 1/2); (-1, 1)]] in Forall (fun s => inUnit s 2) subs /\ Forall (fun s => inUnit s 2) [[(-1, 0); (-1, 0)]] /\
  region 2 subs [-1/2; 1/2] /\ share [(-1/2, 1/2); (-1, 1)] = 1/2 /\ (exists x, region 2 subs x /\ region 2 [[(-1, 0); (-1, 0)]] x).
Proof.
  split; [repeat constructor; cbn; lra|]. split; [repeat constructor; cbn; lra|]. split; [|split].
  - exists [0; 0]. split; [reflexivity|]. split; [repeat constructor; lra|]. cbn. f_equal; [lra|]. f_equal. lra.
  - cbn. lra.
  - exists [-1/2; 0]. split.
    + exists [0; -1]. split; [reflexivity|]. split; [repeat constructor; lra|]. cbn. f_equal; [lra|]. f_equal. lra.
    + exists [0; 1]. split; [reflexivity|]. split; [repeat constructor; lra|]. cbn. f_equal; [lra|]. f_equal. lra.
Qed.
