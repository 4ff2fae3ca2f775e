(** * get_subintervals: covering, area bookkeeping, independence of the past *)
From Coq Require Import List Arith Bool ZArith Reals Lra Lia.
From Verif Require Import Num RSum Cheb Tensor PolySpec TransformModel TransformChebProofs PartProofs IntervalProofs LinearProofs.
From Verif Require Import QuadModel QuadProofs QuadNdProofs QuadNdFaces SubcheckModel SubcheckProofs SubcheckBound SubcheckBoundN SubcheckStrict.
Import ListNotations.
Local Open Scope R_scope.

(** ** Coordinates *)
Lemma mapBounds_len (f : R -> R -> R -> R) a b x : length b = length a -> length x = length a -> length (mapBounds f a b x) = length a.
Proof. intros. unfold mapBounds. rewrite map_length, !combine_length. lia. Qed.
Lemma mapBounds_nth (f : R -> R -> R -> R) a b x i : length b = length a -> length x = length a -> (i < length a)%nat ->
  nth i (mapBounds f a b x) 0 = f (nth i a 0) (nth i b 0) (nth i x 0).
Proof.
  intros Hb Hx Hi. unfold mapBounds. set (F := fun p : R * R * R => f (fst (fst p)) (snd (fst p)) (snd p)).
  rewrite nth_indep with (d' := F (0, 0, 0)) by (rewrite map_length, !combine_length; lia). rewrite map_nth.
  rewrite combine_nth by (rewrite combine_length; lia). rewrite combine_nth by lia. reflexivity.
Qed.
Lemma scale1_R a b x : @scale1 R R_num a b x = (x * (b - a) + (b + a)) / 2.
Proof. unfold scale1. rewrite n2_R. rnum. reflexivity. Qed.
Lemma transform1_R a b x : @transform1 R R_num a b x = ((b - a) * x + (b + a)) / 2.
Proof. unfold transform1. rewrite n2_R. rnum. reflexivity. Qed.
Lemma middle_R : -1 < @middleVal R R_num < 1.
Proof. unfold middleVal, RAND. rewrite nlit_R, n2_R. rnum. lra. Qed.

(** ** The 2^n sub-intervals of the cube cover it *)
Definition subBox (spot : list nat) : @sbox R :=
  (map (fun v => if (v =? 0)%nat then -1 else @middleVal R R_num) spot, map (fun v => if (v =? 0)%nat then @middleVal R R_num else 1) spot).
Lemma unitSubs_R dim : @unitSubs R R_num dim = map subBox (indices (repeat 2%nat dim)).
Proof. reflexivity. Qed.
Lemma unitSubs_len dim : length (@unitSubs R R_num dim) = (2 ^ dim)%nat.
Proof. rewrite unitSubs_R, map_length, length_indices. induction dim; simpl; auto. Qed.
Lemma unitSubs_shape dim s : In s (@unitSubs R R_num dim) -> length (fst s) = dim /\ length (snd s) = dim /\
  forall i, (i < dim)%nat -> -1 <= lo s i < hi s i /\ hi s i <= 1.
Proof.
  rewrite unitSubs_R. intros H. apply in_map_iff in H. destruct H as (spot & <- & H). apply in_indices in H.
  assert (Hl : length spot = dim) by (apply inrange_length in H; rewrite repeat_length in H; auto).
  unfold subBox, lo, hi. cbn [fst snd n0 R_num]. rewrite !map_length. split; auto. split; auto. intros i Hi.
  pose proof middle_R. set (m := @middleVal R R_num) in *.
  rewrite (nth_indep (map (fun v => if (v =? 0)%nat then -1 else m) spot) 0 ((fun v => if (v =? 0)%nat then -1 else m) 0%nat)) by (rewrite map_length; lia).
  rewrite (nth_indep (map (fun v => if (v =? 0)%nat then m else 1) spot) 0 ((fun v => if (v =? 0)%nat then m else 1) 0%nat)) by (rewrite map_length; lia).
  rewrite (map_nth (fun v => if (v =? 0)%nat then -1 else m)), (map_nth (fun v => if (v =? 0)%nat then m else 1)). destruct (nth i spot 0%nat =? 0)%nat; lra.
Qed.
Lemma unitSubs_cover dim u : in_cube dim u -> exists s, In s (@unitSubs R R_num dim) /\ in_sbox dim s u.
Proof.
  intros [Hl Hu]. rewrite unitSubs_R.
  set (spot := map (fun v => if Rle_dec v (@middleVal R R_num) then 0%nat else 1%nat) u).
  exists (subBox spot). split.
  - apply in_map. apply in_indices. unfold spot. rewrite <- Hl. clear. induction u; simpl; constructor; auto. destruct Rle_dec; lia.
  - split; auto. intros i Hi. unfold subBox. cbn [fst snd]. pose proof middle_R. set (m := @middleVal R R_num) in *.
    assert (Hls : length spot = dim) by (unfold spot; rewrite map_length; auto).
    rewrite (nth_indep (map (fun v => if (v =? 0)%nat then -1 else m) spot) 0 ((fun v => if (v =? 0)%nat then -1 else m) 0%nat)) by (rewrite map_length; lia).
    rewrite (nth_indep (map (fun v => if (v =? 0)%nat then m else 1) spot) 0 ((fun v => if (v =? 0)%nat then m else 1) 0%nat)) by (rewrite map_length; lia).
    rewrite (map_nth (fun v => if (v =? 0)%nat then -1 else m)), (map_nth (fun v => if (v =? 0)%nat then m else 1)).
    assert (Es : nth i spot 0%nat = if Rle_dec (nth i u 0) m then 0%nat else 1%nat).
    { unfold spot. rewrite nth_indep with (d' := (fun v => if Rle_dec v m then 0%nat else 1%nat) 0) by (rewrite map_length; lia). apply (map_nth (fun v => if Rle_dec v m then 0%nat else 1%nat)). }
    assert (Hi' : -1 <= nth i u 0 <= 1) by (apply Forall_nth; auto; lia).
    rewrite Es. destruct Rle_dec; simpl; lra.
Qed.

(** ** Masks *)
Lemma in_select {A} (m : list bool) (l : list A) j d : (j < length m)%nat -> (j < length l)%nat -> nth j m false = true -> In (nth j l d) (select m l).
Proof.
  unfold select. revert l j. induction m as [|b m IH]; intros [|x l] j H1 H2 Hj; simpl in *; try lia.
  destruct j; [subst b; simpl; left; auto|]. destruct b; simpl; [right|]; apply IH; auto; lia.
Qed.
Lemma select_incl {A} (m : list bool) (l : list A) x : In x (select m l) -> In x l.
Proof.
  unfold select. intros H. apply in_map_iff in H. destruct H as ((b, y) & <- & H). apply filter_In in H. destruct H as [H _]. apply in_combine_r in H. exact H.
Qed.
Lemma mask_step (m out : list bool) j : length out = length m -> (j < length m)%nat ->
  nth j (map (fun p : bool * bool => fst p && negb (snd p)) (combine m out)) false = nth j m false && negb (nth j out false).
Proof.
  revert out j. induction m as [|b m IH]; intros [|o out] j Hl Hj; simpl in *; try lia. destruct j; auto. apply IH; lia.
Qed.
Lemma mask_step_len (m out : list bool) : length out = length m -> length (map (fun p : bool * bool => fst p && negb (snd p)) (combine m out)) = length m.
Proof. intros. rewrite map_length, combine_length. lia. Qed.

Section Run.
  Variable rank_full : list (list R) -> bool.
  Variable solve : list (list R) -> list R -> list R.
  Variables subs news : list (@sbox R).

  Lemma runChecks_len ps : forall m, length m = length subs -> length (fst (runChecks rank_full solve subs news ps m)) = length m.
  Proof.
    induction ps as [|[P e] ps IH]; intros m Hm; cbn [runChecks]; [reflexivity|].
    pose proof (quadratic_check_length rank_full solve P m e subs Hm) as Hq.
    set (m1 := map _ (combine m _)). assert (Hl : length m1 = length m) by (apply mask_step_len; auto).
    specialize (IH m1 ltac:(lia)). destruct (runChecks rank_full solve subs news ps m1) as [m' l]. cbn [fst] in *. lia.
  Qed.
  Lemma runChecks_keep d ps : forall m j, length m = length subs -> (j < length m)%nat -> nth j m false = true ->
    (forall P e, In (P, e) ps -> throwOne rank_full solve P e (nth j subs d) = false) ->
    nth j (fst (runChecks rank_full solve subs news ps m)) false = true.
  Proof.
    induction ps as [|[P e] ps IH]; intros m j Hm Hj Hmj Hall; cbn [runChecks]; [auto|].
    pose proof (quadratic_check_length rank_full solve P m e subs Hm) as Hq.
    pose proof (quadratic_check_nth rank_full solve P m e subs j d Hj ltac:(lia)) as Hqj.
    set (m1 := map _ (combine m _)). assert (Hl : length m1 = length m) by (apply mask_step_len; auto).
    assert (Hm1 : nth j m1 false = true).
    { unfold m1. rewrite mask_step by auto. rewrite Hqj, Hmj, (Hall P e) by (left; auto). reflexivity. }
    specialize (IH m1 j ltac:(lia) ltac:(lia) Hm1 (fun P' e' H => Hall P' e' (or_intror H))).
    destruct (runChecks rank_full solve subs news ps m1) as [m' l]. cbn [fst] in *. exact IH.
  Qed.
  Definition totalArea (l : list (@sbox R)) : R := Rsum (map (@boxArea R R_num) l).
  Lemma totalArea_app l l' : totalArea (l ++ l') = totalArea l + totalArea l'.
  Proof. unfold totalArea. rewrite map_app, Rsum_app. auto. Qed.
  Lemma select_split (m out : list bool) : forall l, length out = length m -> (forall j, nth j out false = true -> nth j m false = true) ->
    totalArea (select m l) = totalArea (select out l) + totalArea (select (map (fun p : bool * bool => fst p && negb (snd p)) (combine m out)) l).
  Proof.
    revert out. induction m as [|b m IH]; intros [|o out] l Hl Hsub; try discriminate.
    - unfold totalArea, select; simpl; lra.
    - destruct l as [|x l]; [unfold totalArea, select; simpl; lra|]. injection Hl as Hl.
      specialize (IH out l Hl (fun j => Hsub (S j))). pose proof (Hsub 0%nat) as H0. simpl in H0.
      unfold totalArea, select in *. destruct b; destruct o; simpl in *; try lra; try (specialize (H0 eq_refl); discriminate).
  Qed.
  Lemma runChecks_area ps : forall m, length m = length subs ->
    totalArea (select m news) = totalArea (select (fst (runChecks rank_full solve subs news ps m)) news) + totalArea (snd (runChecks rank_full solve subs news ps m)).
  Proof.
    induction ps as [|[P e] ps IH]; intros m Hm; cbn [runChecks]; [unfold totalArea at 3; simpl; lra|].
    pose proof (quadratic_check_length rank_full solve P m e subs Hm) as Hq.
    set (out := quadratic_check rank_full solve P m e subs) in *.
    set (m1 := map _ (combine m out)). assert (Hl : length m1 = length m) by (apply mask_step_len; auto).
    specialize (IH m1 ltac:(lia)). destruct (runChecks rank_full solve subs news ps m1) as [m' l]. cbn [fst snd] in *.
    rewrite totalArea_app. rewrite (select_split m out news Hq).
    - fold m1. lra.
    - intros j Hj. destruct (Nat.lt_ge_cases j (length m)) as [Hlt|Hge].
      + unfold out in Hj. rewrite (quadratic_check_nth rank_full solve P m e subs j ([], []) Hlt ltac:(lia)) in Hj. destruct (nth j m false); auto.
      + rewrite nth_overflow in Hj by lia. discriminate.
  Qed.
  Lemma runChecks_thrown_in ps : forall m s, In s (snd (runChecks rank_full solve subs news ps m)) -> In s news.
  Proof.
    induction ps as [|[P e] ps IH]; intros m s Hs; cbn [runChecks] in Hs; [destruct Hs|].
    set (m1 := map _ (combine m _)) in *. specialize (IH m1 s). destruct (runChecks rank_full solve subs news ps m1) as [m' l]. cbn [snd] in *.
    apply in_app_iff in Hs. destruct Hs as [Hs|Hs]; [eapply select_incl; eauto|auto].
  Qed.
End Run.

Lemma select_all {A} (l : list A) k : length l = k -> select (repeat true k) l = l.
Proof. revert k. induction l as [|x l IH]; intros k <-; [reflexivity|]. unfold select in *. simpl. f_equal. apply IH; auto. Qed.

(** ** Areas *)
Lemma boxArea_cons (x y : R) xs ys : @boxArea R R_num (x :: xs, y :: ys) = (y - x) * @boxArea R R_num (xs, ys).
Proof. unfold boxArea. rewrite !nprod_R. cbn [fst snd combine map]. rnum. reflexivity. Qed.
Lemma boxArea_nil : @boxArea R R_num ([], []) = 1.
Proof. unfold boxArea. rewrite nprod_R. reflexivity. Qed.
Lemma scaleBox_cons x y a b l1 h1 l2 h2 : @scaleBox R R_num (x :: a) (y :: b) (l1 :: l2, h1 :: h2) =
  (@scale1 R R_num x y l1 :: fst (@scaleBox R R_num a b (l2, h2)), @scale1 R R_num x y h1 :: snd (@scaleBox R R_num a b (l2, h2))).
Proof. reflexivity. Qed.
Lemma scale_area_cons x y a b l1 h1 l2 h2 : @boxArea R R_num (@scaleBox R R_num (x :: a) (y :: b) (l1 :: l2, h1 :: h2)) =
  (y - x) * (h1 - l1) / 2 * @boxArea R R_num (@scaleBox R R_num a b (l2, h2)).
Proof. rewrite scaleBox_cons, boxArea_cons, !scale1_R. rewrite <- surjective_pairing. f_equal. field. Qed.
Lemma news_area dim : forall a b, length a = dim -> length b = dim ->
  totalArea (map (@scaleBox R R_num a b) (@unitSubs R R_num dim)) = @boxArea R R_num (a, b).
Proof.
  induction dim as [|n IH]; intros a b Ha Hb.
  - destruct a; [|discriminate]. destruct b; [|discriminate]. unfold totalArea. cbn. unfold boxArea. cbn. lra.
  - destruct a as [|x a]; [discriminate|]. destruct b as [|y b]; [discriminate|]. injection Ha as Ha. injection Hb as Hb.
    specialize (IH a b Ha Hb). rewrite unitSubs_R in *. cbn [repeat]. rewrite indices_cons. cbn [seq flat_map]. rewrite app_nil_r.
    rewrite !map_app, totalArea_app, !map_map. rewrite boxArea_cons, <- IH. unfold totalArea. rewrite !map_map.
    rewrite (Rsum_map_ext (fun x0 => boxArea (scaleBox (x :: a) (y :: b) (subBox (0%nat :: x0)))) (fun s => (y - x) * (@middleVal R R_num - -1) / 2 * boxArea (scaleBox a b (subBox s)))) by (intros s _; apply scale_area_cons).
    rewrite (Rsum_map_ext (fun x0 => boxArea (scaleBox (x :: a) (y :: b) (subBox (1%nat :: x0)))) (fun s => (y - x) * (1 - @middleVal R R_num) / 2 * boxArea (scaleBox a b (subBox s)))) by (intros s _; apply scale_area_cons).
    rewrite !Rsum_map_scal. field.
Qed.
Lemma track_area l : forall d, area (fold_left (@track R R_num) l d) = area d + totalArea l.
Proof. induction l as [|s l IH]; intros d; cbn [fold_left]; [unfold totalArea; simpl; lra|]. rewrite IH. unfold track, totalArea. cbn [area map]. rnum. change (Rsum (?a :: ?l)) with (a + Rsum l). lra. Qed.
Lemma track_mask l : forall d, mask (fold_left (@track R R_num) l d) = mask d.
Proof. induction l as [|s l IH]; intros d; cbn [fold_left]; auto. rewrite IH. reflexivity. Qed.
Lemma transformBox_area a b s : length b = length a -> length (fst s) = length a -> length (snd s) = length a -> @boxArea R R_num s = 0 -> @boxArea R R_num (@transformBox R R_num a b s) = 0.
Proof.
  destruct s as [l h]. cbn [fst snd]. intros Hb Hl Hh Hz.
  assert (E : forall a b l h, length b = length a -> length l = length a -> length h = length a ->
    exists c, @boxArea R R_num (@transformBox R R_num a b (l, h)) = c * @boxArea R R_num (l, h)).
  { clear. induction a as [|x a IH]; intros [|y b] [|l1 l] [|h1 h] Hb Hl Hh; try discriminate.
    - exists 1. unfold transformBox, mapBounds. simpl. ring.
    - injection Hb as Hb. injection Hl as Hl. injection Hh as Hh. destruct (IH b l h Hb Hl Hh) as (c & Hc).
      exists ((y - x) / 2 * c). change (@transformBox R R_num (x :: a) (y :: b) (l1 :: l, h1 :: h)) with (@transform1 R R_num x y l1 :: fst (@transformBox R R_num a b (l, h)), @transform1 R R_num x y h1 :: snd (@transformBox R R_num a b (l, h))).
      rewrite !boxArea_cons, <- surjective_pairing, Hc, !transform1_R. field. }
  destruct (E a b l h Hb Hl Hh) as (c & ->). rewrite Hz. ring.
Qed.

(** ** The sub-intervals of [a, b] *)
Definition in_list (a b x : list R) : Prop := in_sbox (length a) (a, b) x.
(** the point of the cube that corresponds to [x] in [a, b] *)
Definition unitPoint (a b x : list R) : list R := mapBounds (fun l h v => (2 * v - l - h) / (h - l)) a b x.

Section Sub.
  Variables a b : list R.
  Hypothesis Hab : length b = length a.
  Hypothesis Hlt : forall i, (i < length a)%nat -> nth i a 0 < nth i b 0.
  Let n := length a.

  Lemma unit_cube x : in_sbox n (a, b) x -> in_cube n (unitPoint a b x).
  Proof.
    intros [Hl Hx]. unfold n in *. split; [apply mapBounds_len; auto|]. apply Forall_nth. intros i d Hi. unfold unitPoint in *. rewrite mapBounds_len in Hi by auto.
    rewrite nth_indep with (d' := 0) by (rewrite mapBounds_len; auto). rewrite mapBounds_nth by auto. specialize (Hx i Hi). cbn [fst snd] in Hx. specialize (Hlt i Hi).
    set (l := nth i a 0) in *. set (h := nth i b 0) in *. set (v := nth i x 0) in *.
    split; [apply Rmult_le_reg_r with (h - l)|apply Rmult_le_reg_r with (h - l)]; try lra; replace ((2 * v - l - h) / (h - l) * (h - l)) with (2 * v - l - h) by (field; lra); lra.
  Qed.
  Lemma unit_back x i : length x = n -> (i < n)%nat -> ((nth i b 0 - nth i a 0) * nth i (unitPoint a b x) 0 + (nth i b 0 + nth i a 0)) / 2 = nth i x 0.
  Proof. intros Hl Hi. unfold unitPoint. rewrite mapBounds_nth by auto. specialize (Hlt i Hi). field. lra. Qed.
  Lemma mapped_in (f : R -> R -> R -> R) s x : (forall l h v, f l h v = ((h - l) * v + (h + l)) / 2) ->
    length (fst s) = n -> length (snd s) = n -> length x = n -> (forall i, (i < n)%nat -> lo s i <= nth i (unitPoint a b x) 0 <= hi s i) ->
    in_sbox n (mapBounds f a b (fst s), mapBounds f a b (snd s)) x.
  Proof.
    intros Hf H1 H2 Hx H. split; auto. intros i Hi. cbn [fst snd]. unfold n in *. rewrite !mapBounds_nth by auto. rewrite !Hf. rewrite <- (unit_back x i) at 1 2 by auto.
    specialize (H i Hi). unfold lo, hi in H. cbn [n0 R_num] in H. specialize (Hlt i Hi). split; apply Rmult_le_reg_r with 2; try lra; unfold Rdiv; rewrite !Rmult_assoc, !Rinv_l by lra; nra.
  Qed.
  Lemma scaleBox_in s x : length (fst s) = n -> length (snd s) = n -> length x = n -> (forall i, (i < n)%nat -> lo s i <= nth i (unitPoint a b x) 0 <= hi s i) ->
    in_sbox n (@scaleBox R R_num a b s) x.
  Proof. intros. apply mapped_in; auto. intros. rewrite scale1_R. f_equal. ring. Qed.
  Lemma transformBox_in s x : length (fst s) = n -> length (snd s) = n -> length x = n -> (forall i, (i < n)%nat -> lo s i <= nth i (unitPoint a b x) 0 <= hi s i) ->
    in_sbox n (@transformBox R R_num a b s) x.
  Proof. intros. apply mapped_in; auto. intros. apply transform1_R. Qed.
End Sub.

Lemma goodBox_area n s x : goodBox n s x -> 0 < @boxArea R R_num s.
Proof.
  intros (H1 & H2 & H). destruct s as [l h]. cbn [fst snd] in *. revert n x h H1 H2 H.
  induction l as [|l1 l IH]; intros n x [|h1 h] H1 H2 H; simpl in H1, H2; try lia.
  - rewrite boxArea_nil. lra.
  - rewrite boxArea_cons. destruct n as [|n]; [lia|]. pose proof (H 0%nat ltac:(lia)) as H0. unfold lo, hi in H0. simpl in H0.
    apply Rmult_lt_0_compat; [lra|]. apply (IH n (tl x) h); [lia|lia|]. intros i Hi. specialize (H (S i) ltac:(lia)). unfold lo, hi in *. simpl in *.
    destruct x; simpl in *; auto. destruct i; auto.
Qed.

Lemma small_dim_keeps rank_full solve P e dim s u v : sym_solver_ok dim rank_full solve -> (dim <= 3)%nat -> wf P -> ndim P = dim ->
  in_cube dim u -> in_sbox dim s u -> Rabs (v - cheb_eval P u) < e -> v = 0 -> @throwOne R R_num rank_full solve P e s = false.
Proof.
  intros Hs Hd Hw HP Hu Hin Hv Hz. destruct (throwOne rank_full solve P e s) eqn:E; auto. exfalso. revert Hz. subst dim.
  apply (throwOne_sound P e s Hw u v Hu Hin Hv rank_full solve Hs); auto.
  destruct (ndim P) as [|[|[|[|k]]]]; auto; try lia; right; right; intros i Hi; assert (i = 0%nat) by lia; subst; auto.
Qed.

Section Get.
  Variable lasolve : list (list R) -> list R -> option (list R).
  Variable rank_full : list (list R) -> bool.
  Variable solve : list (list R) -> list R -> list R.
  Variable methods : list reduction.
  Variables a b : list R.
  Variable polys : list (tensor R).
  Variable errors : list R.
  Variable checks : bool.
  Let n := length a.
  Hypothesis Hab : length b = length a.
  Hypothesis Hlt : forall i, (i < length a)%nat -> nth i a 0 < nth i b 0.
  Definition boundOf := match methods with [] => Done None | _ => getBoundingInterval lasolve polys errors methods end.
  Definition newSubs : list (@sbox R) := map (@scaleBox R R_num a b) (@unitSubs R R_num n).
  Definition checked : list bool * list (@sbox R) :=
    if checks then runChecks rank_full solve (@unitSubs R R_num n) newSubs (combine polys errors) (repeat true (2 ^ n)) else (repeat true (2 ^ n), []).
  (** what the call does, without the logs *)
  Inductive course : list (@sbox R) -> R -> Prop :=
  | course_none s : boundOf = Done (Some s) -> @boxArea R R_num s = 0 -> course [] (@boxArea R R_num (a, b) - @boxArea R R_num (@transformBox R R_num a b s))
  | course_bound s : boundOf = Done (Some s) -> @boxArea R R_num s <> 0 -> course [@transformBox R R_num a b s] (@boxArea R R_num (a, b) - @boxArea R R_num (@transformBox R R_num a b s))
  | course_split : (boundOf = Done None \/ exists s, boundOf = Done (Some s)) -> course (select (fst checked) newSubs) (totalArea (snd checked)).

  Lemma get_course d out d' : length (mask d) = (2 ^ n)%nat ->
    get_subintervals lasolve rank_full solve methods a b polys errors checks d = Done (out, d') ->
    exists v, course out v /\ area d' = area d + v.
  Proof.
    intros Hm H. unfold get_subintervals in H. fold boundOf in H. fold n in H. fold newSubs in H. cbn [mask area polishing quadLog boundLog] in H. rewrite Hm in H.
    pose proof (eq_refl checked) as Ec. unfold checked in Ec at 1. cbv zeta in H.
    destruct boundOf as [[s|]| |] eqn:Eb; try discriminate; cbn [option_map] in H.
    - cbn [neqb n0 R_num] in H. destruct (Reqb (boxArea s) 0) eqn:E0.
      { apply Reqb_true in E0. injection H as <- <-. eexists. split; [apply (course_none s); auto|]. unfold trackBounded. cbn [area]. rnum. reflexivity. }
      apply Reqb_false in E0. destruct (nltb (boxArea s) (nlit 1 2)).
      { injection H as <- <-. eexists. split; [apply (course_bound s); auto|]. unfold trackBounded. cbn [area]. rnum. reflexivity. }
      match type of H with (let '(_, _) := ?c in _) = _ => change c with checked in H end. destruct checked as [m thrown] eqn:Ek.
      destruct (nltb (boxArea s) _ && _).
      + injection H as <- <-. eexists. split; [apply (course_bound s); auto|]. unfold trackBounded. cbn [area]. rnum. reflexivity.
      + injection H as <- <-. exists (totalArea thrown). rewrite track_area. cbn [area]. split; auto.
        replace m with (fst checked) by (rewrite Ek; auto). replace thrown with (snd checked) by (rewrite Ek; auto). apply course_split. right. eauto.
    - match type of H with (let '(_, _) := ?c in _) = _ => change c with checked in H end. destruct checked as [m thrown] eqn:Ek.
      injection H as <- <-. exists (totalArea thrown). rewrite track_area. cbn [area]. split; auto.
      replace m with (fst checked) by (rewrite Ek; auto). replace thrown with (snd checked) by (rewrite Ek; auto). apply course_split. auto.
  Qed.
  Lemma newSubs_len : length newSubs = (2 ^ n)%nat.
  Proof. unfold newSubs. rewrite map_length. apply unitSubs_len. Qed.

  Theorem cover d out d' x : lasolve_ok n lasolve -> sym_solver_ok n rank_full solve -> (checks = false \/ (n <= 3)%nat) ->
    length (mask d) = (2 ^ n)%nat -> in_sbox n (a, b) x -> zeroAt n polys errors (unitPoint a b x) ->
    get_subintervals lasolve rank_full solve methods a b polys errors checks d = Done (out, d') -> exists s, In s out /\ in_sbox n s x.
  Proof.
    intros Hla Hsy Hck Hm Hx Hz Hg. destruct (get_course d out d' Hm Hg) as (v & Hc & _).
    pose proof (unit_cube a b Hab Hlt x Hx) as Hu. fold n in Hu. destruct Hx as [Hxl Hxb].
    assert (Hbd : forall s, boundOf = Done (Some s) -> goodBox n s (unitPoint a b x)).
    { intros s Hs. unfold boundOf in Hs. destruct methods as [|m ms] eqn:Em; [discriminate|]. exact (getBounding_strict n lasolve polys errors (m :: ms) s _ Hla Hu Hz Hs). }
    inversion Hc as [s Hs H0 E1 E2|s Hs H0 E1 E2|Hs E1 E2].
    - pose proof (goodBox_area _ _ _ (Hbd s Hs)). lra.
    - destruct (Hbd s Hs) as (L1 & L2 & Hin). exists (transformBox a b s). split; [left; auto|]. apply transformBox_in; auto. intros i Hi. apply (Hin i Hi).
    - destruct (unitSubs_cover n _ Hu) as (s & Hsin & Hsu). destruct (unitSubs_shape n s Hsin) as (L1 & L2 & _).
      pose (d0 := ([], []) : @sbox R). destruct (In_nth _ _ d0 Hsin) as (j & Hj & Ej). rewrite unitSubs_len in Hj.
      exists (scaleBox a b s). split.
      + assert (Enth : nth j newSubs (@scaleBox R R_num a b d0) = @scaleBox R R_num a b s) by (unfold newSubs; rewrite (map_nth (@scaleBox R R_num a b)); f_equal; exact Ej).
        rewrite <- Enth.
        assert (Hkeep : nth j (fst checked) false = true).
        { unfold checked. destruct checks eqn:Ec; [|cbn [fst]; rewrite (nth_indep (repeat true (2 ^ n)) false true) by (rewrite repeat_length; auto); apply nth_repeat].
          apply (runChecks_keep rank_full solve _ newSubs d0); rewrite ?repeat_length, ?unitSubs_len; auto.
          - rewrite (nth_indep (repeat true (2 ^ n)) false true) by (rewrite repeat_length; auto); apply nth_repeat.
          - intros P e HPe. rewrite Ej. pose proof (combine_F2 _ _ _ Hz) as HF. rewrite Forall_forall in HF. destruct (HF _ HPe) as (Hw & HP & Hv). cbn [fst snd] in *.
            apply (small_dim_keeps rank_full solve P e n s (unitPoint a b x) 0); auto. destruct Hck; [discriminate|auto]. }
        apply in_select; rewrite ?newSubs_len; auto.
        unfold checked. destruct checks; [rewrite runChecks_len|]; cbn [fst]; rewrite ?repeat_length, ?unitSubs_len; auto.
      + destruct Hsu as [_ Hsu]. apply scaleBox_in; auto.
  Qed.

  Theorem area_balance d out d' : length (mask d) = (2 ^ n)%nat -> (forall s, boundOf = Done (Some s) -> length (fst s) = n /\ length (snd s) = n) ->
    get_subintervals lasolve rank_full solve methods a b polys errors checks d = Done (out, d') ->
    area d' + totalArea out = area d + @boxArea R R_num (a, b).
  Proof.
    intros Hm Hlen Hg. destruct (get_course d out d' Hm Hg) as (v & Hc & ->). inversion Hc as [s Hs H0 E1 E2|s Hs H0 E1 E2|Hs E1 E2].
    - destruct (Hlen s Hs). rewrite transformBox_area by auto. unfold totalArea. simpl. lra.
    - unfold totalArea. simpl. lra.
    - assert (E : totalArea (select (fst checked) newSubs) + totalArea (snd checked) = totalArea newSubs).
      { rewrite <- (select_all newSubs _ newSubs_len) at 2. unfold checked. destruct checks.
        - rewrite (runChecks_area rank_full solve (@unitSubs R R_num n) newSubs (combine polys errors) (repeat true (2 ^ n))) by (rewrite repeat_length, unitSubs_len; auto). lra.
        - cbn [fst snd]. unfold totalArea at 2. simpl. lra. }
      assert (EA : totalArea newSubs = boxArea (a, b)) by (unfold newSubs; apply news_area; auto). lra.
  Qed.

  Theorem inside d out d' : length (mask d) = (2 ^ n)%nat ->
    (forall s, boundOf = Done (Some s) -> length (fst s) = n /\ length (snd s) = n /\ forall i, (i < n)%nat -> -1 <= lo s i <= hi s i /\ hi s i <= 1) ->
    get_subintervals lasolve rank_full solve methods a b polys errors checks d = Done (out, d') ->
    forall s, In s out -> length (fst s) = n /\ length (snd s) = n /\ forall i, (i < n)%nat -> nth i a 0 <= lo s i <= hi s i /\ hi s i <= nth i b 0.
  Proof.
    intros Hm Hlen Hg s Hs.
    assert (K : forall (f : R -> R -> R -> R) s, (forall l h v, f l h v = ((h - l) * v + (h + l)) / 2) -> length (fst s) = n -> length (snd s) = n -> (forall i, (i < n)%nat -> -1 <= lo s i <= hi s i /\ hi s i <= 1) ->
      let t := (mapBounds f a b (fst s), mapBounds f a b (snd s)) in length (fst t) = n /\ length (snd t) = n /\ forall i, (i < n)%nat -> nth i a 0 <= lo t i <= hi t i /\ hi t i <= nth i b 0).
    { intros f s0 Hf L1 L2 HB. cbv zeta. cbn [fst snd]. split; [apply mapBounds_len; auto|]. split; [apply mapBounds_len; auto|]. intros i Hi. unfold lo, hi in *. cbn [fst snd n0 R_num] in *.
      rewrite !mapBounds_nth by auto. rewrite !Hf. specialize (HB i Hi). specialize (Hlt i Hi). nra. }
    destruct (get_course d out d' Hm Hg) as (v & Hc & _). inversion Hc as [s0 Hs0 H0 E1 E2|s0 Hs0 H0 E1 E2|Hs0 E1 E2]; subst out.
    - destruct Hs.
    - destruct Hs as [<-|[]]. destruct (Hlen s0 Hs0) as (L1 & L2 & HB). apply K; auto. apply transform1_R.
    - apply select_incl in Hs. unfold newSubs in Hs. apply in_map_iff in Hs. destruct Hs as (s0 & <- & Hin). destruct (unitSubs_shape n s0 Hin) as (L1 & L2 & HB).
      apply K; auto; [intros; rewrite scale1_R; f_equal; ring|]. intros i Hi. specialize (HB i Hi). lra.
  Qed.
End Get.

(** the lengths and the range of the bounding interval *)
Lemma bounding_shape n lasolve polys errors methods s : Forall (fun P : tensor R => ndim P = n) polys -> length errors = length polys ->
  getBoundingInterval lasolve polys errors methods = Done (Some s) ->
  length (fst s) = n /\ length (snd s) = n /\ forall i, (i < n)%nat -> -1 <= lo s i <= hi s i /\ hi s i <= 1.
Proof.
  intros HP He H. unfold getBoundingInterval in H. destruct polys as [|P polys]; [discriminate|]. inversion HP as [|? ? D HP']; subst.
  destruct (length (P :: polys) =? ndim P)%nat eqn:El; cbn [negb] in H; [|discriminate]. apply Nat.eqb_eq in El. rewrite <- El.
  assert (K : forall l, let q := @widthCheck R R_num (@mergeIntervals R R_num l) in -1 <= fst q <= snd q /\ snd q <= 1).
  { intros l. cbv zeta. pose proof (width_range (@mergeIntervals R R_num l)) as R1. pose proof (width_ordered _ (merge_ordered l)) as R2. cbv zeta in R1, R2. lra. }
  destruct (length (P :: polys) =? 2)%nat eqn:E2.
  - apply Nat.eqb_eq in E2. rewrite E2. unfold bounding2D in H. destruct (hasLinear P && _); [|discriminate]. cbv zeta in H. injection H as <-.
    split; auto. split; auto. intros [|[|i]] Hi; [| |lia]; unfold lo, hi; cbn [fst snd nth]; apply K.
  - unfold boundingND in H. destruct (forallb _ _); [|discriminate]. destruct (reduceN _ _ _ _) as [acc| |] eqn:Er; try discriminate. cbv zeta in H. injection H as <-.
    apply reduceN_length in Er. rewrite repeat_length, combine_length, He, Nat.min_id in Er. cbn [fst snd]. rewrite !map_length, Er. split; auto. split; auto. intros i Hi.
    unfold lo, hi. cbn [fst snd n0 R_num]. rewrite !map_map.
    set (F := fun c => fst (@widthCheck R R_num (mergeIntervals c))). set (G := fun c => snd (@widthCheck R R_num (mergeIntervals c))).
    rewrite nth_indep with (d' := F []) by (rewrite map_length; lia). rewrite (map_nth F).
    rewrite (nth_indep (map G acc)) with (d' := G []) by (rewrite map_length; lia). rewrite (map_nth G). apply K.
Qed.

(** the earlier calls leave no trace in the result *)
Theorem history_free lasolve rank_full solve methods a b (polys : list (tensor R)) errors checks d1 d2 : length (mask d1) = length (mask d2) ->
  match @get_subintervals R R_num lasolve rank_full solve methods a b polys errors checks d1, @get_subintervals R R_num lasolve rank_full solve methods a b polys errors checks d2 with
  | Done (o1, e1), Done (o2, e2) => o1 = o2 /\ area e1 - area d1 = area e2 - area d2
  | IndexError, IndexError => True
  | SingularMatrix, SingularMatrix => True
  | _, _ => False
  end.
Proof.
  intros Hm. unfold get_subintervals. cbn [mask area polishing quadLog boundLog]. rewrite Hm. cbv zeta.
  destruct (match methods with [] => _ | _ => _ end) as [[s|]| |]; auto; cbn [option_map].
  - destruct (neqb (boxArea s) n0); [split; auto; unfold trackBounded; cbn [area]; rnum; lra|].
    destruct (nltb (boxArea s) (nlit 1 2)); [split; auto; unfold trackBounded; cbn [area]; rnum; lra|].
    match goal with |- context [let '(_, _) := ?c in _] => destruct c as [m thrown] end.
    destruct (nltb _ _ && _); [split; auto; unfold trackBounded; cbn [area]; rnum; lra|]. rewrite !track_area. cbn [area]. split; auto. lra.
  - match goal with |- context [let '(_, _) := ?c in _] => destruct c as [m thrown] end. rewrite !track_area. cbn [area]. split; auto. lra.
Qed.
