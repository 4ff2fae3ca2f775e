(** * Tracked intervals over the reals *)
From Coq Require Import Reals List Lia Lra Arith Bool ZArith.
From Verif Require Import Num Tensor RSum Cheb PolySpec TransformModel TransformProofs TransformExactProofs
  TransformNDProofs TransformChebProofs IntervalModel.
Import ListNotations.
Local Open Scope R_scope.

(** ** Specification *)
(** x lies in the box b *)
Definition inBox (b : box R) (x : list R) : Prop := Forall2 (fun v p => fst p <= v <= snd p) x b.
(** a box inside [-1,1]^n with ordered bounds *)
Definition sub_ok (n : nat) (b : box R) : Prop :=
  length b = n /\ Forall (fun p => -1 <= fst p /\ fst p <= snd p /\ snd p <= 1) b.
Definition unitBox (n : nat) : box R := repeat (-1, 1) n.
(** the point of the original box that the local point y stands for: the recorded
    (alpha,beta) maps applied, the most recent one first *)
Fixpoint place (trs : list (box R)) (y : list R) : list R :=
  match trs with [] => y | ab :: l => affine ab (place l y) end.

(** ** Lists *)
Lemma nth_map_combine {A B C} (f : A * B -> C) (l : list A) (m : list B) i da db dc :
  (i < length l)%nat -> (i < length m)%nat -> nth i (map f (combine l m)) dc = f (nth i l da, nth i m db).
Proof.
  revert m i; induction l; intros [|b m] i H1 H2; simpl in *; try lia. destruct i; auto. apply IHl; lia.
Qed.
Lemma list_eq_nth {A} (l m : list A) d : length l = length m -> (forall i, (i < length l)%nat -> nth i l d = nth i m d) -> l = m.
Proof. intros. apply nth_ext with d d; auto. Qed.
Lemma Forall2_nth_iff {A B} (P : A -> B -> Prop) l m da db :
  Forall2 P l m <-> length l = length m /\ forall i, (i < length l)%nat -> P (nth i l da) (nth i m db).
Proof.
  split.
  - induction 1; simpl; split; try lia; try (destruct IHForall2; lia). intros [|i] Hi; auto. apply IHForall2; lia.
  - revert m; induction l; intros [|b m] [H1 H2]; simpl in *; try lia; constructor.
    + apply (H2 O); lia.
    + apply IHl. split; [lia|]. intros i Hi. apply (H2 (S i)); lia.
Qed.
Lemma Forall_nth_iff {A} (P : A -> Prop) l d : Forall P l <-> forall i, (i < length l)%nat -> P (nth i l d).
Proof.
  split; intros H.
  - intros i Hi. apply (proj1 (Forall_nth P l) H); auto.
  - apply Forall_nth. intros i d' Hi. rewrite nth_indep with (d' := d); auto.
Qed.
Lemma cube_iff n x : in_cube n x <-> length x = n /\ forall i, (i < n)%nat -> -1 <= nth i x 0 <= 1.
Proof.
  unfold in_cube. split; intros [H1 H2]; split; auto.
  - intros. apply (proj1 (Forall_nth_iff _ _ 0) H2). lia.
  - apply (Forall_nth_iff _ _ 0). intros. apply H2. lia.
Qed.

(** ** affine maps *)
Definition tr_ok (n : nat) (ab : box R) : Prop :=
  length ab = n /\ Forall (fun p => 0 <= fst p /\ fst p + Rabs (snd p) <= 1) ab.
Lemma tr_ok_nth n ab i : tr_ok n ab -> (i < n)%nat ->
  0 <= fst (nth i ab (0,0)) /\ fst (nth i ab (0,0)) + Rabs (snd (nth i ab (0,0))) <= 1.
Proof. intros [H1 H2] Hi. apply (proj1 (Forall_nth_iff _ _ (0,0)) H2). lia. Qed.
Lemma tr_ok_inner n ab : tr_ok n ab -> Forall inner ab.
Proof.
  intros [_ H]. eapply Forall_impl; [|exact H]. intros p [H0 H1]. unfold inner. rewrite (Rabs_pos_eq (fst p)); auto.
Qed.
Lemma affine_length ab x : length ab = length x -> length (affine ab x) = length x.
Proof. intros. unfold affine. rewrite map_length, combine_length. lia. Qed.
Lemma affine_nth ab x i : (i < length ab)%nat -> (i < length x)%nat ->
  nth i (affine ab x) 0 = fst (nth i ab (0,0)) * nth i x 0 + snd (nth i ab (0,0)).
Proof. intros. unfold affine. rewrite (nth_map_combine _ _ _ _ (0,0) 0) by auto. reflexivity. Qed.
Lemma abs_le_iff a b : Rabs a <= b <-> - b <= a <= b.
Proof. unfold Rabs. destruct Rcase_abs; lra. Qed.
Lemma affine_cube n ab x : tr_ok n ab -> in_cube n x -> in_cube n (affine ab x).
Proof.
  intros Ht Hx. apply cube_iff in Hx. destruct Hx as [Hl Hx]. pose proof (proj1 Ht) as Hn.
  apply cube_iff. rewrite affine_length by lia. split; auto. intros i Hi. rewrite affine_nth by lia.
  destruct (tr_ok_nth n ab i Ht Hi) as [Ha Hb]. specialize (Hx i Hi).
  assert (Hb' : Rabs (snd (nth i ab (0, 0))) <= 1 - fst (nth i ab (0, 0))) by lra. apply abs_le_iff in Hb'. nra.
Qed.

Lemma alphaBeta_R p : @alphaBeta R R_num p = ((snd p - fst p) / 2, (snd p + fst p) / 2).
Proof. unfold alphaBeta. rnum. rewrite n2_R. reflexivity. Qed.
Lemma sub_ok_tr n s : sub_ok n s -> tr_ok n (map (@alphaBeta R R_num) s).
Proof.
  intros [Hl Hf]. split; [rewrite map_length; auto|]. apply Forall_map. eapply Forall_impl; [|exact Hf].
  intros [a b] [H1 [H2 H3]]. rewrite alphaBeta_R. cbn [fst snd] in *. split; [lra|]. unfold Rabs; destruct Rcase_abs; lra.
Qed.
Lemma sub_ok_nth n s i : sub_ok n s -> (i < n)%nat ->
  -1 <= fst (nth i s (0,0)) /\ fst (nth i s (0,0)) <= snd (nth i s (0,0)) /\ snd (nth i s (0,0)) <= 1.
Proof. intros [H1 H2] Hi. apply (proj1 (Forall_nth_iff _ _ (0,0)) H2). lia. Qed.
Lemma ab_nth (s : box R) i : nth i (map (@alphaBeta R R_num) s) (0,0) = @alphaBeta R R_num (nth i s (0,0)).
Proof.
  replace (0,0) with (@alphaBeta R R_num (0,0)) at 1; [apply map_nth|]. rewrite alphaBeta_R. simpl. f_equal; lra.
Qed.

(** the transform of a sub-box maps the cube onto the sub-box *)
Lemma sub_image n s y : sub_ok n s -> in_cube n y -> inBox s (affine (map (@alphaBeta R R_num) s) y).
Proof.
  intros Hs Hy. apply cube_iff in Hy. destruct Hy as [Hl Hy]. pose proof (proj1 Hs) as Hn.
  apply (Forall2_nth_iff _ _ _ 0 (0,0)). rewrite affine_length by (rewrite map_length; lia). split; [lia|].
  intros i Hi. rewrite affine_nth by (rewrite ?map_length; lia). rewrite ab_nth, alphaBeta_R. cbn [fst snd].
  pose proof (sub_ok_nth n s i Hs ltac:(lia)). specialize (Hy i ltac:(lia)). nra.
Qed.
Lemma sub_onto n s x : sub_ok n s -> inBox s x -> exists y, in_cube n y /\ x = affine (map (@alphaBeta R R_num) s) y.
Proof.
  intros Hs Hx. pose proof (proj1 Hs) as Hn. apply (Forall2_nth_iff _ _ _ 0 (0,0)) in Hx. destruct Hx as [Hl Hx].
  set (f := fun i => let p := nth i s (0,0) in
     if Req_EM_T (fst p) (snd p) then 0 else (2 * nth i x 0 - fst p - snd p) / (snd p - fst p)).
  assert (Hf : forall i, (i < n)%nat -> -1 <= f i <= 1 /\
     nth i x 0 = (snd (nth i s (0,0)) - fst (nth i s (0,0))) / 2 * f i + (snd (nth i s (0,0)) + fst (nth i s (0,0))) / 2).
  { intros i Hi. unfold f. cbv zeta. specialize (Hx i ltac:(lia)). pose proof (sub_ok_nth n s i Hs Hi).
    destruct (nth i s (0,0)) as [a b]. cbn [fst snd] in *. destruct Req_EM_T.
    - split; [lra|]. subst. nra.
    - assert (0 < b - a) by lra. split; [|field; lra].
      split; [apply Rle_trans with ((a - b) / (b - a)); [|] | apply Rle_trans with ((b - a) / (b - a))].
      + right. field. lra.
      + apply Rmult_le_compat_r; [left; apply Rinv_0_lt_compat; lra | lra].
      + apply Rmult_le_compat_r; [left; apply Rinv_0_lt_compat; lra | lra].
      + right. field. lra. }
  exists (map f (seq 0 n)).
  assert (Hlen : length (map f (seq 0 n)) = n) by (rewrite map_length, seq_length; auto).
  assert (Hnth : forall i, (i < n)%nat -> nth i (map f (seq 0 n)) 0 = f i).
  { intros i Hi. rewrite nth_indep with (d' := f 0%nat) by lia. rewrite map_nth, seq_nth by auto. reflexivity. }
  split.
  - apply cube_iff. split; auto. intros i Hi. rewrite Hnth by auto. apply Hf; auto.
  - apply list_eq_nth with 0; [rewrite affine_length; rewrite ?map_length, ?seq_length; lia|].
    intros i Hi. rewrite affine_nth by (rewrite ?map_length, ?seq_length; lia).
    rewrite ab_nth, alphaBeta_R, Hnth by lia. cbn [fst snd]. apply Hf. lia.
Qed.

(** ** place *)
Definition trs_ok n (l : list (box R)) := Forall (tr_ok n) l.
Lemma place_app l m y : place (l ++ m) y = place l (place m y).
Proof. induction l; simpl; congruence. Qed.
Lemma place_length n l y : trs_ok n l -> length y = n -> length (place l y) = n.
Proof. induction 1; simpl; intros; auto. rewrite affine_length; [auto|]. destruct H. rewrite IHForall; auto. Qed.
Lemma place_cube n l y : trs_ok n l -> in_cube n y -> in_cube n (place l y).
Proof. induction 1; simpl; intros; auto. apply affine_cube; auto. Qed.

(** per coordinate, an affine non-decreasing map *)
Fixpoint thrA (l : list (box R)) (d : nat) : R := match l with [] => 1 | ab :: l' => fst (nth d ab (0,0)) * thrA l' d end.
Fixpoint thrB (l : list (box R)) (d : nat) : R :=
  match l with [] => 0 | ab :: l' => fst (nth d ab (0,0)) * thrB l' d + snd (nth d ab (0,0)) end.
Lemma place_nth n l y d : trs_ok n l -> length y = n -> (d < n)%nat -> nth d (place l y) 0 = thrA l d * nth d y 0 + thrB l d.
Proof.
  intros H Hy Hd. induction H; cbn [place thrA thrB]; [ring|]. pose proof (proj1 H).
  rewrite affine_nth; [|lia|rewrite (place_length n); auto; lia]. rewrite IHForall. ring.
Qed.
Lemma thrA_nonneg n l d : trs_ok n l -> (d < n)%nat -> 0 <= thrA l d.
Proof. induction 1; simpl; intros; [lra|]. apply Rmult_le_pos; auto. apply (tr_ok_nth n); auto. Qed.
Lemma thrA_app l m d : thrA (l ++ m) d = thrA l d * thrA m d.
Proof. induction l; simpl; [ring|]. rewrite IHl. ring. Qed.
Lemma thrB_app l m d : thrB (l ++ m) d = thrA l d * thrB m d + thrB l d.
Proof. induction l; simpl; [ring|]. rewrite IHl. ring. Qed.

(** ** finalBox *)
Lemma applyEF_R ab v : @applyEF R R_num ab (v, 0) = (fst ab * v + snd ab, 0).
Proof. destruct ab as [a b]. unfold applyEF. rewrite TwoProd_R. rewrite TwoSum_R. rnum. cbn [fst snd]. f_equal; ring. Qed.
Lemma pushEF_R l d v : @pushEF R R_num l d v = (thrA l d * v + thrB l d, 0).
Proof.
  unfold pushEF, trCol. rnum. induction l; cbn [map rev thrA thrB fold_left]; [f_equal; ring|].
  rewrite fold_left_app. rewrite IHl. cbn [fold_left]. rewrite applyEF_R. f_equal. ring.
Qed.
Lemma finalBox_R tp l : @finalBox R R_num tp l =
  map (fun p => (thrA l (fst p) * fst (snd p) + thrB l (fst p), thrA l (fst p) * snd (snd p) + thrB l (fst p)))
      (combine (seq 0 (length tp)) tp).
Proof.
  unfold finalBox. apply map_ext. intros [d [lo hi]]. rewrite !pushEF_R. rnum. cbn [fst snd]. f_equal; ring.
Qed.
Lemma finalBox_length tp l : length (@finalBox R R_num tp l) = length tp.
Proof. rewrite finalBox_R, map_length, combine_length, seq_length. lia. Qed.
Lemma finalBox_nth tp l d : (d < length tp)%nat -> nth d (@finalBox R R_num tp l) (0,0) =
  (thrA l d * fst (nth d tp (0,0)) + thrB l d, thrA l d * snd (nth d tp (0,0)) + thrB l d).
Proof.
  intros H. rewrite finalBox_R. rewrite (nth_map_combine _ _ _ _ 0%nat (0,0)) by (rewrite ?seq_length; auto).
  rewrite seq_nth by auto. reflexivity.
Qed.
Lemma unitBox_nth n d : (d < n)%nat -> nth d (unitBox n) (0,0) = (-1,1).
Proof. revert d; induction n; intros [|d] H; try lia; simpl; auto. apply IHn; lia. Qed.
Lemma unitBox_length n : length (unitBox n) = n. Proof. apply repeat_length. Qed.

(** a local point of the cube always lands in the final box, and every point of the final box
    is reached *)
Lemma place_in_final n l y : trs_ok n l -> in_cube n y -> inBox (@finalBox R R_num (unitBox n) l) (place l y).
Proof.
  intros Hl Hy. pose proof Hy as Hy0. apply cube_iff in Hy. destruct Hy as [Hn Hy].
  apply (Forall2_nth_iff _ _ _ 0 (0,0)). rewrite finalBox_length, (place_length n), unitBox_length by auto. split; auto.
  intros i Hi. rewrite finalBox_nth by (rewrite unitBox_length; auto). rewrite unitBox_nth, (place_nth n) by auto. cbn [fst snd].
  pose proof (thrA_nonneg n l i Hl Hi). specialize (Hy i Hi). nra.
Qed.
Lemma final_reached n l x : trs_ok n l -> inBox (@finalBox R R_num (unitBox n) l) x -> exists y, in_cube n y /\ x = place l y.
Proof.
  intros Hl Hx. apply (Forall2_nth_iff _ _ _ 0 (0,0)) in Hx. rewrite finalBox_length, unitBox_length in Hx. destruct Hx as [Hn Hx].
  set (f := fun i => if Req_EM_T (thrA l i) 0 then 0 else (nth i x 0 - thrB l i) / thrA l i).
  assert (Hf : forall i, (i < n)%nat -> -1 <= f i <= 1 /\ nth i x 0 = thrA l i * f i + thrB l i).
  { intros i Hi. unfold f. specialize (Hx i ltac:(lia)). rewrite finalBox_nth in Hx by (rewrite unitBox_length; auto).
    rewrite unitBox_nth in Hx by auto. cbn [fst snd] in Hx. pose proof (thrA_nonneg n l i Hl Hi).
    destruct Req_EM_T as [E|E].
    - rewrite E in *. lra.
    - assert (0 < thrA l i) by lra. split; [|field; auto]. split.
      + apply Rmult_le_reg_r with (thrA l i); auto. unfold Rdiv. rewrite Rmult_assoc, Rinv_l by auto. lra.
      + apply Rmult_le_reg_r with (thrA l i); auto. unfold Rdiv. rewrite Rmult_assoc, Rinv_l by auto. lra. }
  exists (map f (seq 0 n)).
  assert (Hlen : length (map f (seq 0 n)) = n) by (rewrite map_length, seq_length; auto).
  assert (Hnth : forall i, (i < n)%nat -> nth i (map f (seq 0 n)) 0 = f i).
  { intros i Hi. rewrite nth_indep with (d' := f 0%nat) by lia. rewrite map_nth, seq_nth by auto. reflexivity. }
  split.
  - apply cube_iff. split; auto. intros i Hi. rewrite Hnth by auto. apply Hf; auto.
  - apply list_eq_nth with 0; [rewrite (place_length n); auto|].
    intros i Hi. rewrite (place_nth n), Hnth by (auto; lia). apply Hf. lia.
Qed.
Lemma final_sub_ok n l : trs_ok n l -> sub_ok n (@finalBox R R_num (unitBox n) l).
Proof.
  intros Hl. split; [rewrite finalBox_length, unitBox_length; auto|].
  apply (Forall_nth_iff _ _ (0,0)). rewrite finalBox_length, unitBox_length. intros i Hi.
  rewrite finalBox_nth by (rewrite unitBox_length; auto). rewrite unitBox_nth by auto. cbn [fst snd].
  pose proof (thrA_nonneg n l i Hl Hi).
  assert (C1 : in_cube n (repeat 1 n)).
  { split; [apply repeat_length|]. apply Forall_forall. intros v Hv. apply repeat_spec in Hv. lra. }
  assert (C2 : in_cube n (repeat (-1) n)).
  { split; [apply repeat_length|]. apply Forall_forall. intros v Hv. apply repeat_spec in Hv. lra. }
  apply (place_cube n l) in C1; auto. apply (place_cube n l) in C2; auto.
  apply cube_iff in C1. apply cube_iff in C2. destruct C1 as [_ C1], C2 as [_ C2].
  specialize (C1 i Hi). specialize (C2 i Hi).
  rewrite (place_nth n) in C1 by (auto; rewrite repeat_length; auto).
  rewrite (place_nth n) in C2 by (auto; rewrite repeat_length; auto).
  rewrite nth_indep with (d' := 1) in C1 by (rewrite repeat_length; auto).
  rewrite nth_indep with (d' := -1) in C2 by (rewrite repeat_length; auto).
  rewrite nth_repeat in C1, C2. lra.
Qed.
(** longer transform lists give smaller boxes *)
Lemma final_nested n l m x : trs_ok n l -> trs_ok n m ->
  inBox (@finalBox R R_num (unitBox n) (l ++ m)) x -> inBox (@finalBox R R_num (unitBox n) l) x.
Proof.
  intros Hl Hm Hx. assert (Hlm : trs_ok n (l ++ m)) by (apply Forall_app; auto).
  destruct (final_reached n (l ++ m) x Hlm Hx) as (y & Hy & ->). rewrite place_app.
  apply place_in_final; auto. apply place_cube; auto.
Qed.

(** ** addTransform *)
Lemma newRow_R s old : -1 <= fst s -> fst s <= snd s ->
  @newRow R R_num s old = ((snd old - fst old) / 2 * fst s + (snd old + fst old) / 2,
                           (snd old - fst old) / 2 * snd s + (snd old + fst old) / 2).
Proof.
  destruct s as [a b], old as [lo hi]. cbn [fst snd]. intros H1 H2. unfold newRow. rewrite alphaBeta_R. cbn [fst snd]. rnum. change (Ropp 1) with (-1).
  destruct (Reqb a (-1)) eqn:E1; [apply Reqb_true in E1 | apply Reqb_false in E1].
  - subst. destruct (Reqb b (-1)) eqn:E2; [apply Reqb_true in E2; subst; f_equal; lra|].
    destruct (Reqb b 1) eqn:E3; [apply Reqb_true in E3; subst; f_equal; lra|]. f_equal; lra.
  - assert (E2 : Reqb b (-1) = false) by (apply Reqb_false; lra). rewrite E2.
    destruct (Reqb a 1) eqn:E4; [apply Reqb_true in E4 | apply Reqb_false in E4].
    + subst. destruct (Reqb b 1) eqn:E3; [apply Reqb_true in E3; subst; f_equal; lra|]. f_equal; lra.
    + destruct (Reqb b 1) eqn:E3; [apply Reqb_true in E3; subst; f_equal; lra|]. f_equal; lra.
Qed.
Lemma anyInverted_sub n s : sub_ok n s -> @anyInverted R R_num s = false.
Proof.
  intros [_ H]. unfold anyInverted. apply not_true_is_false. intros E. apply existsb_exists in E.
  destruct E as (p & Hp & Hg). rewrite Forall_forall in H. specialize (H p Hp). unfold ngtb in Hg. rnum.
  apply Rltb_true in Hg. lra.
Qed.
Lemma nmax_case a b : @nmax R R_num a b = Rmax a b.
Proof. apply nmax_R. Qed.
Lemma clamp_sub n s : length s = n -> sub_ok n (map (@clampRow R R_num) s).
Proof.
  intros H. split; [rewrite map_length; auto|]. apply Forall_map. apply Forall_forall. intros [a b] _.
  unfold clampRow. cbn [fst snd]. rewrite !nmax_R, !nmin_R. rnum. unfold Rmax, Rmin.
  repeat destruct Rle_dec; lra.
Qed.
(** the sub-interval actually used *)
Definition effSub (t : tint R) (sub : box R) : box R := if @anyInverted R R_num sub then map (@clampRow R R_num) sub else sub.
Lemma effSub_ok n t sub : sub_ok n sub \/ (length sub = n /\ @anyInverted R R_num sub = true) -> sub_ok n (effSub t sub).
Proof.
  unfold effSub. intros [H | [H1 H2]].
  - rewrite (anyInverted_sub n) by auto. auto.
  - rewrite H2. apply clamp_sub; auto.
Qed.

(** the bounds kept in [ivl] and those recomputed from the transforms agree *)
Lemma rows_final n l s : trs_ok n l -> sub_ok n s ->
  map (fun p => @newRow R R_num (fst p) (snd p)) (combine s (@finalBox R R_num (unitBox n) l))
  = @finalBox R R_num (unitBox n) (l ++ [map (@alphaBeta R R_num) s]).
Proof.
  intros Hl Hs. pose proof (proj1 Hs) as Hn. apply list_eq_nth with (0,0).
  - rewrite map_length, combine_length, !finalBox_length, unitBox_length. lia.
  - rewrite map_length, combine_length, !finalBox_length, unitBox_length. intros i Hi.
    rewrite (nth_map_combine _ _ _ _ (0,0) (0,0)) by (rewrite ?finalBox_length, ?unitBox_length; lia).
    rewrite !finalBox_nth by (rewrite unitBox_length; lia). rewrite unitBox_nth by lia. cbn [fst snd].
    pose proof (sub_ok_nth n s i Hs ltac:(lia)) as (A & B & C). rewrite newRow_R by auto. cbn [fst snd].
    rewrite thrA_app, thrB_app. cbn [thrA thrB]. rewrite ab_nth, alphaBeta_R. cbn [fst snd]. f_equal; lra.
Qed.

(** consistency of a tracked interval inside the solver *)
Record tok (n : nat) (t : tint R) : Prop := {
  tok_top : top t = unitBox n;
  tok_trs : trs_ok n (trs t);
  tok_ivl : ivl t = @finalBox R R_num (unitBox n) (trs t);
  tok_pts : length (npts t) = n;
  tok_npt : Forall (fun v => -1 < v < 1) (npts t);
  tok_pre : fin t = true -> exists suf, trs t = preT t ++ suf;
  tok_preI : fin t = true -> preI t = @finalBox R R_num (unitBox n) (preT t)
}.
Lemma tok_ivl_length n t : tok n t -> length (ivl t) = n.
Proof. intros H. rewrite (tok_ivl n t H), finalBox_length, unitBox_length. auto. Qed.

Lemma addTransform_eq (t : tint R) sub : @anyInverted R R_num sub && @canThrowOut R t = false ->
  @addTransform R R_num t sub =
  mkTint (top t) (map (fun p => @newRow R R_num (fst p) (snd p)) (combine (effSub t sub) (ivl t)))
    (trs t ++ [map (@alphaBeta R R_num) (effSub t sub)])
    (empt t) (fin t) (cthr t) (dups t) (extra t) (npts t) (preI t) (preT t).
Proof. intros H. unfold addTransform. rewrite H. reflexivity. Qed.

Lemma addTransform_tok n t sub : tok n t -> @anyInverted R R_num sub && @canThrowOut R t = false ->
  sub_ok n sub \/ (length sub = n /\ @anyInverted R R_num sub = true) -> tok n (@addTransform R R_num t sub).
Proof.
  intros Ht H Hs. rewrite addTransform_eq by auto. destruct Ht. pose proof (effSub_ok n t sub Hs) as He.
  constructor; cbn; auto.
  - apply Forall_app. split; auto. constructor; auto. apply sub_ok_tr; auto.
  - rewrite tok_ivl0. apply rows_final; auto.
  - intros E. destruct (tok_pre0 E) as [suf ->]. exists (suf ++ [map (@alphaBeta R R_num) (effSub t sub)]). rewrite app_assoc. auto.
Qed.
Lemma addTransform_sub n t sub : sub_ok n sub -> effSub t sub = sub /\ @anyInverted R R_num sub && @canThrowOut R t = false.
Proof. intros H. unfold effSub. rewrite (anyInverted_sub n) by auto. auto. Qed.

Lemma new_tok n : tok n (@newInterval R R_num (unitBox n)).
Proof.
  constructor; cbn; auto; try discriminate.
  - constructor.
  - apply list_eq_nth with (0,0); [rewrite finalBox_length; auto|]. rewrite unitBox_length. intros i Hi.
    rewrite finalBox_nth by (rewrite unitBox_length; auto). rewrite unitBox_nth by auto. cbn. f_equal; lra.
  - rewrite repeat_length. apply unitBox_length.
  - apply Forall_forall. intros v Hv. apply repeat_spec in Hv. subst. lra.
Qed.
Lemma copy_tok n t : tok n t -> tok n (@copyT R t).
Proof.
  intros []. constructor; cbn; auto.
  - intros E. rewrite E. auto.
  - intros E. rewrite E. auto.
Qed.
Lemma start_tok n t : tok n t -> tok n (@startFinalStep R t).
Proof.
  intros []. constructor; cbn; auto. intros _. exists []. rewrite app_nil_r. auto.
Qed.
