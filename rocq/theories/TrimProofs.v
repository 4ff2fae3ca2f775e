(** * trimMs keeps its error account *)
From Coq Require Import List Arith Bool ZArith Reals Lra Lia.
From Verif Require Import Num RSum Cheb Tensor PolySpec TransformModel TransformNDProofs TransformChebProofs IntervalModel LinearModel QuadModel SolverModel.
Import ListNotations.
Local Open Scope R_scope.

Lemma slice_R (M : tensor R) d : @nsumabs R R_num (lastSlice M d) =
  sumidx (upd (shp M) d 1%nat) (fun r => Rabs (tget M (upd r d (nth d (shp M) 0 - 1)%nat))).
Proof. unfold nsumabs, lastSlice. rewrite nsum_R, map_map. rnum. apply sumidx_indices. Qed.
Lemma slice_nonneg (M : tensor R) d : 0 <= @nsumabs R R_num (lastSlice M d).
Proof. rewrite slice_R. apply sumidx_nonneg. intros; apply Rabs_pos. Qed.

Lemma dropLast_shp {T} {NT : Num T} (M : tensor T) d : shp (dropLast M d) = upd (shp M) d (nth d (shp M) 0 - 1)%nat.
Proof. reflexivity. Qed.
Lemma dropLast_wf (M : tensor R) d : wf M -> (2 <= nth d (shp M) 0)%nat -> wf (dropLast M d).
Proof. intros [_ H] H2. apply wf_tbuild. apply Forall_upd; auto. lia. Qed.
Lemma inrange_le s s' idx : length s = length s' -> (forall j, (nth j s 0 <= nth j s' 0)%nat) -> inrange s idx -> inrange s' idx.
Proof.
  intros Hl H Hi. apply inrange_iff in Hi. destruct Hi as [H1 H2]. apply inrange_iff. split; [lia|]. intros i Hi.
  specialize (H2 i ltac:(lia)). specialize (H i). lia.
Qed.
Lemma dropLast_eval (M : tensor R) d x : (d < ndim M)%nat -> (1 <= nth d (shp M) 0)%nat -> length x = ndim M ->
  Forall (fun v => -1 <= v <= 1) x ->
  Rabs (cheb_eval (dropLast M d) x - cheb_eval M x) <= @nsumabs R R_num (lastSlice M d).
Proof.
  intros Hd H1 Hx Hc. unfold ndim in *. rewrite slice_R, !cheb_eval_sumidx, dropLast_shp.
  rewrite (sumidx_axis (upd (shp M) d _) d) by (rewrite upd_length; auto). rewrite (sumidx_axis (shp M) d) by auto.
  rewrite upd_upd, nth_upd_eq by auto. rewrite <- sumidx_minus.
  eapply Rle_trans; [apply sumidx_abs|]. apply sumidx_le. intros r Hr.
  pose proof (inrange_length _ _ Hr) as Hrl. rewrite upd_length in Hrl.
  set (m := (nth d (shp M) 0 - 1)%nat). replace (nth d (shp M) 0%nat) with (S m) by (unfold m; lia). cbn [sumn].
  assert (E : sumn m (fun k => tget (dropLast M d) (upd r d k) * basis chebT (upd r d k) x) = sumn m (fun k => tget M (upd r d k) * basis chebT (upd r d k) x)).
  { apply sumn_ext. intros k Hk. f_equal. unfold dropLast. apply tget_tbuild. rewrite <- (upd_upd (shp M) d 1%nat). apply inrange_upd; auto. }
  rewrite E. replace (_ - _) with (- (tget M (upd r d m) * basis chebT (upd r d m) x)) by ring.
  rewrite Rabs_Ropp, Rabs_mult. pose proof (chebasis_bound (upd r d m) x Hc). pose proof (Rabs_pos (tget M (upd r d m))). nra.
Qed.

(** what one trimming pass (or several) may do *)
Definition trimmed (M : tensor R) (e : R) (M' : tensor R) (e' : R) : Prop :=
  wf M' /\ ndim M' = ndim M /\
  (forall j, (nth j (shp M') 0 <= nth j (shp M) 0)%nat) /\
  (forall j, (nth j (shp M') 0 < nth j (shp M) 0)%nat -> (3 <= nth j (shp M') 0)%nat) /\
  e <= e' /\
  forall x, in_cube (ndim M) x -> Rabs (cheb_eval M' x - cheb_eval M x) <= e' - e.
Lemma trimmed_refl M e : wf M -> trimmed M e M e.
Proof.
  intros H. repeat split; auto; try lia; try lra; try (apply H). intros. rewrite Rminus_diag_eq by auto. rewrite Rabs_R0. lra.
Qed.
Lemma trimmed_trans M e M1 e1 M2 e2 : trimmed M e M1 e1 -> trimmed M1 e1 M2 e2 -> trimmed M e M2 e2.
Proof.
  intros (W1 & D1 & L1 & T1 & E1 & A1) (W2 & D2 & L2 & T2 & E2 & A2).
  split; [auto|]. split; [congruence|]. split; [intros j; specialize (L1 j); specialize (L2 j); lia|].
  split.
  - intros j Hj. specialize (L1 j); specialize (L2 j); specialize (T1 j); specialize (T2 j).
    destruct (Nat.eq_dec (nth j (shp M2) 0%nat) (nth j (shp M1) 0%nat)) as [E|E]; [rewrite E; apply T1; lia|apply T2; lia].
  - split; [lra|]. intros x Hx. specialize (A1 x Hx). assert (Hx2 : in_cube (ndim M1) x) by (rewrite D1; auto). specialize (A2 x Hx2).
    replace (cheb_eval M2 x - cheb_eval M x) with ((cheb_eval M2 x - cheb_eval M1 x) + (cheb_eval M1 x - cheb_eval M x)) by ring.
    eapply Rle_trans; [apply Rabs_triang|]. lra.
Qed.

Lemma dropLast_trimmed M e d : wf M -> (d < ndim M)%nat -> (4 <= nth d (shp M) 0)%nat ->
  trimmed M e (dropLast M d) (e + @nsumabs R R_num (lastSlice M d)).
Proof.
  intros Hw Hd H4. assert (Hn : ndim (dropLast M d) = ndim M) by (unfold ndim; rewrite dropLast_shp, upd_length; auto).
  split; [apply dropLast_wf; auto; lia|]. split; [auto|].
  split; [|split; [|split]].
  - intros j. rewrite dropLast_shp. rewrite nth_upd by (unfold ndim in Hd; auto). destruct (Nat.eqb_spec j d); subst; lia.
  - intros j. rewrite dropLast_shp. rewrite nth_upd by (unfold ndim in Hd; auto). destruct (Nat.eqb_spec j d); subst; lia.
  - pose proof (slice_nonneg M d). lra.
  - intros x [Hx1 Hx2]. pose proof (dropLast_eval M d x Hd ltac:(lia) Hx1 Hx2). lra.
Qed.

Lemma trimAxis_spec k d : forall M al e M' al' e', wf M -> (d < ndim M)%nat ->
  @trimAxis R R_num k d M al e = (M', al', e') ->
  trimmed M e M' e' /\ al' - al = e - e' /\ ((M', e') = (M, e) \/ 0 < al') /\
  ((nth d (shp M) 0 <= k + 3)%nat -> al' <= @nsumabs R R_num (lastSlice M' d) \/ (nth d (shp M') 0 <= 3)%nat).
Proof.
  induction k; intros M al e M' al' e' Hw Hd H; cbn [trimAxis] in H.
  - inversion H; subst. split; [apply trimmed_refl; auto|]. split; [lra|]. split; [auto|]. intros Hk. right. lia.
  - rnum. destruct (Rltb (nsumabs (lastSlice M d)) al) eqn:E1; cbn [andb] in H.
    2:{ inversion H; subst. split; [apply trimmed_refl; auto|]. split; [lra|]. split; auto. intros _. left. apply Rltb_false in E1. lra. }
    destruct (Nat.ltb_spec 3 (nth d (shp M) 0%nat)) as [E2|E2].
    2:{ inversion H; subst. split; [apply trimmed_refl; auto|]. split; [lra|]. split; auto. }
    apply Rltb_true in E1. pose proof (dropLast_trimmed M e d Hw Hd ltac:(lia)) as HT.
    destruct (IHk _ _ _ _ _ _ (proj1 HT) ltac:(rewrite (proj1 (proj2 HT)); auto) H) as (A & B & C & D).
    split; [eapply trimmed_trans; eauto|]. split; [lra|]. split.
    + destruct C as [C|C]; [|auto]. inversion C; subst. right. lra.
    + intros Hk. apply D. rewrite dropLast_shp, nth_upd_eq by (unfold ndim in Hd; auto). lia.
Qed.

Lemma trimFold_spec l : forall M al e M' al' e', wf M -> Forall (fun d => (d < ndim M)%nat) l ->
  fold_left (fun st d => let '(M, al, e) := st in @trimAxis R R_num (nth d (shp M) 0%nat) d M al e) l (M, al, e) = (M', al', e') ->
  trimmed M e M' e' /\ al' - al = e - e' /\ ((M', e') = (M, e) \/ 0 < al').
Proof.
  induction l as [|d l IH]; intros M al e M' al' e' Hw Hl H; cbn [fold_left] in H.
  - inversion H; subst. split; [apply trimmed_refl; auto|]. split; [lra|auto].
  - inversion Hl; subst. destruct (@trimAxis R R_num (nth d (shp M) 0%nat) d M al e) as [[M1 al1] e1] eqn:E.
    destruct (trimAxis_spec _ _ _ _ _ _ _ _ Hw H2 E) as (A & B & C & _).
    assert (Hl1 : Forall (fun d => (d < ndim M1)%nat) l) by (rewrite (proj1 (proj2 A)); auto).
    destruct (IH _ _ _ _ _ _ (proj1 A) Hl1 H) as (A2 & B2 & C2).
    split; [eapply trimmed_trans; eauto|]. split; [lra|].
    destruct C2 as [C2|C2]; auto. inversion C2; subst. destruct C as [C|C]; [inversion C; subst; auto|]. right. lra.
Qed.

Lemma trimM_spec M e rel abs : wf M ->
  let r := @trimM R R_num (ndim M) M e rel abs in
  trimmed M e (fst r) (snd r) /\ (r = (M, e) \/ snd r - e < abs + e * rel).
Proof.
  intros Hw. unfold trimM. rnum. destruct (fold_left _ _ _) as [[M' al'] e'] eqn:E. cbn [fst snd].
  assert (Hf : Forall (fun d => (d < ndim M)%nat) (seq 0 (ndim M))) by (apply Forall_forall; intros d Hd; apply in_seq in Hd; lia).
  destruct (trimFold_spec _ _ _ _ _ _ _ Hw Hf E) as (A & B & C).
  split; auto. destruct C as [C|C]; [left; auto|]. right. lra.
Qed.

(** the list version *)
Lemma trimMs_spec n rel abs (Ms : list (tensor R)) errors : (0 < n)%nat -> length Ms = n -> length errors = n ->
  Forall (fun M => wf M /\ ndim M = n) Ms ->
  let r := @trimMsTol R R_num rel abs Ms errors in
  length (fst r) = n /\ length (snd r) = n /\
  forall i, (i < n)%nat ->
    trimmed (nth i Ms (mkT [] [])) (nth i errors 0) (nth i (fst r) (mkT [] [])) (nth i (snd r) 0) /\
    ((nth i (fst r) (mkT [] []), nth i (snd r) 0) = (nth i Ms (mkT [] []), nth i errors 0) \/
     nth i (snd r) 0 - nth i errors 0 < abs + nth i errors 0 * rel).
Proof.
  intros Hn Hl Hle HMs. unfold trimMsTol. cbn [fst snd]. rewrite !map_length, combine_length. split; [lia|]. split; [lia|].
  intros i Hi. assert (H0 : ndim (nth 0 Ms (mkT [] [])) = n) by (rewrite Forall_forall in HMs; apply HMs; apply nth_In; lia).
  rewrite H0. assert (Hi' : wf (nth i Ms (mkT [] [])) /\ ndim (nth i Ms (mkT [] [])) = n) by (rewrite Forall_forall in HMs; apply HMs; apply nth_In; lia).
  destruct Hi' as [Hw Hd]. rewrite !map_map.
  assert (E : forall {B} (f : tensor R * R -> B) db, nth i (map f (combine Ms errors)) db = f (nth i Ms (mkT [] []), nth i errors 0)).
  { intros B f db. rewrite (nth_indep _ db (f (mkT [] [], 0))) by (rewrite map_length, combine_length; lia).
    rewrite map_nth, combine_nth by lia. reflexivity. }
  rewrite !E. cbn [fst snd]. rewrite <- Hd. pose proof (trimM_spec (nth i Ms (mkT [] [])) (nth i errors 0) rel abs Hw) as [A B].
  cbv zeta in A, B. split; auto. destruct B as [B|B]; [left|auto]. rewrite B. reflexivity.
Qed.
