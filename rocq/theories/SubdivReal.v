(** * Subdivision over the reals: the children cover the box, and each child's polynomials
      approximate the parent's on the child's box *)
From Coq Require Import List Arith Bool Lia ZArith Sorted Permutation Reals Lra.
From Verif Require Import Num RSum Cheb Tensor PolySpec TransformModel TransformChebProofs IntervalModel IntervalProofs
  LinearModel QuadModel SolverModel SystemSpec OrderProofs SubdivProofs.
Import ListNotations.
Local Open Scope R_scope.

(** ** What holds of a system on a box, as the solver carries it *)
(** [st]: strictly *)
Definition within (st : bool) (a b : R) : Prop := if st then a < b else a <= b.
Lemma within_le st a b : within st a b -> a <= b.
Proof. destruct st; cbn; lra. Qed.
Lemma within_plus st a b c d : within st a b -> c <= a + d -> within st c (b + d).
Proof. destruct st; cbn; lra. Qed.
(** The polynomials [Ms], evaluated at the local point y, are within [errs] of the functions
    [fs] at the point of the original box that y stands for. *)
Record appr (n : nat) (exact st : bool) (fs : nat -> list R -> R) (l : list (box R)) (Ms : list (tensor R)) (errs : list R) : Prop := {
  ap_sq : squareSystem n Ms errs;
  ap_cov : Forall (all_covered exact) Ms;
  ap_err : forall i, (i < n)%nat -> forall y, in_cube n y -> within st (Rabs (fs i (place l y) - cheb_eval (nth i Ms noT) y)) (nth i errs 0)
}.

Lemma sidePair_R npt b d : @sidePair R R_num npt b d =
  if Nat.eqb b 0 then ((nth d npt 0 + 1) / 2, (nth d npt 0 - 1) / 2) else ((1 - nth d npt 0) / 2, (nth d npt 0 + 1) / 2).
Proof.
  unfold sidePair. cbv zeta. rewrite n2_R. rnum. destruct (Nat.eqb b 0); auto. f_equal. lra.
Qed.
Lemma sideRow_ab npt b d : @alphaBeta R R_num (@sideRow R R_num npt b d) = @sidePair R R_num npt b d.
Proof.
  rewrite alphaBeta_R, sidePair_R. unfold sideRow. rnum. destruct (Nat.eqb b 0); cbn [fst snd]; f_equal; lra.
Qed.

Section S.
  Variables (n : nat) (npt : list R).
  Hypothesis Hnp : Forall (fun v => -1 < v < 1) npt.
  Lemma npt_at d : -1 < nth d npt 0 < 1.
  Proof.
    destruct (Nat.lt_ge_cases d (length npt)); [|rewrite nth_overflow by auto; lra].
    rewrite Forall_forall in Hnp. apply Hnp. apply nth_In; auto.
  Qed.
  Lemma side_inner b d : inner (@sidePair R R_num npt b d).
  Proof.
    pose proof (npt_at d). rewrite sidePair_R. unfold inner. destruct (Nat.eqb b 0); cbn [fst snd].
    - rewrite (Rabs_pos_eq ((_ + 1) / 2)) by lra. rewrite Rabs_left by lra. lra.
    - rewrite !Rabs_pos_eq by lra. lra.
  Qed.
  Definition sidePt (b d : nat) (v : R) : R := fst (@sidePair R R_num npt b d) * v + snd (@sidePair R R_num npt b d).
  Lemma sidePt_cube b d v : -1 <= v <= 1 -> -1 <= sidePt b d v <= 1.
  Proof. intros. unfold sidePt. apply inner_pt; auto. pose proof (side_inner b d). destruct (sidePair npt b d); auto. Qed.
  Fixpoint applyPts (o bs : list nat) (x : list R) : list R :=
    match o, bs with
    | d :: o', b :: bs' => let y := applyPts o' bs' x in upd y d (sidePt b d (nth d y 0))
    | _, _ => x
    end.
  Lemma applyPts_length o : forall bs x, length (applyPts o bs x) = length x.
  Proof. induction o as [|d o IH]; intros [|b bs] x; cbn; auto. rewrite upd_length. auto. Qed.
  Lemma applyPts_cube o : forall bs x, in_cube n x -> in_cube n (applyPts o bs x).
  Proof.
    induction o as [|d o IH]; intros [|b bs] x Hx; cbn; auto. specialize (IH bs x Hx). destruct IH as [H1 H2]. split; [rewrite upd_length; auto|].
    apply Forall_upd; auto. apply sidePt_cube. destruct (Nat.lt_ge_cases d (length (applyPts o bs x))).
    - rewrite Forall_forall in H2. apply H2. apply nth_In; auto.
    - rewrite nth_overflow by auto. lra.
  Qed.
  (** the coordinate-wise map: coordinate i of [dims] is moved into the half chosen by [h i] *)
  Definition cmap (dims : list nat) (h : nat -> nat) (x : list R) : list R :=
    map (fun i => if existsb (Nat.eqb i) dims then sidePt (h i) i (nth i x 0) else nth i x 0) (seq 0 (length x)).
  Lemma existsb_in i l : existsb (Nat.eqb i) l = true <-> In i l.
  Proof. rewrite existsb_exists. split; [intros (x & H & E); apply Nat.eqb_eq in E; subst; auto|]. intros H. exists i. rewrite Nat.eqb_refl. auto. Qed.
  Lemma existsb_perm i l m : Permutation l m -> existsb (Nat.eqb i) l = existsb (Nat.eqb i) m.
  Proof. intros H. apply eq_true_iff_eq. rewrite !existsb_in. split; apply Permutation_in; auto. apply Permutation_sym; auto. Qed.
  Lemma applyPts_nth o : forall h x i, NoDup o -> nth i (applyPts o (map h o) x) 0 = if existsb (Nat.eqb i) o && (i <? length x)%nat then sidePt (h i) i (nth i x 0) else nth i x 0.
  Proof.
    induction o as [|d o IH]; intros h x i Hn; cbn [applyPts map existsb]; auto. inversion Hn; subst.
    destruct (Nat.lt_ge_cases d (length x)) as [Hd|Hd].
    - rewrite nth_upd by (rewrite applyPts_length; auto). destruct (Nat.eqb_spec i d) as [->|E].
      + cbn [orb andb]. destruct (Nat.ltb_spec d (length x)); [|lia]. f_equal. rewrite IH by auto.
        destruct (existsb (Nat.eqb d) o) eqn:E; auto. apply existsb_in in E. contradiction.
      + cbn [orb]. apply IH; auto.
    - destruct (Nat.lt_ge_cases i (length x)) as [Hi|Hi].
      + rewrite nth_upd_neq by lia. rewrite IH by auto. destruct (Nat.eqb_spec i d); [lia|]. reflexivity.
      + rewrite !nth_overflow by (rewrite ?upd_length, ?applyPts_length; auto). destruct (Nat.ltb_spec i (length x)); [lia|]. rewrite andb_false_r. auto.
  Qed.
  Lemma cmap_nth dims h x i : (i < length x)%nat -> nth i (cmap dims h x) 0 = if existsb (Nat.eqb i) dims then sidePt (h i) i (nth i x 0) else nth i x 0.
  Proof. intros Hi. unfold cmap. rewrite (nth_map_lt _ _ _ 0%nat) by (rewrite seq_length; auto). rewrite seq_nth by auto. reflexivity. Qed.
  Lemma applyPts_cmap o dims h x : NoDup dims -> Permutation o dims -> applyPts o (map h o) x = cmap dims h x.
  Proof.
    intros Hn Hp. apply nth_ext with 0 0; [unfold cmap; rewrite applyPts_length, map_length, seq_length; auto|].
    rewrite applyPts_length. intros i Hi. rewrite applyPts_nth by (eapply Permutation_NoDup; [apply Permutation_sym; eauto|auto]).
    rewrite cmap_nth by auto. rewrite (existsb_perm i _ _ Hp). destruct (Nat.ltb_spec i (length x)); [|lia]. rewrite andb_true_r. auto.
  Qed.
  Lemma cmap_cube dims h x : in_cube n x -> in_cube n (cmap dims h x).
  Proof.
    rewrite !cube_iff. intros [H1 H2]. split; [unfold cmap; rewrite map_length, seq_length; auto|]. intros i Hi. rewrite cmap_nth by lia.
    destruct existsb; auto. apply sidePt_cube; auto.
  Qed.

  (** ** coverage *)
  Definition halfOf (y0 : list R) (d : nat) : nat := if Rle_dec (nth d y0 0) (nth d npt 0) then 0%nat else 1%nat.
  Definition backPt (b d : nat) (v : R) : R := (v - snd (@sidePair R R_num npt b d)) / fst (@sidePair R R_num npt b d).
  Lemma side_pos b d : 0 < fst (@sidePair R R_num npt b d).
  Proof. pose proof (npt_at d). rewrite sidePair_R. destruct (Nat.eqb b 0); cbn; lra. Qed.
  Lemma back_ok y0 d : -1 <= nth d y0 0 <= 1 -> -1 <= backPt (halfOf y0 d) d (nth d y0 0) <= 1 /\ sidePt (halfOf y0 d) d (backPt (halfOf y0 d) d (nth d y0 0)) = nth d y0 0.
  Proof.
    intros H. pose proof (npt_at d) as Hm. split.
    - unfold backPt, halfOf. destruct (Rle_dec _ _) as [E|E]; rewrite sidePair_R; cbn [Nat.eqb fst snd]; split;
      match goal with |- ?a <= ?b / ?c => apply (Rmult_le_reg_r c); [lra|]; unfold Rdiv; rewrite Rmult_assoc, Rinv_l by lra; lra
      | |- ?b / ?c <= ?a => apply (Rmult_le_reg_r c); [lra|]; unfold Rdiv; rewrite Rmult_assoc, Rinv_l by lra; lra end.
    - unfold sidePt, backPt. pose proof (side_pos (halfOf y0 d) d). field. lra.
  Qed.
  Lemma bitOf_self dims f d : In d dims -> bitOf dims (map f dims) d = f d.
  Proof. intros H. destruct (idxOf_lt d dims H) as [H1 H2]. unfold bitOf. rewrite (nth_map_lt _ _ _ 0%nat) by auto. rewrite H2. auto. Qed.
  Theorem cmap_onto dims y0 : in_cube n y0 ->
    exists bs y, In bs (bitLists (length dims)) /\ in_cube n y /\ y0 = cmap dims (bitOf dims bs) y.
  Proof.
    intros Hy. exists (map (halfOf y0) dims), (map (fun i => if existsb (Nat.eqb i) dims then backPt (halfOf y0 i) i (nth i y0 0) else nth i y0 0) (seq 0 n)).
    apply cube_iff in Hy. destruct Hy as [Hl Hy]. split; [|split].
    - apply in_bitLists. split; [rewrite map_length; auto|]. apply Forall_map, Forall_forall. intros i _. unfold halfOf. destruct Rle_dec; auto.
    - apply cube_iff. rewrite map_length, seq_length. split; auto. intros i Hi. rewrite (nth_map_lt _ _ _ 0%nat) by (rewrite seq_length; auto). rewrite seq_nth by auto. cbn [Nat.add].
      destruct existsb; auto. apply back_ok; auto.
    - apply nth_ext with 0 0; [unfold cmap; repeat rewrite ?map_length, ?seq_length; auto|]. intros i Hi.
      rewrite cmap_nth by (rewrite map_length, seq_length; lia). rewrite (nth_map_lt _ _ _ 0%nat) by (rewrite seq_length; lia). rewrite seq_nth by lia. cbn [Nat.add].
      destruct (existsb (Nat.eqb i) dims) eqn:E; auto. rewrite bitOf_self by (apply existsb_in; auto). symmetry. apply back_ok. apply Hy. lia.
  Qed.

  (** ** one child's polynomials *)
  Lemma polyAt_ok exact o : forall bs M e, Forall (fun d => (d < n)%nat) o -> wf M -> ndim M = n -> all_covered exact M ->
    let r := @polyAt R R_num exact npt o bs (M, e) in
    wf (fst r) /\ ndim (fst r) = n /\ all_covered exact (fst r) /\ e <= snd r /\
    forall x, in_cube n x -> Rabs (cheb_eval (fst r) x - cheb_eval M (applyPts o bs x)) <= snd r - e.
  Proof.
    induction o as [|d o IH]; intros bs M e Ho Hw Hd Hc; cbv zeta.
    { destruct bs; cbn; repeat split; auto; try lra; try apply Hw; intros; rewrite Rminus_diag_eq by auto; rewrite Rabs_R0; lra. }
    destruct bs as [|b bs]; cbn [polyAt applyPts]; [cbn; repeat split; auto; try lra; try apply Hw; intros; rewrite Rminus_diag_eq by auto; rewrite Rabs_R0; lra|].
    apply Forall_cons_iff in Ho. destruct Ho as [Ho1 Ho2].
    destruct (transformND_covered exact d M (fst (sidePair npt b d)) (snd (sidePair npt b d)) Hw ltac:(lia) Hc) as (W & D & C & A). rewrite Hd in D.
    pose proof (getTransformationError_nonneg M d Hw) as Hg.
    destruct (IH bs (chebTransform1D M (fst (sidePair npt b d)) (snd (sidePair npt b d)) d exact) (getTransformationError M d + e)%num Ho2 W D C) as (W2 & D2 & C2 & E2 & A2).
    unfold sideP. cbn [fst snd]. split; auto. split; auto. split; auto. rnum. split; [lra|]. intros x Hx. specialize (A2 x Hx).
    specialize (A (applyPts o bs x)). rewrite Hd in A. specialize (A (applyPts_cube o bs x Hx)).
    assert (Hin : inner (fst (sidePair npt b d), snd (sidePair npt b d))) by (pose proof (side_inner b d); destruct (sidePair npt b d); auto).
    specialize (A Hin). fold (sidePt b d (nth d (applyPts o bs x) 0)) in A. unfold chebTransform1D in *.
    match goal with |- Rabs (?p - ?q) <= _ => match type of A with Rabs (?u - _) <= _ => replace (p - q) with ((p - u) + (u - q)) by ring end end.
    eapply Rle_trans; [apply Rabs_triang|]. lra.
  Qed.

  (** ** one child's box *)
  Lemma sideRow_sub b d : (d < n)%nat -> sub_ok n (upd (@unitRows R R_num n) d (@sideRow R R_num npt b d)).
  Proof.
    intros Hd. split; [rewrite upd_length; unfold unitRows; apply repeat_length|]. apply Forall_upd.
    - apply Forall_forall. intros p Hp. apply repeat_spec in Hp. subst. rnum. cbn. lra.
    - pose proof (npt_at d). unfold sideRow. rnum. destruct (Nat.eqb b 0); cbn [fst snd]; lra.
  Qed.
  Lemma side_affine b d y : (d < n)%nat -> length y = n ->
    affine (map (@alphaBeta R R_num) (upd (@unitRows R R_num n) d (@sideRow R R_num npt b d))) y = upd y d (sidePt b d (nth d y 0)).
  Proof.
    intros Hd Hy. assert (Hu : length (@unitRows R R_num n) = n) by apply repeat_length.
    apply nth_ext with 0 0; [rewrite affine_length; [|rewrite map_length, upd_length]; rewrite ?upd_length; lia|].
    rewrite affine_length by (rewrite map_length, upd_length; lia). intros i Hi.
    rewrite affine_nth by (rewrite ?map_length, ?upd_length; lia). rewrite ab_nth. rewrite !nth_upd by lia.
    destruct (Nat.eqb_spec i d) as [->|E]; [rewrite sideRow_ab; reflexivity|].
    assert (E1 : nth i (@unitRows R R_num n) (0, 0) = (-1, 1)) by (apply (unitBox_nth n i); lia).
    rewrite E1, alphaBeta_R. cbn [fst snd]. lra.
  Qed.
  (** what a child shares with its parent *)
  Record kin (t t' : tint R) (ext : list (box R)) : Prop := {
    kin_trs : trs t' = trs t ++ ext;
    kin_fin : fin t' = fin t; kin_emp : empt t' = empt t;
    kin_cthr : cthr t' = cthr t; kin_dups : dups t' = dups t; kin_extra : extra t' = extra t; kin_top : top t' = top t;
    kin_pre : fin t = true -> preT t' = preT t /\ preI t' = preI t
  }.
  (** outside the final step the final-step attributes have their default values *)
  Definition fresh (t : tint R) : Prop := fin t = false -> cthr t = false /\ dups t = [] /\ extra t = false.
  Lemma fresh_copy t : fresh t -> cthr (copyT t) = cthr t /\ dups (copyT t) = dups t /\ extra (copyT t) = extra t.
  Proof. intros H. unfold fresh in H. cbn. destruct (fin t); auto. destruct (H eq_refl) as (-> & -> & ->). auto. Qed.
  Lemma fresh_kin t t' e : kin t t' e -> fresh t -> fresh t'.
  Proof. intros K H. unfold fresh. rewrite (kin_fin _ _ _ K), (kin_cthr _ _ _ K), (kin_dups _ _ _ K), (kin_extra _ _ _ K). exact H. Qed.
  Lemma sideI_ok b d t : tok n t -> fresh t -> (d < n)%nat ->
    tok n (@sideI R R_num npt b d t) /\
    kin t (@sideI R R_num npt b d t) [map (@alphaBeta R R_num) (upd (@unitRows R R_num n) d (@sideRow R R_num npt b d))].
  Proof.
    intros Ht Hfr Hd. pose proof (sideRow_sub b d Hd) as Hs. destruct (fresh_copy t Hfr) as (F1 & F2 & F3). pose proof (copy_tok n t Ht) as Hc.
    unfold sideI. rewrite (tok_ivl_length n t Ht). cbv zeta. set (sub := upd _ d _) in *.
    destruct (addTransform_sub n (copyT t) sub Hs) as [He Hx].
    assert (Hok : tok n (addTransform (copyT t) sub)) by (apply addTransform_tok; auto).
    split.
    - destruct Hok. constructor; cbn; auto.
      + rewrite upd_length. auto.
      + apply Forall_upd; auto. rnum. lra.
    - rewrite (addTransform_eq _ _ Hx), He. constructor; auto. cbn. intros E. rewrite E. auto.
  Qed.
  Lemma kin_refl t : kin t t [].
  Proof. constructor; auto. rewrite app_nil_r; auto. Qed.
  Lemma kin_trans t1 t2 t3 e1 e2 : kin t1 t2 e1 -> kin t2 t3 e2 -> kin t1 t3 (e1 ++ e2).
  Proof.
    intros [A1 A2 A3 A4 A5 A6 A7 A8] [B1 B2 B3 B4 B5 B6 B7 B8]. constructor; try congruence.
    - rewrite B1, A1, app_assoc. auto.
    - intros E. destruct (A8 E) as (X1 & X2). rewrite <- A2 in E. destruct (B8 E) as (Y1 & Y2). split; congruence.
  Qed.
  Lemma intAt_ok dims : forall bs t, length bs = length dims -> tok n t -> fresh t -> Forall (fun d => (d < n)%nat) dims ->
    let t' := @intAt R R_num npt dims bs t in
    tok n t' /\ exists ext, kin t t' ext /\ length ext = length dims /\
      forall y, length y = n -> place (trs t') y = place (trs t) (applyPts dims bs y).
  Proof.
    induction dims as [|d dims IH]; intros bs t Hl Ht Hf Hd; cbv zeta.
    { destruct bs; [|discriminate]. cbn. split; auto. exists []. split; [apply kin_refl|auto]. }
    destruct bs as [|b bs]; [discriminate|]. apply Forall_cons_iff in Hd. destruct Hd as [Hd1 Hd2].
    destruct (sideI_ok b d t Ht Hf Hd1) as [T1 K1]. cbn [intAt].
    pose proof (fresh_kin _ _ _ K1 Hf) as Hf1.
    destruct (IH bs _ ltac:(cbn in Hl; lia) T1 Hf1 Hd2) as (T2 & ext & K2 & L2 & P2). split; auto.
    exists (map alphaBeta (upd (unitRows n) d (sideRow npt b d)) :: ext). split; [apply (kin_trans _ _ _ [_] _ K1 K2)|].
    split; [cbn; lia|]. intros y Hy. rewrite P2 by auto. rewrite (kin_trs _ _ _ K1), place_app. cbn [place applyPts]. cbv zeta.
    rewrite side_affine by (rewrite ?applyPts_length; auto). reflexivity.
  Qed.
End S.

(** ** the children of a box *)
Section Child.
  Variables (X : ext R) (n : nat) (exact : bool).
  Hypothesis Has : argsort_ok (xargsort X).
  Lemma nth_combine {A B} (l : list A) (m : list B) i a b : length l = length m -> nth i (combine l m) (a, b) = (nth i l a, nth i m b).
  Proof. intros. apply combine_nth; auto. Qed.
  Theorem child_ok Ms errs ti dims bs :
    tok n ti -> fresh ti -> squareSystem n Ms errs -> Forall (all_covered exact) Ms ->
    StronglySorted lt dims -> Forall (fun d => (d < n)%nat) dims -> length bs = length dims ->
    let c := @childAt R R_num X exact Ms errs ti dims bs in
    tok n (snd c) /\ (exists ext, kin ti (snd c) ext /\ length ext = length dims) /\
    (forall y, length y = n -> place (trs (snd c)) y = place (trs ti) (cmap (npts ti) dims (bitOf dims bs) y)) /\
    squareSystem n (fst (fst c)) (snd (fst c)) /\ Forall (all_covered exact) (fst (fst c)) /\
    forall st fs, appr n exact st fs (trs ti) Ms errs -> appr n exact st fs (trs (snd c)) (fst (fst c)) (snd (fst c)).
  Proof.
    intros Ht Hcf Hsq Hcov Hsort Hlt Hbs c.
    pose proof (tok_pts n ti Ht) as Hnl. pose proof (tok_npt n ti Ht) as Hnp.
    pose proof (sorted_lt_NoDup dims Hsort) as Hnd.
    destruct (intAt_ok n (npts ti) Hnp dims bs ti Hbs Ht Hcf Hlt) as (T1 & ext & K & L & P).
    unfold c, childAt. cbn [fst snd]. split; auto. split; [eauto|].
    assert (Hplace : forall y, length y = n -> place (trs (intAt (npts ti) dims bs ti)) y = place (trs ti) (cmap (npts ti) dims (bitOf dims bs) y)).
    { intros y Hy. rewrite P by auto. f_equal. rewrite <- (bitOf_map dims bs) at 1 by auto. apply applyPts_cmap; auto. }
    split; auto.
    destruct Hsq as (Hn & HMl & Hel & HM).
    set (ps := map _ (combine Ms errs)).
    assert (Hps : forall i, (i < n)%nat -> let r := nth i ps (noT, 0) in
       wf (fst r) /\ ndim (fst r) = n /\ all_covered exact (fst r) /\ nth i errs 0 <= snd r /\
       forall x, in_cube n x -> Rabs (cheb_eval (fst r) x - cheb_eval (nth i Ms noT) (cmap (npts ti) dims (bitOf dims bs) x)) <= snd r - nth i errs 0).
    { intros i Hi. unfold ps. rewrite (nth_map_lt _ _ _ (noT, 0)) by (rewrite combine_length; lia). rewrite nth_combine by lia. cbn [fst].
      set (M := nth i Ms noT). assert (Hin : In M Ms) by (apply nth_In; lia). rewrite Forall_forall in HM, Hcov. destruct (HM M Hin) as [W D].
      pose proof (orderFor_perm X Has dims M) as Hp.
      assert (Ho : Forall (fun d => (d < n)%nat) (orderFor X dims M)).
      { apply Forall_forall. intros d Hd. rewrite Forall_forall in Hlt. apply Hlt. apply (Permutation_in _ Hp). auto. }
      destruct (polyAt_ok n (npts ti) Hnp exact (orderFor X dims M) (map (bitOf dims bs) (orderFor X dims M)) M (nth i errs 0) Ho W D (Hcov M Hin)) as (A1 & A2 & A3 & A4 & A5).
      cbv zeta. split; auto. split; auto. split; auto. split; auto. intros x Hx. specialize (A5 x Hx). rewrite (applyPts_cmap (npts ti) _ dims) in A5 by auto. exact A5. }
    assert (Hpl : length ps = n) by (unfold ps; rewrite map_length, combine_length; lia).
    assert (Hf1 : forall i, nth i (map fst ps) noT = fst (nth i ps (noT, 0))) by (intros; apply (map_nth fst ps (noT, 0))).
    assert (Hf2 : forall i, nth i (map snd ps) 0 = snd (nth i ps (noT, 0))) by (intros; apply (map_nth snd ps (noT, 0))).
    assert (HS : squareSystem n (map fst ps) (map snd ps)).
    { split; auto. rewrite !map_length. split; auto. split; auto. apply (Forall_nth_iff _ _ noT). rewrite map_length, Hpl. intros i Hi. rewrite Hf1. destruct (Hps i Hi) as (A1 & A2 & _). auto. }
    assert (HC : Forall (all_covered exact) (map fst ps)).
    { apply (Forall_nth_iff _ _ noT). rewrite map_length, Hpl. intros i Hi. rewrite Hf1. destruct (Hps i Hi) as (A1 & A2 & A3 & _). auto. }
    split; auto. split; auto. intros st fs [_ _ HA]. constructor; auto. intros i Hi y Hy.
    rewrite Hplace by apply Hy. rewrite Hf1, Hf2. destruct (Hps i Hi) as (_ & _ & _ & _ & A5). specialize (A5 y Hy).
    specialize (HA i Hi _ (cmap_cube n (npts ti) Hnp dims (bitOf dims bs) y Hy)).
    set (u := cheb_eval (nth i Ms noT) _) in *.
    replace (snd (nth i ps (noT, 0))) with (nth i errs 0 + (snd (nth i ps (noT, 0)) - nth i errs 0)) by ring. eapply within_plus; [exact HA|].
    match goal with |- Rabs (?p - ?q) <= _ => replace (p - q) with ((p - u) - (q - u)) by ring end.
    eapply Rle_trans; [apply Rabs_triang|]. rewrite Rabs_Ropp. lra.
  Qed.
  (** every local point of the parent lies in a child *)
  Theorem child_cover Ms errs ti dims y0 :
    tok n ti -> fresh ti -> squareSystem n Ms errs -> Forall (all_covered exact) Ms ->
    StronglySorted lt dims -> Forall (fun d => (d < n)%nat) dims -> in_cube n y0 ->
    exists bs y, In bs (bitLists (length dims)) /\ in_cube n y /\ place (trs ti) y0 = place (trs (snd (@childAt R R_num X exact Ms errs ti dims bs))) y.
  Proof.
    intros Ht Hcf Hsq Hcov Hsort Hlt Hy. destruct (cmap_onto n (npts ti) (tok_npt n ti Ht) dims y0 Hy) as (bs & y & Hb & Hyc & ->).
    exists bs, y. split; auto. split; auto. pose proof Hb as Hb'. apply in_bitLists in Hb'.
    destruct (child_ok Ms errs ti dims bs Ht Hcf Hsq Hcov Hsort Hlt (proj1 Hb')) as (_ & _ & P & _). symmetry. apply P. apply Hyc.
  Qed.
End Child.
