(** * The zoom loop keeps every root and keeps the approximation valid (over the reals) *)
From Coq Require Import List Arith Bool Lia ZArith Reals Lra.
From Verif Require Import Num RSum Cheb Tensor PolySpec TransformModel TransformChebProofs IntervalModel IntervalProofs
  LinearModel LinearProofs QuadModel SolverModel SystemSpec OrderProofs SubdivProofs SubdivReal.
Import ListNotations.
Local Open Scope R_scope.

(** ** the box returned by the linear reduction *)
Section Box.
  Variables (n : nat) (svd : list (list R) -> list (list R) * list R * list (list R)) (Ms : list (tensor R)) (errors : list R).
  Hypothesis Hn : (0 < n)%nat.
  Hypothesis HMl : length Ms = n.
  Hypothesis HMs : Forall (fun M => wf M /\ ndim M = n) Ms.
  Hypothesis Hel : length errors = n.
  Definition in11 (p : R * R) : Prop := -1 <= fst p <= 1 /\ -1 <= snd p <= 1.
  Lemma clipRow_in11 p : in11 (@clipRow R R_num p).
  Proof.
    destruct p as [[a|] [b|]]; unfold in11, clipRow; cbn [fst snd]; rewrite ?clipv_R; rnum; unfold Rmax, Rmin; repeat destruct Rle_dec; lra.
  Qed.
  Lemma bounding_range fs : blChanged (@boundingInterval R R_num svd Ms errors fs) = true ->
    length (blBox (@boundingInterval R R_num svd Ms errors fs)) = n /\ Forall in11 (blBox (@boundingInterval R R_num svd Ms errors fs)) /\
    blNan (@boundingInterval R R_num svd Ms errors fs) = false.
  Proof.
    unfold boundingInterval, boundingIntervalW. rewrite (dim_n n Ms errors) by auto. destruct (fold_left _ _ _) as [rows cs]. destruct (svd (map lA rows)) as [[U Sv] Vh].
    destruct (negb _); [discriminate|].
    match goal with |- context [existsb rowOut ?p] => set (ab1 := p) end.
    assert (Hl : length ab1 = n) by (unfold ab1; rewrite passBounds_length; unfold linearCheck1; rewrite map_length, seq_length; auto).
    match goal with |- context [if ?c then mkBL (map clipRow ab1) _ _ _ _ else _] => destruct c end.
    - cbn. intros _. split; [rewrite map_length; auto|]. split; auto. apply Forall_map, Forall_forall. intros p _. apply clipRow_in11.
    - match goal with |- context [if ?c then _ else _] => destruct c end; cbn; discriminate.
  Qed.
  Lemma bounding_throw_changed fs : blThrow (@boundingInterval R R_num svd Ms errors fs) = true -> blChanged (@boundingInterval R R_num svd Ms errors fs) = true.
  Proof.
    unfold boundingInterval, boundingIntervalW. destruct (fold_left _ _ _) as [rows cs]. destruct (svd (map lA rows)) as [[U Sv] Vh].
    destruct (negb _); [discriminate|].
    match goal with |- context [if ?c then mkBL _ _ _ _ _ else _] => destruct c end; [reflexivity|].
    match goal with |- context [if ?c then _ else _] => destruct c end; cbn; discriminate.
  Qed.
End Box.

(** ** keepPoints *)
Lemma keepPoints_length n (iv sub : box R) : length iv = n -> length sub = n -> length (@keepPoints R R_num iv sub) = n.
Proof. intros. unfold keepPoints. rewrite map_length, combine_length. lia. Qed.
Lemma keepPoints_nth n (iv sub : box R) i : length iv = n -> length sub = n -> (i < n)%nat ->
  nth i (@keepPoints R R_num iv sub) (0, 0) = (-1, 1) \/ nth i (@keepPoints R R_num iv sub) (0, 0) = nth i sub (0, 0).
Proof.
  intros H1 H2 Hi. unfold keepPoints. rewrite (nth_map_combine _ _ _ _ (0, 0) (0, 0)) by lia. cbn [fst snd]. destruct (neqb _ _); auto.
Qed.
Lemma keepPoints_range n (iv sub : box R) : length iv = n -> length sub = n -> Forall in11 sub ->
  sub_ok n (@keepPoints R R_num iv sub) \/ (length (@keepPoints R R_num iv sub) = n /\ @anyInverted R R_num (@keepPoints R R_num iv sub) = true).
Proof.
  intros H1 H2 H3. pose proof (keepPoints_length n iv sub H1 H2) as Hl. destruct (anyInverted (keepPoints iv sub)) eqn:E; [right; auto|left].
  split; auto. apply (Forall_nth_iff _ _ (0, 0)). rewrite Hl. intros i Hi.
  assert (Hle : fst (nth i (keepPoints iv sub) (0, 0)) <= snd (nth i (keepPoints iv sub) (0, 0))).
  { apply Rnot_lt_le. intros Hlt. assert (anyInverted (keepPoints iv sub) = true); [|congruence]. apply existsb_exists. exists (nth i (keepPoints iv sub) (0, 0)).
    split; [apply nth_In; lia|]. unfold ngtb. rnum. apply Rltb_true. auto. }
  destruct (keepPoints_nth n iv sub i H1 H2 Hi) as [E1|E1]; rewrite E1 in *; cbn [fst snd] in *; [lra|].
  pose proof (proj1 (Forall_nth_iff _ _ (0, 0)) H3 i ltac:(lia)) as [A B]. lra.
Qed.
Lemma keepPoints_sub n (iv sub : box R) : length iv = n -> sub_ok n sub -> sub_ok n (@keepPoints R R_num iv sub).
Proof.
  intros H1 Hs. pose proof (proj1 Hs) as H2. split; [apply keepPoints_length; auto|]. apply (Forall_nth_iff _ _ (0, 0)). rewrite (keepPoints_length n) by auto. intros i Hi.
  destruct (keepPoints_nth n iv sub i H1 H2 Hi) as [E|E]; rewrite E; cbn [fst snd]; [lra|]. apply (sub_ok_nth n); auto.
Qed.
Lemma keepPoints_in n (iv sub : box R) y : length iv = n -> length sub = n -> in_cube n y -> inBox sub y -> inBox (@keepPoints R R_num iv sub) y.
Proof.
  intros H1 H2 Hy Hb. apply (Forall2_nth_iff _ _ _ 0 (0, 0)) in Hb. destruct Hb as [_ Hb]. apply cube_iff in Hy. destruct Hy as [Hl Hy].
  apply (Forall2_nth_iff _ _ _ 0 (0, 0)). rewrite (keepPoints_length n) by auto. split; auto. intros i Hi.
  destruct (keepPoints_nth n iv sub i H1 H2 ltac:(lia)) as [E|E]; rewrite E; cbn [fst snd]; [apply Hy; lia|apply Hb; auto].
Qed.

(** ** systems and intervals as the solver carries them *)
Record okti (n : nat) (t : tint R) : Prop := {
  ok_tok : tok n t; ok_emp : empt t = false; ok_fresh : fresh t
}.
Definition sysOK (n : nat) (exact : bool) (Ms : list (tensor R)) (errs : list R) : Prop :=
  squareSystem n Ms errs /\ Forall (all_covered exact) Ms.
Lemma kin_okti n t t' e : okti n t -> tok n t' -> kin t t' e -> okti n t'.
Proof.
  intros [A B C] T K. constructor; auto; [rewrite (kin_emp _ _ _ K); auto|]. apply (fresh_kin _ _ _ K); auto.
Qed.
Lemma kin_canThrow n t t' e : okti n t -> kin t t' e -> @canThrowOut R t' = @canThrowOut R t.
Proof.
  intros [A B C] K. unfold canThrowOut. rewrite (kin_fin _ _ _ K), (kin_cthr _ _ _ K). auto.
Qed.
(** a common zero of [fs] at the local point y *)
Definition zeroAt (n : nat) (fs : nat -> list R -> R) (l : list (box R)) (y : list R) : Prop :=
  in_cube n y /\ forall i, (i < n)%nat -> fs i (place l y) = 0.
Lemma appr_root n exact st fs l Ms errs y : appr n exact st fs l Ms errs -> zeroAt n fs l y ->
  forall i, (i < n)%nat -> within st (Rabs (cheb_eval (nth i Ms noT) y)) (nth i errs 0).
Proof.
  intros HA [Hy Hz] i Hi. pose proof (ap_err _ _ _ _ _ _ _ HA i Hi y Hy) as H. rewrite (Hz i Hi) in H. unfold Rminus in H. rewrite Rplus_0_l, Rabs_Ropp in H. auto.
Qed.

(** applying one recorded transform to polynomials and interval *)
Lemma toInterval_ok n exact Ms ab errs : sysOK n exact Ms errs -> tr_ok n ab ->
  let r := @transformChebToInterval R R_num Ms ab errs exact in
  sysOK n exact (fst r) (snd r) /\ (forall i, (i < n)%nat -> nth i errs 0 <= nth i (snd r) 0) /\
  forall st fs l, appr n exact st fs l Ms errs -> appr n exact st fs (l ++ [ab]) (fst r) (snd r).
Proof.
  intros [(Hn & HMl & Hel & HM) Hcov] Hab. cbv zeta. unfold transformChebToInterval. cbv zeta. cbn [fst snd].
  set (ps := map _ (combine Ms errs)).
  assert (Hpl : length ps = n) by (unfold ps; rewrite map_length, combine_length; lia).
  assert (Hf1 : forall i, nth i (map fst ps) noT = fst (nth i ps (noT, 0))) by (intros; apply (map_nth fst ps (noT, 0))).
  assert (Hf2 : forall i, nth i (map snd ps) 0 = snd (nth i ps (noT, 0))) by (intros; apply (map_nth snd ps (noT, 0))).
  assert (Hps : forall i, (i < n)%nat -> let r := nth i ps (noT, 0) in
     wf (fst r) /\ ndim (fst r) = n /\ all_covered exact (fst r) /\ nth i errs 0 <= snd r /\
     forall x, in_cube n x -> Rabs (cheb_eval (fst r) x - cheb_eval (nth i Ms noT) (affine ab x)) <= snd r - nth i errs 0).
  { intros i Hi. unfold ps. rewrite (nth_map_lt _ _ _ (noT, 0)) by (rewrite combine_length; lia). rewrite nth_combine by lia. cbn [fst snd].
    set (M := nth i Ms noT). assert (Hin : In M Ms) by (apply nth_In; lia). rewrite Forall_forall in HM, Hcov. destruct (HM M Hin) as [W D].
    destruct (transformCheb_bound exact M ab (nth i errs 0) W ltac:(rewrite D; apply Hab) (Hcov M Hin)) as (A1 & A2 & A3 & A4 & A5). rewrite D in A2, A5.
    cbv zeta. split; auto. split; auto. split; auto. split; auto. intros x Hx. apply A5; auto. apply (tr_ok_inner n); auto. }
  assert (HS : sysOK n exact (map fst ps) (map snd ps)).
  { split.
    - split; auto. rewrite !map_length. split; auto. split; auto. apply (Forall_nth_iff _ _ noT). rewrite map_length, Hpl. intros i Hi. rewrite Hf1. destruct (Hps i Hi) as (A1 & A2 & _). auto.
    - apply (Forall_nth_iff _ _ noT). rewrite map_length, Hpl. intros i Hi. rewrite Hf1. destruct (Hps i Hi) as (_ & _ & A3 & _). auto. }
  split; auto. split; [intros i Hi; rewrite Hf2; apply Hps; auto|].
  intros st fs l [_ _ HA]. constructor; try apply HS. intros i Hi y Hy. rewrite place_app. cbn [place]. rewrite Hf1, Hf2.
  destruct (Hps i Hi) as (_ & _ & _ & _ & A5). specialize (A5 y Hy). specialize (HA i Hi _ (affine_cube n ab y Hab Hy)).
  set (u := cheb_eval (nth i Ms noT) _) in *.
  replace (snd (nth i ps (noT, 0))) with (nth i errs 0 + (snd (nth i ps (noT, 0)) - nth i errs 0)) by ring. eapply within_plus; [exact HA|].
  match goal with |- Rabs (?p - ?q) <= _ => replace (p - q) with ((p - u) - (q - u)) by ring end.
  eapply Rle_trans; [apply Rabs_triang|]. rewrite Rabs_Ropp. lra.
Qed.

(** ** one zoom step *)
Record zstep (n : nat) (exact : bool) (Ms : list (tensor R)) (errs : list R) (t : tint R) (Ms' : list (tensor R)) (errs' : list R) (t' : tint R) : Prop := {
  zs_ti : okti n t';
  zs_kin : exists e, kin t t' e;
  zs_sys : sysOK n exact Ms' errs';
  zs_mono : forall i, (i < n)%nat -> nth i errs 0 <= nth i errs' 0;
  zs_appr : forall st fs, appr n exact st fs (trs t) Ms errs -> appr n exact st fs (trs t') Ms' errs';
  zs_root : fin t = false -> forall st fs y, appr n exact st fs (trs t) Ms errs -> zeroAt n fs (trs t) y ->
    exists y', in_cube n y' /\ place (trs t) y = place (trs t') y'
}.
Lemma zstep_refl n exact Ms errs t : okti n t -> sysOK n exact Ms errs -> zstep n exact Ms errs t Ms errs t.
Proof.
  intros H1 H2. constructor; auto.
  - exists []. apply kin_refl.
  - intros; lra.
  - intros _ st fs y _ [Hy _]. exists y. auto.
Qed.
Lemma zstep_trans n exact Ms errs t Ms1 errs1 t1 Ms2 errs2 t2 :
  zstep n exact Ms errs t Ms1 errs1 t1 -> zstep n exact Ms1 errs1 t1 Ms2 errs2 t2 -> zstep n exact Ms errs t Ms2 errs2 t2.
Proof.
  intros [A1 [ea A2] A3 A4 A5 A6] [B1 [eb B2] B3 B4 B5 B6]. constructor; auto.
  - exists (ea ++ eb). eapply kin_trans; eauto.
  - intros i Hi. eapply Rle_trans; [apply A4|apply B4]; auto.
  - intros Hf st fs y HA HZ. destruct (A6 Hf st fs y HA HZ) as (y1 & Hy1 & E1). assert (Hf1 : fin t1 = false) by (rewrite (kin_fin _ _ _ A2); auto).
    destruct (B6 Hf1 st fs y1 (A5 st fs HA)) as (y2 & Hy2 & E2); [|exists y2; split; auto; congruence].
    split; auto. intros i Hi. rewrite <- E1. apply HZ; auto.
Qed.
Definition noRoot (n : nat) (exact : bool) (Ms : list (tensor R)) (errs : list R) (t : tint R) : Prop :=
  fin t = false -> forall st fs y, appr n exact st fs (trs t) Ms errs -> zeroAt n fs (trs t) y -> False.

Section Zoom.
  Variables (X : ext R) (n : nat).
  Hypothesis Hsvd : svd_ok n (xsvd X).
  Lemma zoomIter_spec exact Ms errs t : okti n t -> sysOK n exact Ms errs ->
    exists Ms' errs' t' ch stop, @zoomIter R R_num X exact Ms errs t = Ok (Ms', errs', t', ch, stop) /\
      ((empt t' = true /\ @canThrowOut R t = true /\ noRoot n exact Ms errs t) \/
       (zstep n exact Ms errs t Ms' errs' t')).
  Proof.
    intros Ht Hsys. pose proof Hsys as [(Hn & HMl & Hel & HM) Hcov]. pose proof (ok_tok n t Ht) as Htok. pose proof (tok_ivl_length n t Htok) as Hil.
    unfold zoomIter. cbv zeta. set (r := boundingInterval (xsvd X) Ms errs (fin t)).
    pose proof (bounding_sub n (xsvd X) Ms errs Hn HMl HM Hel (fin t)) as Hsub.
    pose proof (bounding_range n (xsvd X) Ms errs Hn HMl HM Hel (fin t)) as Hrange.
    pose proof (bounding_throw_changed (xsvd X) Ms errs (fin t)) as Htc. fold r in Hsub, Hrange, Htc.
    assert (Hkeep : fin t = false -> forall st fs y, appr n exact st fs (trs t) Ms errs -> zeroAt n fs (trs t) y ->
       blThrow r = false /\ (blNan r = false -> inBox (blBox r) y)).
    { intros Hf st fs y HA HZ. unfold r. rewrite Hf. apply (bounding_keep n (xsvd X) Ms errs Hn HMl HM Hel y (proj1 HZ)); auto.
      intros i Hi. apply (within_le st). apply (appr_root n exact st fs (trs t)); auto. }
    destruct (blThrow r) eqn:Eth; cbn [andb].
    - (* thrown out, or forced to stay *)
      destruct (canThrowOut t) eqn:Ect; cbn [negb].
      + exists Ms, errs, (setEmpty t), true, true. split; auto. left. split; auto. split; auto.
        intros Hf st fs y HA HZ. destruct (Hkeep Hf st fs y HA HZ). discriminate.
      + destruct (Hrange (Htc eq_refl)) as (Hl & Hin & _).
        pose proof (keepPoints_range n (ivl t) (blBox r) Hil Hl Hin) as Hk. set (sub := keepPoints (ivl t) (blBox r)) in *.
        assert (Hx : anyInverted sub && canThrowOut t = false) by (rewrite Ect; apply andb_false_r).
        pose proof (addTransform_tok n t sub Htok Hx Hk) as Ht'. rewrite (addTransform_eq t sub Hx) in *.
        set (ab := map alphaBeta (effSub t sub)) in *.
        assert (Hab : tr_ok n ab) by (apply sub_ok_tr, effSub_ok; auto).
        unfold getLastTransform. cbn [trs]. rewrite rev_app_distr. cbn [rev app].
        pose proof (toInterval_ok n exact Ms ab errs Hsys Hab) as (T1 & T2 & T3). destruct (transformChebToInterval Ms ab errs exact) as [Ms' errs'] eqn:E. cbn [fst snd] in *.
        eexists Ms', errs', _, _, _. split; [reflexivity|]. right.
        match goal with |- zstep _ _ _ _ _ _ _ ?u => set (t' := u) in * end.
        assert (K : kin t t' [ab]).
        { constructor; try reflexivity. cbn. auto. }
        assert (Hf : fin t = true) by (unfold canThrowOut in Ect; apply orb_false_iff in Ect; destruct Ect as [Ef _]; apply negb_false_iff in Ef; auto).
        constructor; auto.
        * apply (kin_okti n t t' [ab]); auto.
        * exists [ab]; auto.
        * intros st fs HA. apply (T3 st fs (trs t)); auto.
        * intros. congruence.
    - destruct (blChanged r) eqn:Ech; cbn [negb].
      2:{ exists Ms, errs, t, false, (blStop r). split; auto. right. apply zstep_refl; auto. }
      destruct (Hrange eq_refl) as (Hl & Hin & Hnan). specialize (Hsub eq_refl eq_refl).
      pose proof (keepPoints_sub n (ivl t) (blBox r) Hil Hsub) as Hk.
      pose proof (fun y => keepPoints_in n (ivl t) (blBox r) y Hil Hl) as Hkin. set (sub := keepPoints (ivl t) (blBox r)) in *.
      destruct (addTransform_sub n t sub Hk) as [Heff Hx].
      pose proof (addTransform_tok n t sub Htok Hx (or_introl Hk)) as Ht'. rewrite (addTransform_eq t sub Hx), Heff in *.
      set (ab := map alphaBeta sub) in *. assert (Hab : tr_ok n ab) by (apply sub_ok_tr; auto).
      unfold getLastTransform. cbn [trs]. rewrite rev_app_distr. cbn [rev app].
      pose proof (toInterval_ok n exact Ms ab errs Hsys Hab) as (T1 & T2 & T3). destruct (transformChebToInterval Ms ab errs exact) as [Ms' errs'] eqn:E. cbn [fst snd] in *.
      eexists Ms', errs', _, _, _. split; [reflexivity|]. right.
      match goal with |- zstep _ _ _ _ _ _ _ ?u => set (t' := u) in * end.
      assert (K : kin t t' [ab]).
      { constructor; try reflexivity. cbn. auto. }
      constructor; auto.
      + apply (kin_okti n t t' [ab]); auto.
      + exists [ab]; auto.
      + intros st fs HA. apply (T3 st fs (trs t)); auto.
      + intros Hf st fs y HA HZ. destruct (Hkeep Hf st fs y HA HZ) as [_ Hb]. specialize (Hb Hnan). specialize (Hkin y (proj1 HZ) Hb).
        destruct (sub_onto n sub y Hk Hkin) as (y' & Hy' & Ey). exists y'. split; auto. change (trs t') with (trs t ++ [ab]). rewrite place_app. cbn [place]. rewrite Ey. reflexivity.
  Qed.
  Lemma zoomLoop_spec o k : forall Ms errs t zc ls, okti n t -> sysOK n (oexact o) Ms errs ->
    match @zoomLoop R R_num X k o Ms errs t zc ls with
    | OutOfFuel => True
    | Raise => False
    | Ok None => @canThrowOut R t = true /\ noRoot n (oexact o) Ms errs t
    | Ok (Some (Ms', errs', t', stop)) => zstep n (oexact o) Ms errs t Ms' errs' t'
    end.
  Proof.
    induction k as [|k IH]; intros Ms errs t zc ls Ht Hsys; cbn [zoomLoop]; auto.
    destruct (zoomIter_spec (oexact o) Ms errs t Ht Hsys) as (Ms' & errs' & t' & ch & stop & E & H). rewrite E. cbn [bindR].
    destruct H as [(He & Hc & Hno)|Hz].
    - rewrite He. auto.
    - rewrite (ok_emp _ _ (zs_ti _ _ _ _ _ _ _ _ Hz)). destruct (_ && _); [|auto].
      match goal with |- context [zoomLoop X k o Ms' errs' t' ?a ?b] => specialize (IH Ms' errs' t' a b (zs_ti _ _ _ _ _ _ _ _ Hz) (zs_sys _ _ _ _ _ _ _ _ Hz)); destruct (zoomLoop X k o Ms' errs' t' a b) as [[[[[Ms2 errs2] t2] stop2]|] | |] end; auto.
      + eapply zstep_trans; eauto.
      + destruct IH as [I1 I2]. destruct (zs_kin _ _ _ _ _ _ _ _ Hz) as [e K]. split; [rewrite <- (kin_canThrow n t t' e); auto|].
        intros Hf st fs y HA HZ. destruct (zs_root _ _ _ _ _ _ _ _ Hz Hf st fs y HA HZ) as (y' & Hy' & Ey). apply (I2 ltac:(rewrite (kin_fin _ _ _ K); auto) st fs y'); [apply (zs_appr _ _ _ _ _ _ _ _ Hz); auto|].
        split; auto. intros i Hi. rewrite <- Ey. apply HZ; auto.
  Qed.
End Zoom.
