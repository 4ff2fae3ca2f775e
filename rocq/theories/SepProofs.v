(** * Interior results lie strictly inside the box they were found in *)
From Coq Require Import List Arith Bool Lia ZArith Reals Lra Sorted.
From Verif Require Import Num RSum Cheb Tensor PolySpec TransformModel TransformChebProofs IntervalModel IntervalProofs
  LinearModel LinearProofs QuadModel QuadNdFaces SolverModel SystemSpec TrimProofs OrderProofs SubdivProofs SubdivReal SplitProofs ZoomProofs PartProofs MergeProofs SolverProofs.
Import ListNotations.
Local Open Scope R_scope.

(** strictly inside in every coordinate *)
Definition boxLt (b c : box R) : Prop := Forall2 (fun p q => fst q < fst p /\ snd p < snd q) b c.
Lemma boxLt_Le a b c : boxLt a b -> boxLe b c -> boxLt a c.
Proof.
  intros H. revert c. induction H as [|p q a b Hp H IH]; intros c Hc; inversion Hc as [|q' r b' c' Hq Hc']; subst; constructor.
  - destruct Hp, Hq. split; lra.
  - apply IH; auto.
Qed.
Lemma notExterior_lt (orig t : tint R) : boxLe (@getIntervalForCombining R t) (@getIntervalForCombining R orig) ->
  @isExterior R R_num orig t = false -> boxLt (@getIntervalForCombining R t) (@getIntervalForCombining R orig).
Proof.
  unfold isExterior. generalize (@getIntervalForCombining R t) (@getIntervalForCombining R orig). intros a b H.
  induction H as [|p q a b Hp H IH]; cbn [combine existsb fst snd]; [constructor|].
  intros E. apply orb_false_iff in E. destruct E as [E E2]. apply orb_false_iff in E. destruct E as [E0 E1].
  constructor; [|apply IH; auto]. apply Reqb_false in E0. apply Reqb_false in E1. lra.
Qed.
Lemma sameBox_exterior (orig t : tint R) : (0 < length (@getIntervalForCombining R t))%nat ->
  @getIntervalForCombining R t = @getIntervalForCombining R orig -> @isExterior R R_num orig t = true.
Proof.
  unfold isExterior. intros Hl E. rewrite <- E. destruct (@getIntervalForCombining R t) as [|p b]; cbn in Hl; [lia|]. cbn [combine existsb fst snd].
  apply orb_true_iff. left. apply orb_true_iff. left. apply Reqb_true. auto.
Qed.

Section Sep.
  Variables (X : ext R) (n : nat) (o : opts).
  Hypothesis Hsvd : svd_ok n (xsvd X).
  Hypothesis Hsym : sym_solver_ok n (xrank X) (xsolve X).
  Hypothesis Has : argsort_ok (xargsort X).
  Hypothesis Hset : set_ok n (xset X).

  Lemma res_boxLe ti t : tok n ti -> resOK n ti t -> boxLe (@getIntervalForCombining R t) (@getIntervalForCombining R ti).
  Proof.
    intros Hti [B1 B2 B3 B4 B5 B6]. rewrite !(cbox_final n) by auto. destruct (fin ti) eqn:Ef.
    - destruct (B4 eq_refl) as [F P]. unfold bt. rewrite F, Ef, P. apply boxLe_refl.
    - destruct (B5 eq_refl) as [suf Es]. pose proof (bt_ok n t B1) as Hbt. rewrite Es in *. apply Forall_app in Hbt.
      replace (bt ti) with (trs ti) by (unfold bt; rewrite Ef; auto). apply final_boxLe; apply Hbt.
  Qed.

  (** what is claimed of the interior list *)
  Definition sepRes (ti : tint R) (i : list (tint R)) : Prop :=
    if fin ti then i = [] else forall t, In t i -> boxLt (@getIntervalForCombining R t) (@getIntervalForCombining R ti).
  Lemma sep_report ti orig t : (0 < n)%nat -> tok n ti -> resOK n ti t -> @getIntervalForCombining R orig = @getIntervalForCombining R ti ->
    sepRes ti (fst (@report R R_num orig t)).
  Proof.
    intros Hn Hti Ht Ho. unfold sepRes, report. destruct (fin ti) eqn:Ef.
    - rewrite sameBox_exterior; auto.
      + rewrite (cbox_final n) by apply Ht. rewrite finalBox_length, unitBox_length. auto.
      + rewrite Ho, !(cbox_final n) by (auto; apply Ht). destruct (ro_fin _ _ _ Ht Ef) as [F P]. unfold bt. rewrite F, Ef, P. auto.
    - destruct (isExterior orig t) eqn:E; cbn [fst]; [intros u []|]. intros u [<-|[]]. rewrite <- Ho. apply notExterior_lt; auto. rewrite Ho. apply res_boxLe; auto.
  Qed.

  Theorem solvePoly_sep : forall fuel level Ms ti errs i e, inOK n ti -> sysOK n (oexact o) Ms errs ->
    @solvePoly R R_num X fuel o level Ms ti errs = Ok (i, e) -> sepRes ti i.
  Proof.
    induction fuel as [|fuel IH]; intros level Ms ti errs i e Hin Hsys; cbn [solvePoly]; [discriminate|].
    pose proof (io_ok n ti Hin) as Hok. pose proof (ok_tok n ti Hok) as Htok. pose proof (ok_fresh n ti Hok) as Hfr.
    assert (Hn : (0 < n)%nat) by apply Hsys.
    assert (Hnil : sepRes ti []) by (unfold sepRes; destruct (fin ti); auto; intros t []).
    destruct (isPoint ti); [intros E; inversion E; subst; auto|].
    destruct (occheck o && constantCheck Ms errs); [intros E; inversion E; subst; auto|].
    destruct (quadCheck X o Ms errs); [intros E; inversion E; subst; auto|].
    cbv zeta. pose proof (trim_ok n (oexact o) Ms errs Hsys) as Htrim. cbv zeta in Htrim. destruct (trimMs Ms errs) as [Ms1 errs1]. cbn [fst snd] in Htrim. destruct Htrim as (S1 & _ & _).
    pose proof (kin_copy ti Hfr) as Kc. set (ti1 := copyT ti) in *. assert (Htok1 : tok n ti1) by (apply copy_tok; auto).
    assert (Hin1 : inOK n ti1) by (apply (kin_inOK n ti ti1 []); auto).
    set (orig := copyT ti1).
    assert (Ho : @getIntervalForCombining R orig = @getIntervalForCombining R ti).
    { unfold orig, ti1, getIntervalForCombining. cbn. destruct (fin ti); auto. }
    pose proof (zoomLoop_spec X n Hsvd o fuel Ms1 errs1 ti1 0 (dimSize ti1) (io_ok n ti1 Hin1) S1) as Hzoom.
    destruct (zoomLoop X fuel o Ms1 errs1 ti1 0 (dimSize ti1)) as [[[[[Ms2 errs2] ti2] stop]|] | |]; cbn [bindR]; try discriminate.
    2:{ intros E. inversion E; subst; auto. }
    destruct (zs_kin _ _ _ _ _ _ _ _ Hzoom) as [e2 K2]. pose proof (kin_trans _ _ _ _ _ Kc K2) as K. cbn [app] in K.
    pose proof (zs_ti _ _ _ _ _ _ _ _ Hzoom) as Hok2. pose proof (ok_tok n ti2 Hok2) as Htok2. pose proof (ok_fresh n ti2 Hok2) as Hfr2.
    pose proof (kin_inOK n ti ti2 e2 Hin Htok2 K) as Hin2. pose proof (zs_sys _ _ _ _ _ _ _ _ Hzoom) as S2.
    assert (Hrep : forall t, resOK n ti t -> Ok (report orig t) = Ok (i, e) -> sepRes ti i).
    { intros t Ht E. assert (i = fst (report orig t)) as -> by (inversion E as [E']; rewrite E'; auto). apply sep_report; auto. }
    pose proof (kin_res n ti ti2 e2 Hin Htok2 K) as R2.
    destruct stop.
    - destruct (fin ti2 || negb (ofinal o)) eqn:Efin; [apply (Hrep ti2); auto|].
      apply orb_false_iff in Efin. destruct Efin as [Ef2 _]. assert (Ef : fin ti = false) by (rewrite <- (kin_fin _ _ _ K); auto).
      assert (Hin3 : inOK n (startFinalStep ti2)).
      { constructor; [constructor; [apply start_tok; auto|apply Hok2|intros E; discriminate]|]. intros _. cbn. destruct (Hfr2 Ef2) as (_ & -> & _). constructor. }
      intros E. pose proof (IH (S level) Ms2 (startFinalStep ti2) errs2 i e Hin3 S2 E) as H. unfold sepRes in H. cbn in H. subst i. auto.
    - destruct (fin ti2) eqn:Ef2.
      + assert (Ef : fin ti = true) by (rewrite <- (kin_fin _ _ _ K); auto).
        destruct (kin_pre _ _ _ K Ef) as [P1 P2].
        assert (Hone : forall t, fin t = true -> preI t = preI ti -> Ok (report orig t) = Ok (i, e) -> sepRes ti i).
        { intros t F P E. assert (i = fst (report orig t)) as -> by (inversion E as [E']; rewrite E'; auto). unfold sepRes. rewrite Ef. unfold report.
          assert (Ec : getIntervalForCombining t = getIntervalForCombining ti) by (unfold getIntervalForCombining; rewrite F, Ef, P; auto).
          rewrite sameBox_exterior; [auto| |congruence]. rewrite Ec, (cbox_final n), finalBox_length, unitBox_length; auto. }
        destruct (getSubdivisionIntervals _ _ _ _ _ _) as [ch| |]; cbn [bindR]; try discriminate.
        destruct (runFlat _ ch) as [all| |]; cbn [bindR]; try discriminate. destruct all as [|a0 all]; apply Hone; cbn; auto.
      + assert (Ef : fin ti = false) by (rewrite <- (kin_fin _ _ _ K); auto).
        destruct (getSubdivisionIntervals X (oexact o) Ms2 errs2 ti2 (S level)) as [ch| |] eqn:Ech; cbn [bindR]; try discriminate.
        destruct (children_good X n o Has Hset Ms2 errs2 ti2 (S level) Hin2 S2 ch Ech) as [Hch _].
        destruct (runAll _ ch) as [[ri re]| |] eqn:Er; cbn [bindR]; try discriminate.
        destruct (runAll_spec _ ch ri re Er) as (_ & Ri & Re).
        assert (Hkid : forall tc ec', inOK n tc -> kin ti2 tc ec' -> forall t, resOK n tc t -> resOK n ti t).
        { intros tc ec' C1 C2 t Ht. apply (res_trans n ti ti2 t e2); auto. apply (res_trans n ti2 tc t ec'); auto. }
        assert (Hext : forall t, In t re -> resOK n ti t).
        { intros t Ht. destruct (Re t Ht) as ([[Mc ec] tc] & i1 & e1 & Hc & Ec & Hi). destruct (Hch _ Hc) as (C1 & (ec' & C2) & C3 & _). cbn [fst snd] in *.
          apply (Hkid tc ec'); auto. apply (proj1 (solvePoly_good X n o Hsvd Hsym Has Hset fuel (S level) Mc tc ec C1 C3 i1 e1 Ec) t). apply in_app_iff; auto. }
        assert (Htoko : tok n orig) by (apply copy_tok; auto). assert (Efo : fin orig = false) by (cbn; auto). assert (Eto : trs orig = trs ti) by reflexivity.
        assert (Hoko : okti n orig).
        { constructor; auto; [apply Hok|]. intros _. cbn. rewrite Ef. auto. }
        assert (Eio : ivl orig = getIntervalForCombining ti) by (rewrite <- Ho; unfold getIntervalForCombining; rewrite Efo; auto).
        destruct (mergeExterior orig re) as [merged| |] eqn:Em; cbn [bindR]; try discriminate.
        assert (HF : Forall (fun t => tok n t /\ boxLe (getIntervalForCombining t) (ivl orig)) re).
        { apply Forall_forall. intros t Ht. split; [apply (Hext t Ht)|]. rewrite Eio. apply res_boxLe; auto. }
        destruct (mergeExterior_ok n orig Hoko Efo re merged HF Em) as (G1 & G2 & _). rewrite Forall_forall in G1.
        match goal with |- context [rerun ?f orig merged] => set (ff := f) end.
        destruct (rerun ff orig merged) as [[ri2 re2]| |] eqn:Err; cbn [bindR]; try discriminate.
        pose proof (rerun_spec ff orig merged ri2 re2 Err) as Hrr. cbv zeta in Hrr. destruct Hrr as (_ & Pi & _).
        intros E. inversion E; subst i e. clear E. unfold sepRes. rewrite Ef. intros t Ht. apply in_app_iff in Ht. destruct Ht as [Ht|Ht].
        * destruct (Ri t Ht) as ([[Mc ec] tc] & i1 & e1 & Hc & Ec & Hi). destruct (Hch _ Hc) as (C1 & (ec' & C2) & C3 & _). cbn [fst snd] in *.
          pose proof (IH (S level) Mc tc ec i1 e1 C1 C3 Ec) as Hs. unfold sepRes in Hs. rewrite (kin_fin _ _ _ C2), Ef2 in Hs.
          eapply boxLt_Le; [apply Hs; auto|]. apply res_boxLe; auto. apply (Hkid tc ec'); auto. apply (kin_res n tc tc []); auto; [apply C1|apply kin_refl].
        * destruct (Pi t Ht) as (p & i1 & e1 & Hp & Ep & Hi). destruct (G1 p Hp) as [M1' M2' M3']. destruct (fst p) eqn:Efl.
          -- destruct (sameBox _ _); [inversion Ep; subst; destruct Hi|]. destruct (M3' eq_refl) as (Hokp & Hfp & ab & Etp & Hab).
             unfold ff in Ep. assert (El : getLastTransform (snd p) = Some ab) by (unfold getLastTransform; rewrite Etp, rev_app_distr; reflexivity). rewrite El in Ep.
             assert (S3 : sysOK n (oexact o) Ms errs2).
             { destruct Hsys as [(h1 & h2 & h3 & h4) h5]. split; auto. split; auto. split; auto. split; auto. apply S2. }
             pose proof (toInterval_ok n (oexact o) Ms ab errs2 S3 Hab) as (T1 & _ & _). destruct (transformChebToInterval Ms ab errs2 (oexact o)) as [M3 e3]. cbn [fst snd] in *.
             assert (Hinp : inOK n (snd p)) by (constructor; auto; congruence).
             pose proof (IH (S level) M3 (snd p) e3 i1 e1 Hinp T1 Ep) as Hs. unfold sepRes in Hs. rewrite Hfp in Hs.
             eapply boxLt_Le; [apply Hs; auto|]. rewrite <- Eio. auto.
          -- inversion Ep as [Ep']. assert (Ei : i1 = fst (report orig (snd p))) by (rewrite Ep'; auto). subst i1.
             assert (Hr : resOK n ti (snd p)) by (apply Hext, G2; destruct p; cbn in *; subst; auto).
             pose proof (sep_report ti orig (snd p) Hn Htok Hr Ho) as Hs. unfold sepRes in Hs. rewrite Ef in Hs. apply Hs; auto.
  Qed.

  (** two different children share at most a face *)
  Lemma bit_diff : forall (dims bs bs' : list nat), NoDup dims -> length bs = length dims -> length bs' = length dims -> bs <> bs' ->
    exists d, In d dims /\ bitOf dims bs d <> bitOf dims bs' d.
  Proof.
    induction dims as [|a dims IH]; intros [|b bs] [|b' bs'] Hnd H1 H2 Hne; cbn in H1, H2; try lia; [congruence|].
    apply NoDup_cons_iff in Hnd. destruct Hnd as [Ha Hnd]. destruct (Nat.eq_dec b b') as [->|Hb].
    - destruct (IH bs bs' Hnd ltac:(lia) ltac:(lia) ltac:(congruence)) as (d & Hd & Hdd). exists d. split; [right; auto|].
      unfold bitOf in *. cbn [idxOf]. destruct (Nat.eqb_spec a d) as [->|]; [contradiction|]. exact Hdd.
    - exists a. split; [left; auto|]. unfold bitOf. cbn [idxOf]. rewrite Nat.eqb_refl. exact Hb.
  Qed.
  Lemma saneR npt : Forall (fun v => -1 < v < 1) npt -> length npt = n -> @saneSplit R R_num n npt.
  Proof.
    intros H Hl. constructor.
    - apply Reqb_true; auto.
    - apply Reqb_true; auto.
    - apply Reqb_false. rnum. lra.
    - unfold ngtb. apply Rltb_false. rnum. lra.
    - intros d Hd. rewrite Forall_forall in H. assert (Hl' : (d < length npt)%nat) by lia. specialize (H (nth d npt n0) (nth_In _ _ Hl')). unfold ngtb. set (v := nth d npt n0) in *. clearbody v.
      split; [apply Reqb_false; rnum; lra|]. split; [apply Reqb_false; rnum; lra|]. split; apply Rltb_false; rnum; lra.
  Qed.
  Lemma bitLists_NoDup k : NoDup (bitLists k).
  Proof.
    induction k as [|k IH]; cbn [bitLists]; [repeat constructor; auto|]. apply NoDup_app_intro.
    - apply FinFun.Injective_map_NoDup; auto. intros x y E. congruence.
    - apply FinFun.Injective_map_NoDup; auto. intros x y E. congruence.
    - intros x H1 H2. apply in_map_iff in H1, H2. destruct H1 as (u & <- & _), H2 as (v & E & _). discriminate.
  Qed.
  Lemma children_apart Ms errs ti level ch j k c1 c2 : inOK n ti -> fin ti = false -> sysOK n (oexact o) Ms errs ->
    @getSubdivisionIntervals R R_num X (oexact o) Ms errs ti level = Ok ch ->
    nth_error ch j = Some c1 -> nth_error ch k = Some c2 -> j <> k ->
    exists d, (d < n)%nat /\ (snd (nth d (ivl (snd c1)) (0,0)) <= fst (nth d (ivl (snd c2)) (0,0)) \/ snd (nth d (ivl (snd c2)) (0,0)) <= fst (nth d (ivl (snd c1)) (0,0))).
  Proof.
    intros Hin Hf [Hsq Hcov] Hch H1 H2 Hjk. pose proof Hsq as (Hn & HMl & Hel & HM). pose proof (ok_tok n ti (io_ok n ti Hin)) as Htok.
    assert (HMd : Forall (fun M => ndim M = n) Ms) by (eapply Forall_impl; [|exact HM]; intros M [_ D]; auto).
    pose proof (children_spec X n Has Hset (oexact o) Ms errs ti level Hn HMl Hel HMd) as Hs. cbv zeta in Hs.
    destruct (subdims_ok n Ms ti level HMl) as [Hd1 Hd2]. set (dims := subdivisionDims Ms ti level) in *.
    rewrite Hs in Hch. destruct (_ && _) in Hch; [discriminate|]. inversion Hch; subst ch. clear Hch Hs.
    rewrite nth_error_map in H1, H2.
    destruct (nth_error (bitLists (length dims)) j) as [bs|] eqn:Ej; [|discriminate]. destruct (nth_error (bitLists (length dims)) k) as [bs'|] eqn:Ek; [|discriminate].
    cbn in H1, H2. inversion H1; subst c1. inversion H2; subst c2. clear H1 H2.
    assert (Hne : bs <> bs').
    { intros ->. apply Hjk. apply (NoDup_nth_error (bitLists (length dims))); auto; [apply bitLists_NoDup|apply nth_error_Some; congruence|congruence]. }
    pose proof (sorted_lt_NoDup dims Hd1) as Hnd.
    assert (B1 : length bs = length dims /\ Forall (fun b => b = 0 \/ b = 1)%nat bs) by (apply in_bitLists; eapply nth_error_In; eauto).
    assert (B2 : length bs' = length dims /\ Forall (fun b => b = 0 \/ b = 1)%nat bs') by (apply in_bitLists; eapply nth_error_In; eauto).
    destruct (bit_diff dims bs bs' Hnd (proj1 B1) (proj1 B2) Hne) as (d & Hd & Hdd). exists d.
    assert (Hdn : (d < n)%nat) by (rewrite Forall_forall in Hd2; auto). split; auto.
    pose proof (saneR (npts ti) (tok_npt n ti Htok) (tok_pts n ti Htok)) as Hsane. pose proof (tok_ivl_length n ti Htok) as Hil.
    destruct (intAt_ivl n (npts ti) Hsane dims bs ti Hil Hnd Hd2 (proj1 B1)) as [_ P1].
    destruct (intAt_ivl n (npts ti) Hsane dims bs' ti Hil Hnd Hd2 (proj1 B2)) as [_ P2].
    assert (Ex : existsb (Nat.eqb d) dims = true) by (apply existsb_exists; exists d; split; auto; apply Nat.eqb_refl).
    specialize (P1 d Hdn). specialize (P2 d Hdn). rewrite Ex in P1, P2. unfold childAt. cbn [snd]. change (0, 0) with (@n0 R R_num, @n0 R R_num). rewrite P1, P2. unfold halfRow.
    destruct (idxOf_lt d dims Hd) as [Q1 _]. unfold bitOf in *.
    destruct B1 as [L1 F1], B2 as [L2 F2]. rewrite Forall_forall in F1, F2.
    assert (Q2 : (idxOf d dims < length bs)%nat) by lia. assert (Q3 : (idxOf d dims < length bs')%nat) by lia.
    pose proof (F1 (nth (idxOf d dims) bs 0%nat) (nth_In _ _ Q2)) as D1. pose proof (F2 (nth (idxOf d dims) bs' 0%nat) (nth_In _ _ Q3)) as D2.
    destruct D1 as [D1|D1], D2 as [D2|D2]; rewrite D1, D2 in *; cbn [Nat.eqb fst snd]; try congruence; [left|right]; lra.
  Qed.

  (** a result kept out of the combining step does not meet a result of another child *)
  Theorem interior_apart Ms errs ti level ch : inOK n ti -> fin ti = false -> sysOK n (oexact o) Ms errs ->
    @getSubdivisionIntervals R R_num X (oexact o) Ms errs ti level = Ok ch ->
    forall j k M1 e1 t1 M2 e2 t2, nth_error ch j = Some (M1, e1, t1) -> nth_error ch k = Some (M2, e2, t2) -> j <> k ->
    forall f1 f2 l1 l2 i1 x1 i2 x2, @solvePoly R R_num X f1 o l1 M1 t1 e1 = Ok (i1, x1) -> @solvePoly R R_num X f2 o l2 M2 t2 e2 = Ok (i2, x2) ->
    forall u v, In u i1 -> In v (i2 ++ x2) -> ~ exists x, inBox (@getIntervalForCombining R u) x /\ inBox (@getIntervalForCombining R v) x.
  Proof.
    intros Hin Hf Hsys Hch j k M1 e1 t1 M2 e2 t2 Hj Hk Hjk f1 f2 l1 l2 i1 x1 i2 x2 R1 R2 u v Hu Hv (x & Xu & Xv).
    destruct (children_good X n o Has Hset Ms errs ti level Hin Hsys ch Hch) as [Hc _].
    destruct (Hc _ (nth_error_In _ _ Hj)) as (C1 & (k1 & K1) & S1 & _). destruct (Hc _ (nth_error_In _ _ Hk)) as (C2 & (k2 & K2) & S2 & _). cbn [fst snd] in *.
    destruct (children_apart Ms errs ti level ch j k _ _ Hin Hf Hsys Hch Hj Hk Hjk) as (d & Hd & Hsep). cbn [fst snd] in *.
    pose proof (solvePoly_sep f1 l1 M1 t1 e1 i1 x1 C1 S1 R1) as Hs. unfold sepRes in Hs. rewrite (kin_fin _ _ _ K1), Hf in Hs. specialize (Hs u Hu).
    pose proof (ok_tok n _ (io_ok n _ C1)) as T1. pose proof (ok_tok n _ (io_ok n _ C2)) as T2.
    pose proof (res_boxLe t2 v T2 (proj1 (solvePoly_good X n o Hsvd Hsym Has Hset f2 l2 M2 t2 e2 C2 S2 i2 x2 R2) v Hv)) as Hle.
    assert (I1 : getIntervalForCombining t1 = ivl t1) by (unfold getIntervalForCombining; rewrite (kin_fin _ _ _ K1), Hf; auto).
    assert (I2 : getIntervalForCombining t2 = ivl t2) by (unfold getIntervalForCombining; rewrite (kin_fin _ _ _ K2), Hf; auto).
    rewrite I1 in Hs. rewrite I2 in Hle.
    apply (Forall2_nth_iff _ _ _ (0,0) (0,0)) in Hs. apply (Forall2_nth_iff _ _ _ (0,0) (0,0)) in Hle. destruct Hs as [La Hs], Hle as [Lb Hle].
    rewrite (tok_ivl_length n t1 T1) in La. rewrite (tok_ivl_length n t2 T2) in Lb. specialize (Hs d ltac:(lia)). specialize (Hle d ltac:(lia)).
    apply (Forall2_nth_iff _ _ _ 0 (0,0)) in Xu. apply (Forall2_nth_iff _ _ _ 0 (0,0)) in Xv. destruct Xu as [Lu Xu], Xv as [Lv Xv].
    specialize (Xu d ltac:(lia)). specialize (Xv d ltac:(lia)). lra.
  Qed.
End Sep.
