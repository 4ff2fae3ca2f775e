(** * The final step keeps every box, in any arithmetic *)
From Coq Require Import List Arith Bool Lia.
From Verif Require Import Num Tensor TransformModel IntervalModel LinearModel QuadModel SolverModel.
Import ListNotations.

Section Final.
  Context {T : Type} {NT : Num T}.
  Variable X : ext T.

  (** what every step of the zoom keeps *)
  Record kept (t t' : tint T) : Prop := {
    kp_fin : fin t' = fin t; kp_cthr : cthr t' = cthr t; kp_preI : preI t' = preI t; kp_preT : preT t' = preT t;
    kp_dups : dups t' = dups t; kp_extra : extra t' = extra t; kp_empt : canThrowOut t = false -> empt t' = empt t }.
  Lemma kept_refl t : kept t t.
  Proof. constructor; auto. Qed.
  Lemma kept_canThrow t t' : kept t t' -> canThrowOut t' = canThrowOut t.
  Proof. intros [A B _ _ _ _ _]. unfold canThrowOut. congruence. Qed.
  Lemma kept_trans t t' t2 : kept t t' -> kept t' t2 -> kept t t2.
  Proof.
    intros K [A B C D E F G]. pose proof (kept_canThrow _ _ K) as H. destruct K as [A' B' C' D' E' F' G']. constructor; try congruence.
    intros Hc. rewrite G by congruence. auto.
  Qed.
  Lemma kept_add t sub : kept t (addTransform t sub).
  Proof. unfold addTransform. destruct (anyInverted sub && canThrowOut t) eqn:E; constructor; cbn; auto. intros Hc. rewrite Hc, andb_false_r in E. discriminate. Qed.
  Lemma zoomIter_kept exact Ms errors t Ms' e' t' c s : zoomIter X exact Ms errors t = Ok (Ms', e', t', c, s) -> kept t t'.
  Proof.
    unfold zoomIter. cbv zeta. set (r := boundingInterval _ _ _ _). destruct (blThrow r) eqn:Et; destruct (canThrowOut t) eqn:Ec; cbn [andb negb].
    - intros H. inversion H; subst. constructor; cbn; auto. congruence.
    - destruct (getLastTransform _) as [ab|]; [|discriminate]. destruct (transformChebToInterval Ms ab errors exact) as [M2 e2]. intros H. inversion H; subst. apply kept_add.
    - destruct (blChanged r); cbn [negb]; [|intros H; inversion H; subst; apply kept_refl].
      destruct (getLastTransform _) as [ab|]; [|discriminate]. destruct (transformChebToInterval Ms ab errors exact) as [M2 e2]. intros H. inversion H; subst. apply kept_add.
    - destruct (blChanged r); cbn [negb]; [|intros H; inversion H; subst; apply kept_refl].
      destruct (getLastTransform _) as [ab|]; [|discriminate]. destruct (transformChebToInterval Ms ab errors exact) as [M2 e2]. intros H. inversion H; subst. apply kept_add.
  Qed.
  Lemma zoomLoop_kept o : forall k Ms errors t c ls z, zoomLoop X k o Ms errors t c ls = Ok z ->
    match z with
    | None => canThrowOut t = true \/ empt t = true
    | Some (_, _, t', _) => kept t t'
    end.
  Proof.
    induction k as [|k IH]; intros Ms errors t c ls z; cbn [zoomLoop]; [discriminate|].
    destruct (zoomIter X (oexact o) Ms errors t) as [[[[[M1 e1] t1] ch] st]| |] eqn:E; cbn [bindR]; try discriminate.
    pose proof (zoomIter_kept _ _ _ _ _ _ _ _ _ E) as K. destruct (empt t1) eqn:Ee.
    - intros H. inversion H; subst. destruct (canThrowOut t) eqn:Ec; auto. right. rewrite <- (kp_empt _ _ K Ec). auto.
    - destruct (ch && _).
      + intros H. apply IH in H. destruct z as [[[[M2 e2] t2] s2]|].
        * apply (kept_trans t t1 t2); auto.
        * destruct H as [H|H]; [left; rewrite <- (kept_canThrow t t1); auto|congruence].
      + intros H. inversion H; subst. auto.
  Qed.

  Lemma report_cases orig t : report orig t = ([], [t]) \/ report orig t = ([t], []).
  Proof. unfold report. destruct (isExterior orig t); auto. Qed.
  Lemma kept_copy t : fin t = true -> kept t (copyT t).
  Proof. intros H. unfold copyT. rewrite H. constructor; cbn; auto. Qed.

  (** one box of the final step: at most one result, with the same pre-final box *)
  Theorem final_one fuel o level Ms ti errs i e : fin ti = true -> empt ti = false ->
    solvePoly X fuel o level Ms ti errs = Ok (i, e) ->
    (i ++ e = [] \/ exists t, i ++ e = [t] /\ fin t = true /\ preI t = preI ti /\ preT t = preT ti) /\
    (cthr ti = false -> isPoint ti = true \/ (occheck o && constantCheck Ms errs = false /\ quadCheck X o Ms errs = false) ->
       exists t, i ++ e = [t] /\ fin t = true /\ preI t = preI ti /\ preT t = preT ti).
  Proof.
    intros Hf He. destruct fuel as [|fuel]; cbn [solvePoly]; [discriminate|].
    assert (Hboth : forall t, (i, e) = ([], [t]) \/ (i, e) = ([t], []) -> fin t = true -> preI t = preI ti -> preT t = preT ti ->
      (i ++ e = [] \/ exists t, i ++ e = [t] /\ fin t = true /\ preI t = preI ti /\ preT t = preT ti) /\
      (cthr ti = false -> isPoint ti = true \/ (occheck o && constantCheck Ms errs = false /\ quadCheck X o Ms errs = false) ->
         exists t, i ++ e = [t] /\ fin t = true /\ preI t = preI ti /\ preT t = preT ti)).
    { intros t E A B C. assert (Ee : i ++ e = [t]) by (destruct E as [E|E]; inversion E; subst; auto). split; [right|intros _ _]; exists t; auto. }
    destruct (isPoint ti) eqn:Ep.
    { intros H. inversion H; subst. apply (Hboth ti); auto. }
    destruct (occheck o && constantCheck Ms errs) eqn:Ecc.
    { intros H. inversion H; subst. split; [left; auto|]. intros _ [?|[? _]]; discriminate. }
    destruct (quadCheck X o Ms errs) eqn:Eq.
    { intros H. inversion H; subst. split; [left; auto|]. intros _ [?|[_ ?]]; discriminate. }
    cbv zeta. destruct (trimMs Ms errs) as [M1 e1]. pose proof (kept_copy ti Hf) as Kc. set (t1 := copyT ti) in *.
    destruct (zoomLoop X fuel o M1 e1 t1 0 (dimSize t1)) as [z| |] eqn:Ez; cbn [bindR]; try discriminate. apply zoomLoop_kept in Ez.
    assert (Ec : canThrowOut t1 = cthr ti) by (rewrite (kept_canThrow _ _ Kc); unfold canThrowOut; rewrite Hf; auto).
    destruct z as [[[[M2 e2] t2] stop]|].
    2:{ intros H. inversion H; subst. split; [left; auto|]. intros Hct _. destruct Ez as [Ez|Ez]; [congruence|]. cbn in Ez. congruence. }
    pose proof (kept_trans _ _ _ Kc Ez) as K. assert (F2 : fin t2 = true) by (rewrite (kp_fin _ _ K); auto).
    rewrite F2. cbn [orb]. destruct stop.
    - intros H. inversion H as [H']. apply (Hboth t2); try apply K; auto. rewrite <- H'. apply report_cases.
    - destruct (getSubdivisionIntervals X (oexact o) M2 e2 (setCanThrow t2) (S level)) as [ch| |]; cbn [bindR]; try discriminate.
      destruct (runFlat _ ch) as [all| |]; cbn [bindR]; try discriminate.
      destruct all as [|a all].
      + intros H. inversion H as [H']. apply (Hboth (setExtra (setCanThrow t2))); cbn; try apply K; auto. rewrite <- H'. apply report_cases.
      + intros H. inversion H as [H']. match type of H' with report _ ?u = _ => apply (Hboth u) end; cbn [setDups fin preI preT]; try apply K; auto. rewrite <- H'. apply report_cases.
  Qed.

  (** the flag and the duplicates of a box that had to be subdivided in the final step *)
  Theorem final_flag fuel o level Ms ti errs i e M2 e2 t2 ch all :
    fin ti = true -> isPoint ti = false -> occheck o && constantCheck Ms errs = false -> quadCheck X o Ms errs = false ->
    (let '(M1, e1) := trimMs Ms errs in zoomLoop X fuel o M1 e1 (copyT ti) 0 (dimSize (copyT ti))) = Ok (Some (M2, e2, t2, false)) ->
    getSubdivisionIntervals X (oexact o) M2 e2 (setCanThrow t2) (S level) = Ok ch ->
    runFlat (fun c => let '(M, e, t) := c in solvePoly X fuel o (S level) M t e) ch = Ok all ->
    solvePoly X (S fuel) o level Ms ti errs = Ok (i, e) ->
    exists t, i ++ e = [t] /\
      (all = [] -> extra t = true /\ dups t = dups ti) /\
      (all <> [] -> extra t = extra ti /\ dups t = dups ti ++ flat_map rootsOf (distinctResults all)).
  Proof.
    intros Hf Ep Ec Eq. cbn [solvePoly]. rewrite Ep, Ec, Eq. destruct (trimMs Ms errs) as [M1 e1]. intros Ez Ech Er. cbv zeta. rewrite Ez. cbn [bindR].
    pose proof (kept_trans _ _ _ (kept_copy ti Hf) (zoomLoop_kept _ _ _ _ _ _ _ _ Ez)) as K. assert (F2 : fin t2 = true) by (rewrite (kp_fin _ _ K); auto).
    rewrite F2. rewrite Ech. cbn [bindR]. rewrite Er. cbn [bindR].
    assert (Hone : forall t, Ok (report (copyT (copyT ti)) t) = Ok (i, e) -> i ++ e = [t]).
    { intros t H. inversion H as [H']. destruct (report_cases (copyT (copyT ti)) t) as [E|E]; rewrite E in H'; inversion H'; auto. }
    destruct all as [|a all].
    - intros H. apply Hone in H. exists (setExtra (setCanThrow t2)). split; auto. split; [intros _; cbn; split; auto; apply K|congruence].
    - intros H. apply Hone in H. eexists. split; [exact H|]. split; [discriminate|]. intros _. unfold collectDups. cbn [setDups setCanThrow extra dups]. rewrite (kp_dups _ _ K), (kp_extra _ _ K). auto.
  Qed.

  (** ** Roots, boxes and warnings of the whole solver *)
  Lemma rootsOf_len (t : tint T) : 1 <= length (rootsOf t).
  Proof. unfold rootsOf. destruct (dups t); cbn; lia. Qed.
  Theorem solve_result fuel o Ms errs sol : solveChebyshevSubdivision X fuel o Ms errs = Ok sol ->
    sRoots sol = flat_map rootsOf (sBoxes sol) /\ length (sBoxes sol) <= length (sRoots sol) /\
    ((forall t, In t (sBoxes sol) -> dups t = []) -> sRoots sol = map getFinalPoint (sBoxes sol)) /\
    (sExtra sol = true <-> exists t, In t (sBoxes sol) /\ extra t = true) /\
    (sDup sol = true <-> exists t, In t (sBoxes sol) /\ dups t <> []).
  Proof.
    unfold solveChebyshevSubdivision. destruct (existsb _ Ms); [discriminate|]. destruct (negb _); [discriminate|]. destruct Ms as [|M0 Ms]; [discriminate|].
    destruct (solvePoly _ _ _ _ _ _ _) as [[b1 b2]| |]; cbn [bindR]; try discriminate. intros H. inversion H. cbn [sRoots sBoxes sExtra sDup]. set (bs := b1 ++ b2). clearbody bs.
    split; auto. split; [|split; [|split]].
    - clear. induction bs as [|t bs IH]; cbn [flat_map length]; [auto|]. rewrite app_length. pose proof (rootsOf_len t). lia.
    - clear. induction bs as [|t bs IH]; intros Hd; cbn [flat_map map]; auto. rewrite IH by (intros u Hu; apply Hd; right; auto). unfold rootsOf. rewrite (Hd t (or_introl eq_refl)). auto.
    - split.
      + intros E. apply existsb_exists in E. destruct E as (t & A & B). eauto.
      + intros (t & A & B). apply existsb_exists. eauto.
    - split.
      + intros E. apply existsb_exists in E. destruct E as (t & A & B). exists t. split; auto. destruct (dups t); [discriminate|congruence].
      + intros (t & A & B). apply existsb_exists. exists t. split; auto. destruct (dups t); [congruence|auto].
  Qed.
End Final.
