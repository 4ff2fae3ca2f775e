(** * Multiplying a coefficient array by a constant: the transforms are linear *)
From Coq Require Import List Arith Bool Lia ZArith Reals Lra.
From Verif Require Import Num RSum Cheb Tensor PolySpec SystemSpec TransformModel TransformNDProofs HeapProofs.
From Coq Require Import List.
Import ListNotations.
Local Open Scope R_scope.

Section Scale.
  Variable l : R.
  Notation sc := (map (Rmult l)).
  Lemma nth_sc i c : nth i (sc c) 0 = l * nth i c 0.
  Proof. rewrite <- (Rmult_0_r l) at 1. apply map_nth. Qed.
  Lemma g_sc c i : @g R R_num (sc c) i = l * @g R R_num c i.
  Proof. unfold g. rnum. apply nth_sc. Qed.
  Lemma sc_upd c i v : sc (upd c i v) = upd (sc c) i (l * v).
  Proof. apply map_upd. Qed.
  Lemma sc_zero k : sc (repeat 0 k) = repeat 0 k.
  Proof. induction k; cbn; auto. rewrite IHk, Rmult_0_r. reflexivity. Qed.

  Definition pr {A} (p q : A * list R) : Prop := fst q = fst p /\ snd q = sc (snd p).
  Lemma fold_pr {A} (F G : A * list R -> nat -> A * list R) s : (forall p q i, pr p q -> pr (F p i) (G q i)) -> forall p q, pr p q -> pr (fold_left F s p) (fold_left G s q).
  Proof. intros H. induction s; intros p q K; cbn; auto. Qed.
  Lemma put_pr c i v p q : pr p q -> pr (@put R R_num c i v p) (@put R R_num (l * c) i v q).
  Proof. intros [H1 H2]. unfold pr, put in *. cbn [fst snd]. rewrite H1, H2, sc_upd, g_sc. rnum. split; auto. f_equal. ring. Qed.
  Lemma putE_pr c i v e p q : pr p q -> pr (@putE R R_num c i v e p) (@putE R R_num (l * c) i v e q).
  Proof. destruct p as [[a b] t], q as [[a' b'] t']. intros [H1 H2]. cbn [fst snd] in *. injection H1 as -> ->. rewrite H2. unfold pr, putE. cbn [fst snd]. rewrite sc_upd, g_sc. rnum. split; auto. f_equal. ring. Qed.

  Definition scT (s : @tst R) : @tst R := mkTst (t1 s) (t2 s) (t3 s) (sc (tc s)) (mr s).
  Definition scE (s : @est R) : @est R := mkEst (e1 s) (e2 s) (e3 s) (f1 s) (f2 s) (f3 s) (sc (ec s)) (er s).
  Lemma tstep_sc a b s c : @tstep R R_num a b (scT s) (l * c) = scT (@tstep R R_num a b s c).
  Proof.
    unfold tstep, scT. cbn [t1 t2 t3 tc mr]. cbv zeta.
    match goal with |- mkTst _ (fst ?q) _ (snd ?q) _ = mkTst _ (fst ?p) _ _ _ => assert (H : pr p q); [|destruct H as [H1 H2]; rewrite H1, H2; reflexivity] end.
    assert (K : forall p q : list R * list R, pr p q -> forall i v b, pr (if b : bool then @put R R_num c i v p else p) (if b then @put R R_num (l * c) i v q else q)) by (intros p q Hpq i v [|]; auto; apply put_pr; auto).
    apply K. apply put_pr. apply fold_pr; [intros; apply put_pr; auto|]. apply K. apply put_pr. split; reflexivity.
  Qed.
  Ltac des := repeat match goal with |- context [let '(_, _) := ?e in _] =>
      match e with Split _ => destruct e as [? ?] | TwoProdWithSplit _ _ _ _ => destruct e as [? ?] | TwoSum _ _ => destruct e as [? ?] end end.
  Lemma estep_sc a b s c : @estep R R_num a b (scE s) (l * c) = scE (@estep R R_num a b s c).
  Proof.
    unfold estep, scE. cbn [e1 e2 e3 f1 f2 f3 ec er]. des. cbv zeta.
    match goal with |- context [putE (l * c) (er s) ?v ?e ?p] => set (q := putE (l * c) (er s) v e p) end.
    match goal with |- context [putE c (er s) ?v ?e ?p] => set (p1 := putE c (er s) v e p) end.
    assert (H : pr p1 q).
    { unfold p1, q. apply putE_pr. apply putE_pr. apply fold_pr; [intros; des; apply putE_pr; auto|]. destruct (2 <? er s)%nat; des; repeat apply putE_pr; split; reflexivity. }
    clearbody p1 q. destruct q as [[x y] z]. destruct p1 as [[x' y'] z']. destruct H as [H1 H2]. cbn [fst snd] in *. injection H1 as -> ->. cbn. rewrite H2. reflexivity.
  Qed.
  Lemma sstep_sc a s c : @sstep R R_num a (scE s) (l * c) = scE (@sstep R R_num a s c).
  Proof.
    unfold sstep, scE. cbn [e1 e2 e3 f1 f2 f3 ec er]. des. cbv zeta.
    match goal with |- context [putE (l * c) (er s) ?v ?e ?p] => set (q := putE (l * c) (er s) v e p) end.
    match goal with |- context [putE c (er s) ?v ?e ?p] => set (p1 := putE c (er s) v e p) end.
    assert (H : pr p1 q).
    { unfold p1, q. apply putE_pr. apply putE_pr. apply fold_pr; [intros; des; apply putE_pr; auto|]. destruct (2 <? er s)%nat; des; repeat apply putE_pr; split; reflexivity. }
    clearbody p1 q. destruct q as [[x y] z]. destruct p1 as [[x' y'] z']. destruct H as [H1 H2]. cbn [fst snd] in *. injection H1 as -> ->. cbn. rewrite H2. reflexivity.
  Qed.
  Lemma fold_sc {A} (S : A -> A) (F : A -> R -> A) : (forall s c, F (S s) (l * c) = S (F s c)) -> forall cs s, fold_left F (sc cs) (S s) = S (fold_left F cs s).
  Proof. intros H. induction cs; intros s; cbn; auto. rewrite H. auto. Qed.
  Lemma skipn_sc k c : skipn k (sc c) = sc (skipn k c).
  Proof. revert c. induction k; intros [|x c]; cbn; auto. Qed.
  Lemma firstn_sc k c : firstn k (sc c) = sc (firstn k c).
  Proof. revert c. induction k; intros [|x c]; cbn; auto. f_equal. auto. Qed.
  (** the coefficients after the first two columns *)
  Definition init2 (N : nat) (x p q : R) : list R :=
    let tc0 := upd (repeat 0 N) 0 x in
    let tc1 := upd tc0 0 (@g R R_num tc0 0 + p) in
    upd tc1 1 (@g R R_num tc1 1 + q).
  Lemma init2_sc N x p q : init2 N (l * x) (l * p) (l * q) = sc (init2 N x p q).
  Proof.
    unfold init2. cbv zeta. assert (Z : upd (repeat 0 N) 0 (l * x) = sc (upd (repeat 0 N) 0 x)) by (rewrite sc_upd, sc_zero; auto).
    rewrite Z, g_sc, <- Rmult_plus_distr_l, <- sc_upd, g_sc, <- Rmult_plus_distr_l, <- sc_upd. reflexivity.
  Qed.
  Lemma transform1D_sc c a b : @transform1D R R_num (sc c) a b = sc (@transform1D R R_num c a b).
  Proof.
    unfold transform1D. rewrite map_length, skipn_sc. cbv zeta. rewrite <- firstn_sc. rewrite !g_sc. rnum.
    rewrite <- !(Rmult_assoc _ l), !(Rmult_comm _ l), !(Rmult_assoc l). fold (init2 (length c) (l * g c 0) (l * (b * g c 1)) (l * (a * g c 1))).
    match goal with |- context [upd (upd (upd _ 0 (g c 0)) 0 _) 1 _] => fold (init2 (length c) (g c 0) (b * g c 1) (a * g c 1)) end.
    rewrite init2_sc.
    match goal with |- context [mkTst ?a1 ?a2 ?a3 (sc ?x) 2] => change (mkTst a1 a2 a3 (sc x) 2) with (scT (mkTst a1 a2 a3 x 2)) end.
    rewrite (fold_sc scT) by apply tstep_sc. reflexivity.
  Qed.
  Lemma split_sc c b : @transform1DErrorFreeSplit R R_num (sc c) b = sc (@transform1DErrorFreeSplit R R_num c b).
  Proof.
    unfold transform1DErrorFreeSplit. rewrite map_length, skipn_sc. cbv zeta. rewrite <- firstn_sc. rewrite !g_sc. rnum.
    replace (b * (l * g c 1) / n2) with (l * (b * g c 1 / n2)) by (rewrite n2_R; field). replace (l * g c 1 / n2) with (l * (g c 1 / n2)) by (rewrite n2_R; field).
    fold (init2 (length c) (l * g c 0) (l * (b * g c 1 / n2)) (l * (g c 1 / n2))). fold (init2 (length c) (g c 0) (b * g c 1 / n2) (g c 1 / n2)).
    rewrite init2_sc.
    match goal with |- context [mkEst ?a1 ?a2 ?a3 ?a4 ?a5 ?a6 (sc ?x) 2] => change (mkEst a1 a2 a3 a4 a5 a6 (sc x) 2) with (scE (mkEst a1 a2 a3 a4 a5 a6 x 2)) end.
    rewrite (fold_sc scE) by apply sstep_sc. reflexivity.
  Qed.
  Lemma errorfree_sc c a b : @transform1DErrorFree R R_num (sc c) a b = sc (@transform1DErrorFree R R_num c a b).
  Proof.
    unfold transform1DErrorFree. destruct (_ && _); [apply split_sc|]. rewrite map_length, skipn_sc. cbv zeta. rewrite <- firstn_sc. rewrite !g_sc. rnum.
    replace (b * (l * g c 1)) with (l * (b * g c 1)) by ring. replace (a * (l * g c 1)) with (l * (a * g c 1)) by ring.
    fold (init2 (length c) (l * g c 0) (l * (b * g c 1)) (l * (a * g c 1))). fold (init2 (length c) (g c 0) (b * g c 1) (a * g c 1)).
    rewrite init2_sc.
    match goal with |- context [mkEst ?a1 ?a2 ?a3 ?a4 ?a5 ?a6 (sc ?x) 2] => change (mkEst a1 a2 a3 a4 a5 a6 (sc x) 2) with (scE (mkEst a1 a2 a3 a4 a5 a6 x 2)) end.
    rewrite (fold_sc scE) by apply estep_sc. reflexivity.
  Qed.
  Lemma transform1Dx_sc ex c a b : @transform1Dx R R_num ex (sc c) a b = sc (@transform1Dx R R_num ex c a b).
  Proof. destruct ex; [apply errorfree_sc|apply transform1D_sc]. Qed.

  (** ** arrays *)
  Definition tscale (t : tensor R) : tensor R := mkT (shp t) (sc (dat t)).
  Lemma tget_sc t idx : @tget R R_num (tscale t) idx = l * @tget R R_num t idx.
  Proof. unfold tget, tscale. cbn [shp dat]. rnum. apply nth_sc. Qed.
  Lemma tbuild_sc s F : @tscale (tbuild s F) = tbuild s (fun i => l * F i).
  Proof. unfold tscale, tbuild. cbn [shp dat]. rewrite map_map. reflexivity. Qed.
  Lemma tbuild_ext {T} s (F G : list nat -> T) : (forall i, F i = G i) -> tbuild s F = tbuild s G.
  Proof. intros H. unfold tbuild. f_equal. apply map_ext. auto. Qed.
  Lemma fibre_sc t d r : @fibre R R_num (tscale t) d r = sc (@fibre R R_num t d r).
  Proof. unfold fibre. rewrite map_map. apply map_ext. intros k. apply tget_sc. Qed.
  Lemma transpose_sc t o : @transpose R R_num (tscale t) o = tscale (@transpose R R_num t o).
  Proof. unfold transpose. rewrite tbuild_sc. apply tbuild_ext. intros i. apply tget_sc. Qed.
  Lemma axis0_sc F t : (forall c, F (sc c) = sc (F c)) -> @apply_axis0 R R_num F (tscale t) = tscale (@apply_axis0 R R_num F t).
  Proof.
    intros H. unfold apply_axis0. rewrite tbuild_sc, fibre_sc, H, map_length. apply tbuild_ext. intros i. rewrite fibre_sc, H. apply g_sc.
  Qed.
  Lemma transformND_sc t d a b ex : @transformND R R_num (tscale t) d a b ex = tscale (@transformND R R_num t d a b ex).
  Proof.
    assert (HF : forall c, transform1Dx ex (sc c) a b = sc (transform1Dx ex c a b)) by (intros; apply transform1Dx_sc).
    unfold transformND. change (shp (tscale t)) with (shp t). change (ndim (tscale t)) with (ndim t). destruct (_ || _); auto. destruct (d =? 0)%nat; [apply axis0_sc, HF|].
    cbv zeta. rewrite transpose_sc, axis0_sc by apply HF. apply transpose_sc.
  Qed.
  Hypothesis Hl : 0 < l.
  Lemma nsumabs_sc c : @nsumabs R R_num (sc c) = l * @nsumabs R R_num c.
  Proof.
    unfold nsumabs. rewrite !nsum_R, map_map. rnum. induction c as [|x c IH]; cbn; [ring|]. rewrite IH, Rabs_mult, (Rabs_pos_eq l) by lra. ring.
  Qed.
  Lemma tsumabs_sc t : @tsumabs R R_num (tscale t) = l * @tsumabs R R_num t.
  Proof. apply nsumabs_sc. Qed.
  Lemma terr_sc t d : @getTransformationError R R_num (tscale t) d = l * @getTransformationError R R_num t d.
  Proof. unfold getTransformationError. rewrite tsumabs_sc. change (shp (tscale t)) with (shp t). rnum. ring. Qed.
  Lemma transformCheb_from_sc ex ab : forall d t e, @transformCheb_from R R_num d (tscale t) ab (l * e) ex = let r := @transformCheb_from R R_num d t ab e ex in (tscale (fst r), l * snd r).
  Proof.
    induction ab as [|[a b] ab IH]; intros d t e; cbn [transformCheb_from]; cbv zeta; auto. rewrite terr_sc, transformND_sc. rnum. rewrite <- Rmult_plus_distr_l. apply IH.
  Qed.
  Lemma transformCheb_sc ex ab t e : @transformCheb R R_num (tscale t) ab (l * e) ex = let r := @transformCheb R R_num t ab e ex in (tscale (fst r), l * snd r).
  Proof. apply transformCheb_from_sc. Qed.
End Scale.
