(** * The solver commutes with maps between arithmetics (plain transforms, exact = false) *)
From Coq Require Import ZArith QArith Qabs Reals List Bool Lia Arith Lra.
From Verif Require Import Num Tensor PolySpec TransformModel Transfer IntervalModel LinearModel QuadModel QuadTransfer SolverModel.
Import ListNotations.

Section H.
  Context {A B} {NA : Num A} {NB : Num B} {h : A -> B} {H : NumHom NA NB h}.
  Hypothesis Hpos : forall m : A, nltb n0 m = true -> nltb n0 (nabs m) = true.
  Notation h2 := (@h2 A B h).

  Lemma map_combine {X Y X' Y'} (f : X -> X') (k : Y -> Y') l : forall m,
    map (fun p => (f (fst p), k (snd p))) (combine l m) = combine (map f l) (map k m).
  Proof. induction l; intros [|y m]; simpl; auto. rewrite IHl. auto. Qed.
  Lemma existsb_map {X Y} (f : X -> Y) k l : existsb k (map f l) = existsb (fun x => k (f x)) l.
  Proof. induction l; simpl; auto. rewrite IHl; auto. Qed.
  Lemma forallb_map {X Y} (f : X -> Y) k l : forallb k (map f l) = forallb (fun x => k (f x)) l.
  Proof. induction l; simpl; auto. rewrite IHl; auto. Qed.
  Lemma existsb_ext {X} (f k : X -> bool) l : (forall x, f x = k x) -> existsb f l = existsb k l.
  Proof. intros E. induction l; simpl; auto. rewrite E, IHl; auto. Qed.
  Lemma forallb_ext {X} (f k : X -> bool) l : (forall x, f x = k x) -> forallb f l = forallb k l.
  Proof. intros E. induction l; simpl; auto. rewrite E, IHl; auto. Qed.
  Lemma existsb_combine {X Y X' Y'} (f : X -> X') (k : Y -> Y') (P : X * Y -> bool) (P' : X' * Y' -> bool) l m :
    (forall x y, P (x, y) = P' (f x, k y)) -> existsb P (combine l m) = existsb P' (combine (map f l) (map k m)).
  Proof. intros E. rewrite <- map_combine, existsb_map. apply existsb_ext. intros [x y]. apply E. Qed.
  Lemma forallb_combine {X Y X' Y'} (f : X -> X') (k : Y -> Y') (P : X * Y -> bool) (P' : X' * Y' -> bool) l m :
    (forall x y, P (x, y) = P' (f x, k y)) -> forallb P (combine l m) = forallb P' (combine (map f l) (map k m)).
  Proof. intros E. rewrite <- map_combine, forallb_map. apply forallb_ext. intros [x y]. apply E. Qed.
  Lemma mapc {X Y Z X' Y' Z'} (f : X -> X') (k : Y -> Y') (z : Z -> Z') (P : X * Y -> Z) (P' : X' * Y' -> Z') l m :
    (forall x y, z (P (x, y)) = P' (f x, k y)) -> map z (map P (combine l m)) = map P' (combine (map f l) (map k m)).
  Proof. intros E. rewrite <- map_combine, !map_map. apply map_ext. intros [x y]. apply E. Qed.
  Lemma foldh {X Y X' Y'} (f : X -> X') (k : Y -> Y') (s : X -> Y -> X) (s' : X' -> Y' -> X') l :
    (forall x y, f (s x y) = s' (f x) (k y)) -> forall x, f (fold_left s l x) = fold_left s' (map k l) (f x).
  Proof. intros E. induction l; intros x; simpl; auto. rewrite IHl, E. auto. Qed.
  Lemma foldi {X X' Y} (f : X -> X') (s : X -> Y -> X) (s' : X' -> Y -> X') l :
    (forall x y, f (s x y) = s' (f x) y) -> forall x, f (fold_left s l x) = fold_left s' l (f x).
  Proof. intros E. induction l; intros x; simpl; auto. rewrite IHl, E. auto. Qed.
  Lemma updm {X Y} (f : X -> Y) l : forall i v, map f (upd l i v) = upd (map f l) i (f v).
  Proof. induction l; intros [|i] v; simpl; auto. rewrite IHl; auto. Qed.

  Lemma map_repeat {X Y} (f : X -> Y) x n : map f (repeat x n) = repeat (f x) n.
  Proof. induction n; simpl; auto. rewrite IHn. auto. Qed.
  (** ** transforms *)
  Lemma h_apply0 (F : list A -> list A) (F' : list B -> list B) (t : tensor A) : (forall c, map h (F c) = F' (map h c)) ->
    tmap h (apply_axis0 F t) = apply_axis0 F' (tmap h t).
  Proof.
    intros E. unfold apply_axis0. rewrite (h_tbuild (h:=h)). change (shp (tmap h t)) with (shp t). change (ndim (tmap h t)) with (ndim t).
    rewrite <- (h_fibre (h:=h)), <- E, map_length. apply tbuild_ext. intros i. rewrite <- (h_fibre (h:=h)), <- E. apply (h_g (h:=h)).
  Qed.
  Lemma h_transpose (t : tensor A) o : tmap h (transpose t o) = transpose (tmap h t) o.
  Proof. unfold transpose. rewrite (h_tbuild (h:=h)). apply tbuild_ext. intros i. apply (h_tget (h:=h)). Qed.
  Lemma h_transformND (t : tensor A) d alpha beta : tmap h (transformND t d alpha beta false) = transformND (tmap h t) d (h alpha) (h beta) false.
  Proof.
    unfold transformND. rewrite !(h_eqb (h:=h)). homs h. change (shp (tmap h t)) with (shp t). change (ndim (tmap h t)) with (ndim t).
    destruct (_ || _); auto. cbv zeta.
    assert (E : forall c, map h (transform1Dx false c alpha beta) = transform1Dx false (map h c) (h alpha) (h beta)) by (intros; apply (h_transform1D (h:=h))).
    destruct (Nat.eqb d 0); [apply h_apply0; auto|]. rewrite h_transpose. f_equal. rewrite (h_apply0 _ (fun c => transform1Dx false c (h alpha) (h beta))) by auto. f_equal. apply h_transpose.
  Qed.
  Lemma h_trErr (t : tensor A) d : h (getTransformationError t d) = getTransformationError (tmap h t) d.
  Proof. unfold getTransformationError. homs h. rewrite (h_tsumabs (h:=h)). reflexivity. Qed.
  Definition hte (p : tensor A * A) : tensor B * B := (tmap h (fst p), h (snd p)).
  Lemma h_trFrom ab : forall d (t : tensor A) e, hte (transformCheb_from d t ab e false) = transformCheb_from d (tmap h t) (map h2 ab) (h e) false.
  Proof.
    induction ab as [|[a b] ab IH]; intros d t e; simpl; auto. rewrite IH, h_transformND. homs h. rewrite h_trErr. reflexivity.
  Qed.
  Lemma h_transformCheb (t : tensor A) ab e : hte (transformCheb t ab e false) = transformCheb (tmap h t) (map h2 ab) (h e) false.
  Proof. unfold transformCheb. rewrite h_trFrom, firstn_map. reflexivity. Qed.
  Definition hsys (p : list (tensor A) * list A) : list (tensor B) * list B := (map (tmap h) (fst p), map h (snd p)).
  Lemma h_toInterval Ms ab errs : hsys (transformChebToInterval Ms ab errs false) = transformChebToInterval (map (tmap h) Ms) (map h2 ab) (map h errs) false.
  Proof.
    unfold transformChebToInterval, hsys. cbv zeta. cbn [fst snd].
    assert (E : map hte (map (fun Me => transformCheb (fst Me) ab (snd Me) false) (combine Ms errs)) = map (fun Me => transformCheb (fst Me) (map h2 ab) (snd Me) false) (combine (map (tmap h) Ms) (map h errs))).
    { apply mapc. intros M e. apply h_transformCheb. }
    rewrite <- E, !map_map. reflexivity.
  Qed.

  (** ** tracked intervals *)
  Definition ht (t : tint A) : tint B :=
    mkTint (map h2 (top t)) (map h2 (ivl t)) (map (map h2) (trs t)) (empt t) (fin t) (cthr t) (map (map h) (dups t)) (extra t)
      (map h (npts t)) (map h2 (preI t)) (map (map h2) (preT t)).
  Lemma h_new b : ht (newInterval b) = newInterval (map h2 b).
  Proof. unfold newInterval, ht. cbn [top ivl trs empt fin cthr dups extra npts preI preT map]. rewrite map_length, map_repeat, (h_lit (h:=h)). auto. Qed.
  Lemma h_copy t : ht (copyT t) = copyT (ht t).
  Proof. unfold copyT, ht. cbn. destruct (fin t); auto. Qed.
  Lemma h_anyInv s : anyInverted s = anyInverted (map h2 s).
  Proof. unfold anyInverted. rewrite existsb_map. apply existsb_ext. intros [a b]. apply (h_gtb (h:=h)). Qed.
  Lemma h_clampRow p : h2 (clampRow p) = clampRow (h2 p).
  Proof. unfold clampRow, QuadTransfer.h2. cbn [fst snd]. homs h. reflexivity. Qed.
  Lemma h_ab p : h2 (alphaBeta p) = alphaBeta (h2 p).
  Proof. unfold alphaBeta, QuadTransfer.h2. cbn [fst snd]. homs h. reflexivity. Qed.
  Lemma h_newRow s o : h2 (newRow s o) = newRow (h2 s) (h2 o).
  Proof.
    destruct s as [a b], o as [c d]. unfold newRow, alphaBeta, QuadTransfer.h2. cbn [fst snd].
    rewrite ?(h_if (h:=h)). homs h. rewrite ?(h_eqb (h:=h) a), ?(h_eqb (h:=h) b). homs h. rewrite ?(h_if (h:=h)). homs h. rewrite ?(h_eqb (h:=h) a), ?(h_eqb (h:=h) b). homs h. reflexivity.
  Qed.
  Lemma h_addTr t s : ht (addTransform t s) = addTransform (ht t) (map h2 s).
  Proof.
    unfold addTransform. rewrite <- h_anyInv. change (canThrowOut (ht t)) with (canThrowOut t). destruct (_ && _); auto. unfold ht. cbn.
    set (s1 := if anyInverted s then map clampRow s else s). set (s2 := if anyInverted s then map clampRow (map h2 s) else map h2 s).
    assert (E : map h2 s1 = s2). { unfold s1, s2. destruct (anyInverted s); auto. rewrite !map_map. apply map_ext. intros; apply h_clampRow. }
    rewrite <- E. f_equal.
    - apply mapc. intros; apply h_newRow.
    - rewrite map_app. cbn. f_equal. f_equal. rewrite !map_map. apply map_ext. intros; apply h_ab.
  Qed.
  Lemma h_last t : option_map (map h2) (getLastTransform t) = getLastTransform (ht t).
  Proof.
    assert (E : forall m : list (list (A * A)), option_map (map h2) (match m with [] => None | x :: _ => Some x end) = match map (map h2) m with [] => None | x :: _ => Some x end) by (intros [|x m]; reflexivity).
    etransitivity; [exact (E (rev (trs t)))|]. rewrite (map_rev (map h2)). reflexivity.
  Qed.
  Lemma h_TwoSum a b : h2 (TwoSum a b) = TwoSum (h a) (h b).
  Proof. unfold TwoSum, QuadTransfer.h2. cbn. homs h. reflexivity. Qed.
  Lemma h_TwoProd a b : h2 (TwoProd a b) = TwoProd (h a) (h b).
  Proof. unfold TwoProd, Split, QuadTransfer.h2. cbn [fst snd]. homs h. reflexivity. Qed.
  Lemma h_applyEF ab ve : h2 (applyEF ab ve) = applyEF (h2 ab) (h2 ve).
  Proof.
    destruct ab as [a b], ve as [v e]. unfold applyEF. change (h2 (a, b)) with (h a, h b). change (h2 (v, e)) with (h v, h e). cbv iota beta.
    rewrite <- h_TwoProd. destruct (TwoProd v a) as [v1 e1]. change (h2 (v1, e1)) with (h v1, h e1). cbv iota beta.
    rewrite <- h_TwoSum. destruct (TwoSum v1 b) as [v2 e2]. unfold QuadTransfer.h2. cbn [fst snd]. homs h. reflexivity.
  Qed.
  Lemma h_push l d v : h2 (pushEF l d v) = pushEF (map (map h2) l) d (h v).
  Proof.
    unfold pushEF. rewrite (foldh h2 h2 _ (fun ve ab => applyEF ab ve)) by (intros; apply h_applyEF).
    unfold QuadTransfer.h2 at 2. cbn [fst snd]. homs h. f_equal. rewrite map_rev. f_equal. unfold trCol. rewrite !map_map. apply map_ext. intros tr.
    assert (E : h2 (n0, n0) = (n0, n0)) by (unfold QuadTransfer.h2; cbn; homs h; auto). rewrite <- E, map_nth. auto.
  Qed.
  Lemma h_finalBox tp l : map h2 (finalBox tp l) = finalBox (map h2 tp) (map (map h2) l).
  Proof.
    unfold finalBox. rewrite map_length. rewrite (mapc (fun d : nat => d) h2 h2 _ (fun p => let '(d, (lo, hi)) := p in
           let '(u, le) := pushEF (map (map h2) l) d lo in
           let '(v, he) := pushEF (map (map h2) l) d hi in ((u + le)%num, (v + he)%num))); [rewrite map_id; auto|].
    intros d [lo hi]. unfold QuadTransfer.h2 at 2. cbn [fst snd]. rewrite <- !h_push. destruct (pushEF l d lo), (pushEF l d hi). unfold QuadTransfer.h2. cbn [fst snd]. homs h. reflexivity.
  Qed.
  Lemma h_final t : map h2 (getFinalInterval t) = getFinalInterval (ht t).
  Proof. unfold getFinalInterval. rewrite h_finalBox. cbn. destruct (fin t); auto. Qed.
  Lemma h_mid b : map h (midpoint b) = midpoint (map h2 b).
  Proof. unfold midpoint. rewrite !map_map. apply map_ext. intros [u v]. unfold QuadTransfer.h2. cbn [fst snd]. homs h. reflexivity. Qed.
  Lemma h_finalPt t : map h (getFinalPoint t) = getFinalPoint (ht t).
  Proof. unfold getFinalPoint. change (fin (ht t)) with (fin t). destruct (fin t); cbn [negb]; rewrite h_mid; f_equal; [apply h_finalBox|apply h_final]. Qed.
  Lemma h_boxDims b : map h (boxDims b) = boxDims (map h2 b).
  Proof. unfold boxDims. rewrite !map_map. apply map_ext. intros [u v]. unfold QuadTransfer.h2. cbn [fst snd]. homs h. reflexivity. Qed.
  Lemma h_cbox t : map h2 (getIntervalForCombining t) = getIntervalForCombining (ht t).
  Proof. unfold getIntervalForCombining. cbn. destruct (fin t); auto. Qed.
  Lemma h_overlap t1 t2 : overlapsWith t1 t2 = overlapsWith (ht t1) (ht t2).
  Proof.
    unfold overlapsWith, boxesOverlap. rewrite <- !h_cbox. apply forallb_combine. intros [a b] [c d]. unfold QuadTransfer.h2. cbn [fst snd]. rewrite !(h_gtb (h:=h)). auto.
  Qed.
  Lemma h_isPoint t : isPoint t = isPoint (ht t).
  Proof. unfold isPoint. cbn [ht ivl]. rewrite forallb_map. apply forallb_ext. intros [a b]. unfold QuadTransfer.h2. cbn [fst snd]. rewrite (h_ltb (h:=h)). homs h. auto. Qed.

  (** ** linear reduction *)
  Lemma h_lin d r : forall s, map h (linTerms d r s) = linTerms (map h d) r s.
  Proof. induction r as [|i r IH]; intros s; cbn [linTerms map]; auto. rewrite IH, (h_if (h:=h)), (h_nth (h:=h)). homs h. auto. Qed.
  Lemma h_linT M : map h (getLinearTerms M) = getLinearTerms (tmap h M).
  Proof. unfold getLinearTerms. rewrite map_rev, h_lin. auto. Qed.
  Lemma h_const Ms errs : constantCheck Ms errs = constantCheck (map (tmap h) Ms) (map h errs).
  Proof. unfold constantCheck. apply existsb_combine. intros M e. cbv zeta. rewrite (h_gtb (h:=h)). homs h. rewrite (h_tconst (h:=h)), (h_tsumabs (h:=h)). auto. Qed.
  Lemma h_maxl l : forall x, h (nmaxl x l) = nmaxl (h x) (map h l).
  Proof. intros x. unfold nmaxl. apply foldh. intros; apply (h_max (h:=h)). Qed.
  Lemma h_maxAbs l : h (maxAbs l) = maxAbs (map h l).
  Proof.
    unfold maxAbs. destruct l as [|x l]; cbn [map]; [apply (h_0 (h:=h))|]. rewrite h_maxl, !map_map. homs h. f_equal. apply map_ext. intros; apply (h_abs (h:=h)).
  Qed.
  Definition ho2 (p : option A * option A) : option B * option B := (option_map h (fst p), option_map h (snd p)).
  Lemma h_omax a v : option_map h (omax a v) = omax (option_map h a) (h v).
  Proof. destruct a; cbn; homs h; auto. Qed.
  Lemma h_omin a v : option_map h (omin a v) = omin (option_map h a) (h v).
  Proof. destruct a; cbn; homs h; auto. Qed.
  Lemma h_lcB e a c : h2 (lcBounds e a c) = lcBounds (h e) (h a) (h c).
  Proof. unfold lcBounds. cbv zeta. rewrite (h_geb (h:=h)). homs h. match goal with |- context [if ?b then _ else _] => destruct b end; unfold QuadTransfer.h2; cbn [fst snd]; homs h; auto. Qed.
  Definition hrow (r : lrow A) : lrow B := mkRow (map h (lA r)) (h (lc r)) (h (ltot r)) (h (lerr r)) (h (le r)).
  Lemma h_linCol rows c : ho2 (linCol rows c) = linCol (map hrow rows) c.
  Proof.
    unfold linCol. rewrite (foldh ho2 hrow _ (fun ab r => let x := nth c (lA r) n0 in if neqb x n0 then ab
        else let '(a_, b_) := lcBounds (ltot r) x (lc r) in (omax (fst ab) a_, omin (snd ab) b_))); auto.
    intros ab r. cbv zeta. rewrite (h_eqb (h:=h)), (h_nth (h:=h)). homs h. cbn [hrow lA ltot lc]. destruct (neqb _ _); auto.
    rewrite <- (h_nth (h:=h) (lA r)), <- h_lcB. destruct (lcBounds _ _ _). unfold ho2, QuadTransfer.h2. cbn [fst snd]. rewrite h_omax, h_omin. auto.
  Qed.
  Lemma h_linCheck rows d : map ho2 (linearCheck1 rows d) = linearCheck1 (map hrow rows) d.
  Proof. unfold linearCheck1. rewrite map_map. apply map_ext. intros; apply h_linCol. Qed.
  Lemma h_mkLRow M e : hrow (mkLRow (M, e)) = mkLRow (tmap h M, h e).
  Proof. unfold mkLRow, hrow. cbn. homs h. rewrite !h_linT, (h_tconst (h:=h)), (h_tsumabs (h:=h)). auto. Qed.
  Lemma h_scaleRow r : hrow (scaleRow r) = scaleRow (hrow r).
  Proof.
    unfold scaleRow. cbv zeta. cbn [hrow lA lc ltot lerr le]. rewrite <- h_maxAbs. set (m := maxAbs (lA r)). rewrite (h_gtb (h:=h)). homs h.
    destruct (ngtb (h m) n0) eqn:E; auto. assert (E' : nltb n0 (nabs m) = true) by (apply Hpos; unfold ngtb in E; rewrite <- (h_0 (h:=h)), <- (h_ltb (h:=h)) in E; auto).
    unfold hrow. cbn [lA lc ltot lerr le]. homs h. rewrite (h_pow2fl (h:=h)) by auto. homs h. f_equal. rewrite !map_map. apply map_ext. intros x. homs h. rewrite (h_pow2fl (h:=h)) by auto. homs h. auto.
  Qed.
  Definition hrc (p : list (lrow A) * list A) : list (lrow B) * list B := (map hrow (fst p), map h (snd p)).
  Lemma h_scaleCol st i : hrc (scaleCol st i) = scaleCol (hrc st) i.
  Proof.
    destruct st as [rows cs]. unfold scaleCol. cbn [hrc fst snd]. cbv zeta.
    assert (Em : h (maxAbs (map (fun r => nth i (lA r) n0) rows)) = maxAbs (map (fun r => nth i (lA r) n0) (map hrow rows))).
    { rewrite h_maxAbs, !map_map. f_equal. apply map_ext. intros r. apply (h_nth (h:=h)). }
    rewrite <- Em. set (m := maxAbs _). rewrite (h_gtb (h:=h)). homs h. destruct (ngtb (h m) n0) eqn:E; auto.
    assert (E' : nltb n0 (nabs m) = true) by (apply Hpos; unfold ngtb in E; rewrite <- (h_0 (h:=h)), <- (h_ltb (h:=h)) in E; auto).
    assert (Ep : h (npow2fl (nabs m)) = npow2fl (nabs (h m))) by (rewrite (h_pow2fl (h:=h)) by auto; homs h; auto).
    unfold hrc. cbn [fst snd]. f_equal.
    - rewrite !map_map. apply map_ext. intros r. unfold hrow. cbn [lA lc ltot lerr le]. rewrite (h_upd (h:=h)). homs h. rewrite !(h_nth (h:=h)), Ep. auto.
    - rewrite (h_upd (h:=h)). homs h. rewrite Ep. auto.
  Qed.
  Lemma h_mget L i j : h (mget L i j) = mget (map (map h) L) i j.
  Proof. unfold mget. change (@nil B) with (map h []). rewrite map_nth. apply (h_nth (h:=h)). Qed.
  Lemma h_invMat d U Sv Vh : map (map h) (invMat d U Sv Vh) = invMat d (map (map h) U) (map h Sv) (map (map h) Vh).
  Proof.
    unfold invMat. rewrite map_map. apply map_ext. intros i. rewrite map_map. apply map_ext. intros k. rewrite (h_sum (h:=h)), map_map. f_equal. apply map_ext. intros j.
    homs h. rewrite !h_mget, (h_nth (h:=h)). auto.
  Qed.
  Lemma h_pass wc ce wi cs w ab : map ho2 (passBounds wc ce wi cs w ab) = passBounds wc (map h ce) (map h wi) (map h cs) (h w) (map ho2 ab).
  Proof.
    unfold passBounds. rewrite map_length.
    match goal with |- map ho2 (map ?P _) = map ?P' _ => rewrite (mapc (fun d : nat => d) ho2 ho2 P P'); [rewrite map_id; auto|] end.
    intros i [a b]. unfold ho2 at 2. cbn [fst snd]. unfold ho2. cbn [fst snd].
    destruct wc, a, b; cbn [option_map omax omin]; f_equal; try f_equal; homs h; rewrite ?(h_nth (h:=h)); auto.
  Qed.
  Lemma h_rowOut p : rowOut p = rowOut (ho2 p).
  Proof. destruct p as [[a|] [b|]]; cbn; rewrite ?(h_gtb (h:=h)), ?(h_ltb (h:=h)); homs h; auto. Qed.
  Lemma h_clipv v : h (clipv v) = clipv (h v).
  Proof. unfold clipv. cbv zeta. rewrite !(h_if (h:=h)), (h_gtb (h:=h)), (h_if (h:=h)), !(h_ltb (h:=h)). homs h. auto. Qed.
  Lemma h_clipRow p : h2 (clipRow p) = clipRow (ho2 p).
  Proof. destruct p as [[a|] [b|]]; unfold clipRow, QuadTransfer.h2; cbn [fst snd ho2 option_map]; rewrite ?h_clipv; homs h; auto. Qed.
  Lemma h_vol d b : h (volRatio d b) = volRatio d (map h2 b).
  Proof. unfold volRatio, nprod. homs h. rewrite (h_prod (h:=h)), h_boxDims. homs h. auto. Qed.
  Definition hbl (r : blRes A) : blRes B := mkBL (map h2 (blBox r)) (blNan r) (blChanged r) (blStop r) (blThrow r).
  Definition hsvd (r : list (list A) * list A * list (list A)) : list (list B) * list B * list (list B) :=
    let '(U, Sv, V) := r in (map (map h) U, map h Sv, map (map h) V).
  Lemma h_bounding svd svd' Ms errs fs : (forall L, hsvd (svd L) = svd' (map (map h) L)) ->
    hbl (boundingInterval svd Ms errs fs) = boundingInterval svd' (map (tmap h) Ms) (map h errs) fs.
  Proof.
    intros Hs. unfold boundingInterval, boundingIntervalW. cbv zeta.
    set (er := if fs then map (fun _ => n0) errs else errs). set (er' := if fs then map (fun _ => n0) (map h errs) else map h errs).
    assert (Ee : map h er = er').
    { unfold er, er'. destruct fs; auto. rewrite !map_map. apply map_ext. intros; homs h; auto. }
    assert (Ed : ndim (nth 0 (map (tmap h) Ms) (mkT [] [])) = ndim (nth 0 Ms (mkT [] []))).
    { change (mkT [] []) with (tmap h (mkT [] [])) at 1. rewrite map_nth. auto. }
    rewrite Ed. set (d := ndim _). clearbody d.
    set (rw := map scaleRow (map mkLRow (combine Ms er))). set (rw' := map scaleRow (map mkLRow (combine (map (tmap h) Ms) er'))).
    assert (Er : map hrow rw = rw').
    { unfold rw, rw'. rewrite <- Ee. rewrite !map_map. rewrite <- map_combine, map_map. apply map_ext. intros [M e]. rewrite h_scaleRow, h_mkLRow. auto. }
    pose proof (foldi hrc scaleCol scaleCol (seq 0 d) h_scaleCol (rw, repeat n1 d)) as Ef.
    assert (Ei : hrc (rw, repeat n1 d) = (rw', repeat n1 d)) by (unfold hrc; cbn [fst snd]; rewrite Er, map_repeat; homs h; auto). rewrite Ei in Ef. rewrite <- Ef.
    destruct (fold_left scaleCol (seq 0 d) (rw, repeat n1 d)) as [rows cs]. unfold hrc. cbn [fst snd]. clear Ef Ei Er rw rw' Ee er er' Ed.
    assert (EA : map lA (map hrow rows) = map (map h) (map lA rows)) by (rewrite !map_map; auto).
    assert (Ec : map lc (map hrow rows) = map h (map lc rows)) by (rewrite !map_map; auto).
    assert (E1 : map lerr (map hrow rows) = map h (map lerr rows)) by (rewrite !map_map; auto).
    assert (E2 : map le (map hrow rows) = map h (map le rows)) by (rewrite !map_map; auto).
    destruct (svd (map lA rows)) as [[U Sv] V] eqn:Esv. specialize (Hs (map lA rows)). rewrite Esv in Hs. cbn [hsvd] in Hs. rewrite EA, <- Hs.
    rewrite (h_gtb (h:=h)), (h_nth (h:=h)). homs h. set (S0 := nth 0 (map h Sv) n0). destruct (negb _).
    { unfold hbl. cbn [blBox blNan blChanged blStop blThrow]. rewrite map_repeat. unfold QuadTransfer.h2. cbn [fst snd]. homs h. auto. }
    set (cn := (nth (d - 1) Sv n0 / nth 0 Sv n0)%num). assert (Ecn : h cn = (nth (d - 1) (map h Sv) n0 / S0)%num) by (unfold cn, S0; homs h; rewrite !(h_nth (h:=h)); auto).
    rewrite <- Ecn. assert (Ew : h (widthToAdd cn) = widthToAdd (h cn)) by (unfold widthToAdd; homs h; auto). rewrite <- Ew.
    rewrite (h_gtb (h:=h) cn). homs h. set (wc := ngtb (h cn) _). clearbody wc. set (w := widthToAdd cn). clearbody w. clear Ecn Ew S0 cn.
    rewrite Ec, E1, E2. rewrite <- h_invMat. set (Ai := invMat d U Sv V). clearbody Ai.
    set (ce := (map (fun i => nsum (map (fun k => (- mget Ai i k) * nth k (map lc rows) n0) (seq 0 d))) (seq 0 d))%num).
    set (ce' := (map (fun i => nsum (map (fun k => (- mget (map (map h) Ai) i k) * nth k (map h (map lc rows)) n0) (seq 0 d))) (seq 0 d))%num).
    assert (Ece : map h ce = ce').
    { unfold ce, ce'. rewrite map_map. apply map_ext. intros i. rewrite (h_sum (h:=h)), map_map. f_equal. apply map_ext. intros k. homs h. rewrite h_mget, (h_nth (h:=h)). auto. }
    set (wi := (fun err : list A => map (fun i => nsum (map (fun k => nabs (mget Ai i k * nth k err n0)) (seq 0 d))) (seq 0 d))%num).
    set (wi' := (fun err : list B => map (fun i => nsum (map (fun k => nabs (mget (map (map h) Ai) i k * nth k err n0)) (seq 0 d))) (seq 0 d))%num).
    assert (Ewi : forall l, map h (wi l) = wi' (map h l)).
    { intros l. unfold wi, wi'. rewrite map_map. apply map_ext. intros i. rewrite (h_sum (h:=h)), map_map. f_equal. apply map_ext. intros k. homs h. rewrite h_mget, (h_nth (h:=h)). auto. }
    change (map (fun i => nsum (map (fun k => nabs (mget Ai i k * nth k (map lerr rows) n0)) (seq 0 d))) (seq 0 d))%num with (wi (map lerr rows)).
    change (map (fun i => nsum (map (fun k => nabs (mget Ai i k * nth k (map le rows) n0)) (seq 0 d))) (seq 0 d))%num with (wi (map le rows)).
    change (map (fun i => nsum (map (fun k => nabs (mget (map (map h) Ai) i k * nth k (map h (map lerr rows)) n0)) (seq 0 d))) (seq 0 d))%num with (wi' (map h (map lerr rows))).
    change (map (fun i => nsum (map (fun k => nabs (mget (map (map h) Ai) i k * nth k (map h (map le rows)) n0)) (seq 0 d))) (seq 0 d))%num with (wi' (map h (map le rows))).
    rewrite <- Ece, <- !Ewi, <- h_linCheck, <- h_pass. set (ab1 := passBounds wc ce (wi (map lerr rows)) cs w (linearCheck1 rows d)).
    assert (Ex : forall l, existsb rowOut l = existsb rowOut (map ho2 l)) by (intros; rewrite existsb_map; apply existsb_ext; intros; apply h_rowOut).
    assert (Eb : forall l, map h2 (map clipRow l) = map clipRow (map ho2 l)) by (intros; rewrite !map_map; apply map_ext; intros; apply h_clipRow).
    rewrite <- Ex, <- Eb, <- h_vol. rewrite (h_ltb (h:=h)). homs h. destruct (existsb rowOut ab1 || _); [reflexivity|].
    set (i2 := if wc then linearCheck1 rows d else map (fun p => (Some (fst p), Some (snd p))) (map clipRow ab1)).
    set (i2' := if wc then map ho2 (linearCheck1 rows d) else map (fun p => (Some (fst p), Some (snd p))) (map h2 (map clipRow ab1))).
    assert (Ei2 : map ho2 i2 = i2') by (unfold i2, i2'; destruct wc; auto; rewrite !map_map; auto). rewrite <- Ei2, <- h_pass.
    set (ab2 := passBounds wc ce (wi (map le rows)) cs w i2). rewrite <- Ex, <- Eb, <- h_vol. rewrite (h_ltb (h:=h)). rewrite (h_pow (h:=h)). homs h.
    destruct (existsb rowOut ab2 || _); destruct wc; reflexivity.
  Qed.

  (** ** trimming *)
  Lemma h_lastSlice (M : tensor A) d : map h (lastSlice M d) = lastSlice (tmap h M) d.
  Proof. unfold lastSlice. rewrite map_map. apply map_ext. intros. apply (h_tget (h:=h)). Qed.
  Lemma h_dropLast (M : tensor A) d : tmap h (dropLast M d) = dropLast (tmap h M) d.
  Proof. unfold dropLast. rewrite (h_tbuild (h:=h)). apply tbuild_ext. intros. apply (h_tget (h:=h)). Qed.
  Definition htae (p : tensor A * A * A) : tensor B * B * B := let '(M, a, e) := p in (tmap h M, h a, h e).
  Lemma h_trimAxis k d : forall (M : tensor A) a e, htae (trimAxis k d M a e) = trimAxis k d (tmap h M) (h a) (h e).
  Proof.
    induction k as [|k IH]; intros M a e; cbn [trimAxis]; auto. cbv zeta. rewrite <- h_lastSlice, <- (h_sumabs (h:=h)), <- (h_ltb (h:=h)). change (shp (tmap h M)) with (shp M).
    destruct (_ && _); auto. rewrite IH, h_dropLast. homs h. auto.
  Qed.
  Lemma h_trimM dim (M : tensor A) e rel abs : hte (trimM dim M e rel abs) = trimM dim (tmap h M) (h e) (h rel) (h abs).
  Proof.
    unfold trimM. set (f := fun (st : tensor A * A * A) d => let '(M, al, e) := st in trimAxis (nth d (shp M) 0%nat) d M al e).
    set (f' := fun (st : tensor B * B * B) d => let '(M, al, e) := st in trimAxis (nth d (shp M) 0%nat) d M al e).
    assert (E : htae (fold_left f (seq 0 dim) (M, (abs + e * rel)%num, e)) = fold_left f' (seq 0 dim) (tmap h M, (h abs + h e * h rel)%num, h e)).
    { rewrite (foldi htae f f'); [f_equal; cbn; homs h; auto|]. intros [[M1 a1] e1] d. cbn [htae f f']. apply h_trimAxis. }
    rewrite <- E. destruct (fold_left f _ _) as [[M' a'] e']. reflexivity.
  Qed.
  Lemma dim0 (Ms : list (tensor A)) : ndim (nth 0 (map (tmap h) Ms) (mkT [] [])) = ndim (nth 0 Ms (mkT [] [])).
  Proof. change (mkT [] []) with (tmap h (mkT [] [])) at 1. rewrite map_nth. auto. Qed.
  Lemma h_trimMs Ms errs : hsys (trimMs Ms errs) = trimMs (map (tmap h) Ms) (map h errs).
  Proof.
    unfold trimMs, trimMsTol. cbv zeta. rewrite dim0. unfold hsys. cbn [fst snd].
    match goal with |- (map _ (map _ (map ?P _)), _) = (map _ (map ?P' _), _) => assert (E : map hte (map P (combine Ms errs)) = map P' (combine (map (tmap h) Ms) (map h errs))) end.
    { apply mapc. intros M e. cbn [fst snd]. rewrite h_trimM. homs h. auto. }
    rewrite <- E, !map_map. reflexivity.
  Qed.

  (** ** the external routines *)
  Definition hres {X Y} (f : X -> Y) (r : res X) : res Y := match r with Ok a => Ok (f a) | Raise => Raise | OutOfFuel => OutOfFuel end.
  Lemma h_bind {X X' Y Y'} (f : X -> X') (k : Y -> Y') (r : res X) (c : X -> res Y) (c' : X' -> res Y') :
    (forall x, hres k (c x) = c' (f x)) -> hres k (bindR r c) = bindR (hres f r) c'.
  Proof. intros E. destruct r; cbn; auto. Qed.
  Record extHom (X : ext A) (X' : ext B) : Prop := {
    xh_svd : forall L, hsvd (xsvd X L) = xsvd X' (map (map h) L);
    xh_rank : forall L, xrank X L = xrank X' (map (map h) L);
    xh_solve : forall L b, map h (xsolve X L b) = xsolve X' (map (map h) L) (map h b);
    xh_argsort : forall l, xargsort X l = xargsort X' l;
    xh_set : forall l, xset X l = xset X' l
  }.
  Variables (X : ext A) (X' : ext B).
  Hypothesis HX : extHom X X'.

  (** ** zooming *)
  Lemma h_keepPoints iv sub : map h2 (keepPoints iv sub) = keepPoints (map h2 iv) (map h2 sub).
  Proof. unfold keepPoints. apply mapc. intros [a b] [c d]. unfold QuadTransfer.h2. cbn [fst snd]. rewrite (h_eqb (h:=h)). destruct (neqb _ _); cbn; homs h; auto. Qed.
  Definition hz5 (p : list (tensor A) * list A * tint A * bool * bool) := let '(Ms, e, t, c, s) := p in (map (tmap h) Ms, map h e, ht t, c, s).
  Lemma h_zoomIter Ms errs t : hres hz5 (zoomIter X false Ms errs t) = zoomIter X' false (map (tmap h) Ms) (map h errs) (ht t).
  Proof.
    unfold zoomIter. cbv zeta. change (fin (ht t)) with (fin t). rewrite <- (h_bounding (xsvd X) (xsvd X') Ms errs (fin t)) by apply HX.
    set (r := boundingInterval (xsvd X) Ms errs (fin t)). change (canThrowOut (ht t)) with (canThrowOut t). cbn [hbl blBox blThrow blStop blChanged].
    destruct (if blThrow r && negb (canThrowOut t) then false else blThrow r); [reflexivity|]. destruct (negb _); [reflexivity|].
    cbn [ht ivl]. rewrite <- h_keepPoints. change (mkTint (map h2 (top t)) (map h2 (ivl t)) (map (map h2) (trs t)) (empt t) (fin t) (cthr t) (map (map h) (dups t)) (extra t) (map h (npts t)) (map h2 (preI t)) (map (map h2) (preT t))) with (ht t).
    rewrite <- h_addTr, <- h_last. destruct (getLastTransform _) as [ab|]; [|reflexivity]. cbn [option_map]. rewrite <- h_toInterval.
    destruct (transformChebToInterval Ms ab errs false) as [Ms2 e2]. cbn [hsys fst snd hres hz5]. change (fin (ht (addTransform t (keepPoints (ivl t) (blBox r))))) with (fin (addTransform t (keepPoints (ivl t) (blBox r)))).
    rewrite <- h_isPoint. reflexivity.
  Qed.
  Definition hz4 (p : list (tensor A) * list A * tint A * bool) := let '(Ms, e, t, s) := p in (map (tmap h) Ms, map h e, ht t, s).
  Lemma h_zoomLoop o k : oexact o = false -> forall Ms errs t zc ls,
    hres (option_map hz4) (zoomLoop X k o Ms errs t zc ls) = zoomLoop X' k o (map (tmap h) Ms) (map h errs) (ht t) zc (map h ls).
  Proof.
    intros Ho. induction k as [|k IH]; intros Ms errs t zc ls; cbn [zoomLoop]; auto. rewrite Ho, <- h_zoomIter. destruct (zoomIter X false Ms errs t) as [[[[[Ms2 e2] t2] c2] s2]| |]; cbn [bindR hres hz5]; auto.
    change (empt (ht t2)) with (empt t2). destruct (empt t2); auto. cbv zeta. assert (Ed : map h (dimSize t2) = dimSize (ht t2)) by apply h_boxDims. rewrite <- Ed.
    rewrite <- (forallb_combine h h (fun p => ngeb (fst p) (snd p / n2)%num)) by (intros; cbn [fst snd]; rewrite (h_geb (h:=h)); homs h; auto).
    destruct (c2 && _); [apply IH|reflexivity].
  Qed.

  (** ** subdivision *)
  Lemma h_isclose a b : isclose a b = isclose (h a) (h b).
  Proof. unfold isclose. rewrite (h_leb (h:=h)). homs h. auto. Qed.
  Lemma nth_h2 l i : nth i (map h2 l) (n0, n0) = h2 (nth i l (n0, n0)).
  Proof. assert (E : h2 (n0, n0) = (n0, n0)) by (unfold QuadTransfer.h2; cbn; homs h; auto). rewrite <- E, map_nth. auto. Qed.
  Lemma fold_ext {X0 Y} (f k : X0 -> Y -> X0) l : (forall x y, f x y = k x y) -> forall x, fold_left f l x = fold_left k l x.
  Proof. intros E. induction l; intros x; simpl; auto. rewrite E. auto. Qed.
  Lemma h_notClose iv d : dimsNotClose iv d = dimsNotClose (map h2 iv) d.
  Proof. unfold dimsNotClose. apply fold_ext. intros x y. cbv zeta. rewrite nth_h2. unfold QuadTransfer.h2. cbn [fst snd]. rewrite h_isclose. auto. Qed.
  Lemma h_large Ms iv d ds : dimsLarge Ms iv d ds = dimsLarge (map (tmap h) Ms) (map h2 iv) d ds.
  Proof.
    unfold dimsLarge. cbv zeta. rewrite <- h_boxDims. set (lens := boxDims iv).
    set (mx := match map (fun i => nth i lens n0) ds with [] => n0 | x :: r => nmaxl x r end).
    assert (Em : h mx = match map (fun i => nth i (map h lens) n0) ds with [] => n0 | x :: r => nmaxl x r end).
    { unfold mx. destruct ds as [|d0 ds]; cbn [map]; [apply (h_0 (h:=h))|]. rewrite h_maxl, (h_nth (h:=h)), map_map. f_equal. apply map_ext. intros; apply (h_nth (h:=h)). }
    rewrite <- Em. assert (Ef : filter (fun i => ngtb (nth i lens n0) (mx / nlit 5 1)%num) ds = filter (fun i => ngtb (nth i (map h lens) n0) (h mx / nlit 5 1)%num) ds).
    { apply filter_ext. intros i. rewrite (h_gtb (h:=h)), (h_nth (h:=h)). homs h. auto. }
    rewrite <- Ef. destruct (1 <? _)%nat; auto. assert (Ed : forall i, fold_right Nat.add 0%nat (map (fun M => nth i (shp M) 0%nat) (map (tmap h) Ms)) = fold_right Nat.add 0%nat (map (fun M => nth i (shp M) 0%nat) Ms)) by (intros; rewrite map_map; auto).
    assert (Et : map (fun i => fold_right Nat.add 0%nat (map (fun M => nth i (shp M) 0%nat) (map (tmap h) Ms))) (seq 0 d) = map (fun i => fold_right Nat.add 0%nat (map (fun M => nth i (shp M) 0%nat) Ms)) (seq 0 d)) by (apply map_ext; auto).
    rewrite Et. apply fold_ext. intros x y. rewrite Ed. auto.
  Qed.
  Lemma h_dims Ms t l : getSubdivisionDims X Ms t l = getSubdivisionDims X' (map (tmap h) Ms) (ht t) l.
  Proof.
    unfold getSubdivisionDims. rewrite map_map. assert (E : subdivisionDims Ms t l = subdivisionDims (map (tmap h) Ms) (ht t) l).
    { unfold subdivisionDims. rewrite map_length. cbn [ht ivl]. rewrite <- h_notClose, <- h_large. auto. }
    rewrite <- E. apply map_ext. intros M. unfold orderFor. rewrite (xh_argsort _ _ HX). auto.
  Qed.
  Lemma h_split npt cur d : map hte (splitAxis false npt cur d) = splitAxis false (map h npt) (map hte cur) d.
  Proof.
    unfold splitAxis. cbv zeta. apply map_flat. intros [M e]. unfold chebTransform1D, hte. cbn [map fst snd]. rewrite !h_transformND, <- h_trErr, <- (h_nth (h:=h)). homs h. auto.
  Qed.
  Lemma h_invOrder o : getInverseOrder X o = getInverseOrder X' o.
  Proof. unfold getInverseOrder. rewrite (xh_argsort _ _ HX). auto. Qed.
  Lemma h_splitPoly npt M e o : map hte (splitPoly X false npt M e o) = splitPoly X' false (map h npt) (tmap h M) (h e) o.
  Proof.
    unfold splitPoly. cbv zeta. change (ndim (tmap h M)) with (ndim M).
    pose proof (foldi (map hte) (splitAxis false npt) (splitAxis false (map h npt)) o (h_split npt) [(M, e)]) as E. cbn [map hte fst snd] in E. change (hte (M, e)) with (tmap h M, h e) in E.
    rewrite <- E. destruct (ndim M =? 1)%nat; auto. rewrite h_invOrder, !map_map. apply map_ext. intros i. change (tmap h M, h e) with (hte (M, e)). rewrite map_nth. auto.
  Qed.
  Lemma h_unitRows n : map h2 (unitRows n) = unitRows n.
  Proof. unfold unitRows. rewrite map_repeat. unfold QuadTransfer.h2. cbn [fst snd]. homs h. auto. Qed.
  Lemma h_setNext t l : ht (setNext t l) = setNext (ht t) (map h l).
  Proof. reflexivity. Qed.
  Lemma h_splitI npt cur d : map ht (splitInterval npt cur d) = splitInterval (map h npt) (map ht cur) d.
  Proof.
    unfold splitInterval. cbv zeta. apply map_flat. intros t. cbn [map].
    assert (E : forall a b, let t1 := addTransform (copyT t) (upd (unitRows (length (ivl t))) d (a, b)) in let t1' := addTransform (copyT (ht t)) (upd (unitRows (length (ivl (ht t)))) d (h a, h b)) in
       ht (setNext t1 (upd (npts t1) d n0)) = setNext t1' (upd (npts t1') d n0)).
    { intros a b t1 t1'. assert (Et : ht t1 = t1').
      { unfold t1, t1'. rewrite h_addTr, h_copy, updm, h_unitRows. cbn [ht ivl]. rewrite map_length. reflexivity. }
      rewrite <- Et, h_setNext, (h_upd (h:=h)). homs h. reflexivity. }
    rewrite !E. homs h. rewrite (h_nth (h:=h)). reflexivity.
  Qed.
  Definition hchild (c : list (tensor A) * list A * tint A) : list (tensor B) * list B * tint B := let '(M, e, t) := c in (map (tmap h) M, map h e, ht t).
  Lemma h_transposed {Y Z} (f : Y -> Z) dy dz l : f dy = dz -> map (map f) (transposed dy l) = transposed dz (map (map f) l).
  Proof.
    intros E. unfold transposed. assert (El : length (nth 0 (map (map f) l) []) = length (nth 0 l [])) by (change (@nil Z) with (map f []); rewrite map_nth, map_length; auto).
    rewrite El, map_map. apply map_ext. intros j. rewrite !map_map. apply map_ext. intros r. rewrite <- E, map_nth. auto.
  Qed.
  Lemma h_children Ms errs t l : hres (map hchild) (getSubdivisionIntervals X false Ms errs t l) = getSubdivisionIntervals X' false (map (tmap h) Ms) (map h errs) (ht t) l.
  Proof.
    unfold getSubdivisionIntervals. cbv zeta. rewrite <- h_dims. rewrite map_length. set (rows := getSubdivisionDims X Ms t l). rewrite (xh_set _ _ HX). set (ds := xset X' (concat rows)).
    destruct (negb _); auto. destruct (_ && _); auto. cbn [hres]. f_equal. cbn [ht npts].
    change (mkTint (map h2 (top t)) (map h2 (ivl t)) (map (map h2) (trs t)) (empt t) (fin t) (cthr t) (map (map h) (dups t)) (extra t) (map h (npts t)) (map h2 (preI t)) (map (map h2) (preT t))) with (ht t).
    set (P := fun p : tensor A * A * list nat => let '((M, e), o) := p in splitPoly X false (npts t) M e o). set (P' := fun p : tensor B * B * list nat => let '((M, e), o) := p in splitPoly X' false (map h (npts t)) M e o).
    assert (Ep : map (map hte) (map P (combine (combine Ms errs) rows)) = map P' (combine (combine (map (tmap h) Ms) (map h errs)) rows)).
    { rewrite <- (map_combine (tmap h) h Ms errs). change (fun p => (tmap h (fst p), h (snd p))) with hte. rewrite (mapc hte (fun o : list nat => o) (map hte) P P'); [rewrite map_id; auto|]. intros [M e] o. apply h_splitPoly. }
    rewrite <- Ep, <- (h_transposed hte (mkT [] [], n0)) by (unfold hte; cbn; homs h; auto).
    pose proof (foldi (map ht) (splitInterval (npts t)) (splitInterval (map h (npts t))) ds (h_splitI (npts t)) [t]) as Ei. cbn [map] in Ei. rewrite <- Ei.
    apply mapc. intros c ti. cbn [fst snd hchild]. rewrite !map_map. reflexivity.
  Qed.

  (** ** merging *)
  Lemma h_isExt o t : isExterior o t = isExterior (ht o) (ht t).
  Proof. unfold isExterior. rewrite <- !h_cbox. apply existsb_combine. intros [a b] [c d]. unfold QuadTransfer.h2. cbn [fst snd]. rewrite !(h_eqb (h:=h)). auto. Qed.
  Lemma h_hull a b : map h2 (hull a b) = hull (map h2 a) (map h2 b).
  Proof.
    unfold hull. change h2 with (fun p : A * A => (h (fst p), h (snd p))) at 1. rewrite map_combine. f_equal.
    - unfold minBounds. apply mapc. intros [u v] [w z]. unfold QuadTransfer.h2. cbn [fst snd]. homs h. auto.
    - unfold maxBounds. apply mapc. intros [u v] [w z]. unfold QuadTransfer.h2. cbn [fst snd]. homs h. auto.
  Qed.
  Lemma h_subRow a b c d : h2 (subRow a b c d) = subRow (h2 a) (h2 b) (h2 c) (h2 d).
  Proof.
    destruct a as [a1 a2], b as [b1 b2], c as [c1 c2], d as [d1 d2]. unfold subRow, QuadTransfer.h2. cbn [fst snd]. rewrite <- !(h_eqb (h:=h)).
    destruct (neqb b2 b1), (neqb d1 c1), (neqb d2 c2); homs h; auto.
  Qed.
  Lemma h_currSub a b c d : map h2 (currSub a b c d) = currSub (map h2 a) (map h2 b) (map h2 c) (map h2 d).
  Proof.
    unfold currSub. set (f := fun p : (A * A) * (A * A) => (h2 (fst p), h2 (snd p))). rewrite <- (map_combine h2 h2 a b), <- (map_combine h2 h2 c d). fold f.
    apply mapc. intros [u v] [w z]. apply h_subRow.
  Qed.
  Lemma h_combine o t1 t2 : ht (combineIntervals o t1 t2) = combineIntervals (ht o) (ht t1) (ht t2).
  Proof.
    unfold combineIntervals. cbv zeta. rewrite <- !h_cbox, <- !h_final, <- !h_hull. cbn [ht ivl]. rewrite <- h_currSub.
    match goal with |- ht (setInterval (addTransform ?c ?s) ?b) = setInterval (addTransform ?c' _) _ => assert (E : ht c = c') end.
    { unfold copyT. cbn [fin ht preI preT]. destruct (fin o); reflexivity. }
    rewrite <- E, <- h_addTr. reflexivity.
  Qed.
  Definition hfl (p : bool * tint A) : bool * tint B := (fst p, ht (snd p)).
  Lemma listdel_map {Y Z} (f : Y -> Z) l i : map f (listdel l i) = listdel (map f l) i.
  Proof. unfold listdel. rewrite map_app, firstn_map, skipn_map. auto. Qed.
  Lemma h_mergeLoop o k : forall i1 i2 l, hres (map hfl) (mergeLoop k o i1 i2 l) = mergeLoop k (ht o) i1 i2 (map hfl l).
  Proof.
    induction k as [|k IH]; intros i1 i2 l; cbn [mergeLoop]; auto. unfold flagged in *. rewrite map_length. destruct (i1 <? length l)%nat; auto. destruct (i2 <? length l)%nat; [|apply IH]. cbv zeta.
    assert (En : forall i, snd (nth i (map hfl l) (false, dint)) = ht (snd (nth i l (false, dint)))).
    { intros i. change (false, dint) with (hfl (false, dint)) at 1. rewrite map_nth. auto. }
    rewrite !En, <- h_overlap. destruct (overlapsWith _ _); [|apply IH]. rewrite IH, map_app, !listdel_map. rewrite <- h_combine. reflexivity.
  Qed.
  Lemma h_mergeExt o l : hres (map hfl) (mergeExterior o l) = mergeExterior (ht o) (map ht l).
  Proof. unfold mergeExterior. rewrite h_mergeLoop, map_length, !map_map. auto. Qed.
  Lemma h_sameBox a b : sameBox a b = sameBox (map h2 a) (map h2 b).
  Proof. unfold sameBox. apply forallb_combine. intros [u v] [w z]. unfold QuadTransfer.h2. cbn [fst snd]. rewrite !(h_eqb (h:=h)). auto. Qed.
  Lemma h_samePoint a b : samePoint a b = samePoint (map h a) (map h b).
  Proof. unfold samePoint. rewrite !map_length. f_equal. apply forallb_combine. intros u v. apply (h_eqb (h:=h)). Qed.
  Lemma h_distinct l : map ht (distinctResults l) = distinctResults (map ht l).
  Proof.
    unfold distinctResults. rewrite map_rev. f_equal.
    match goal with |- map ht (fold_left ?f _ _) = fold_left ?f' _ _ => rewrite (foldh (map ht) ht f f'); auto end.
    intros acc t. rewrite existsb_map. match goal with |- map ht (if ?b then _ else _) = if ?c then _ else _ => assert (E : b = c) end.
    { apply existsb_ext. intros u. rewrite h_samePoint. unfold corner. cbn [ht ivl]. rewrite !map_map. auto. }
    rewrite <- E. destruct (existsb _ _); auto.
  Qed.
  Lemma h_rootsOf t : map (map h) (rootsOf t) = rootsOf (ht t).
  Proof. unfold rootsOf. cbn [ht dups]. destruct (dups t); cbn [map]; [|auto]. rewrite h_finalPt. auto. Qed.
  Lemma h_collect d l : map (map h) (collectDups d l) = collectDups (map (map h) d) (map ht l).
  Proof. unfold collectDups. rewrite map_app. f_equal. apply map_flat. intros; apply h_rootsOf. Qed.
  Definition h2l (p : list (tint A) * list (tint A)) : list (tint B) * list (tint B) := (map ht (fst p), map ht (snd p)).
  Lemma h_report o t : h2l (report o t) = report (ht o) (ht t).
  Proof. unfold report. rewrite <- h_isExt. destruct (isExterior o t); auto. Qed.
  Lemma h_quadCheck o Ms errs : quadCheck X o Ms errs = quadCheck X' o (map (tmap h) Ms) (map h errs).
  Proof.
    unfold quadCheck. rewrite dim0. f_equal. apply existsb_combine. intros M e. cbn [fst snd]. apply (h_quadratic_check (h:=h)); apply HX.
  Qed.
  Lemma h_runAll {Y Z} (f : Y -> Z) c c' l : (forall y, hres h2l (c y) = c' (f y)) -> hres h2l (runAll c l) = runAll c' (map f l).
  Proof.
    intros E. induction l as [|y l IH]; cbn [runAll map]; auto. rewrite <- E. destruct (c y) as [[i1 e1]| |]; cbn [bindR hres]; auto. rewrite <- IH. destruct (runAll c l) as [[i2 e2]| |]; cbn [bindR hres]; auto.
    unfold h2l. cbn [fst snd]. rewrite !map_app. auto.
  Qed.
  Lemma h_runFlat {Y Z} (f : Y -> Z) c c' l : (forall y, hres h2l (c y) = c' (f y)) -> hres (map ht) (runFlat c l) = runFlat c' (map f l).
  Proof.
    intros E. induction l as [|y l IH]; cbn [runFlat map]; auto. rewrite <- E. destruct (c y) as [[i1 e1]| |]; cbn [bindR hres]; auto. rewrite <- IH. destruct (runFlat c l) as [r| |]; cbn [bindR hres]; auto.
    cbn [h2l fst snd]. rewrite !map_app. auto.
  Qed.
  Lemma h_rerun c c' o l : (forall y, hres h2l (c y) = c' (ht y)) -> hres h2l (rerun c o l) = rerun c' (ht o) (map hfl l).
  Proof.
    intros E. induction l as [|[b t] l IH]; cbn [rerun map]; auto. cbn [hfl fst snd].
    match goal with |- hres h2l (bindR ?a _) = bindR ?a' _ => assert (Ea : hres h2l a = a') end.
    { destruct b; [|cbn [hres]; rewrite h_report; auto]. cbn [ht ivl]. rewrite <- h_sameBox. destruct (sameBox _ _); [reflexivity|apply E]. }
    rewrite <- Ea. apply h_bind. intros [i1 e1]. cbn [h2l fst snd]. rewrite <- IH. apply h_bind. intros [i2 e2]. cbn [hres]. unfold h2l. cbn [fst snd]. rewrite !map_app. reflexivity.
  Qed.

  (** ** the recursion *)
  Theorem h_solvePoly o : oexact o = false -> forall fuel l Ms t errs,
    hres h2l (solvePoly X fuel o l Ms t errs) = solvePoly X' fuel o l (map (tmap h) Ms) (ht t) (map h errs).
  Proof.
    intros Ho. induction fuel as [|fuel IH]; intros l Ms t errs; cbn [solvePoly]; auto. rewrite <- h_isPoint. destruct (isPoint t); auto. rewrite <- h_const, <- h_quadCheck.
    destruct (occheck o && _); auto. destruct (quadCheck X o Ms errs); auto. cbv zeta. rewrite <- h_trimMs. destruct (trimMs Ms errs) as [Ms1 e1]. cbn [hsys fst snd].
    rewrite <- h_copy. set (t1 := copyT t). assert (Ed : map h (dimSize t1) = dimSize (ht t1)) by apply h_boxDims. rewrite <- Ed, <- h_zoomLoop by auto.
    destruct (zoomLoop X fuel o Ms1 e1 t1 0 (dimSize t1)) as [[[[[Ms2 e2] t2] stop]|]| |]; cbn [hres bindR option_map hz4]; auto.
    change (fin (ht t2)) with (fin t2). destruct stop.
    - destruct (fin t2 || _); [cbn [hres]; rewrite h_report, h_copy; auto|]. rewrite IH. reflexivity.
    - rewrite Ho. assert (Er : forall c, hres h2l ((fun c => let '(M, e, t) := c in solvePoly X fuel o (S l) M t e) c) = (fun c => let '(M, e, t) := c in solvePoly X' fuel o (S l) M t e) (hchild c)) by (intros [[M e] u]; apply IH).
      destruct (fin t2).
      + change (setCanThrow (ht t2)) with (ht (setCanThrow t2)). rewrite <- h_children. apply h_bind. intros ch. rewrite <- (h_runFlat hchild _ _ ch Er). apply h_bind. intros all.
        destruct all as [|a0 all0]; [cbn [map hres]; rewrite h_report, h_copy; auto|]. set (all := a0 :: all0). change (map ht all) with (ht a0 :: map ht all0) at 1. cbv iota beta. cbn [hres]. rewrite h_report, h_copy. f_equal. f_equal.
        unfold setDups, ht at 1. cbn [top ivl trs empt fin cthr dups extra npts preI preT]. rewrite h_collect, h_distinct. reflexivity.
      + rewrite <- h_children. apply h_bind. intros ch. rewrite <- (h_runAll hchild _ _ ch Er). apply h_bind. intros [ri re]. cbn [h2l fst snd]. rewrite <- h_copy, <- h_mergeExt. apply h_bind. intros mg.
        erewrite <- h_rerun; [apply h_bind; intros [i1 x1]; cbn [hres]; unfold h2l; cbn [fst snd]; rewrite map_app; reflexivity|].
        intros u. cbv beta. rewrite <- h_last. destruct (getLastTransform u) as [ab|]; cbn [option_map]; auto. rewrite <- h_toInterval. destruct (transformChebToInterval Ms ab e2 false) as [M3 e3]. cbn [hsys fst snd]. apply IH.
  Qed.
  Definition hsol (s : solution (T := A)) : solution (T := B) := mkSol (map (map h) (sRoots s)) (map ht (sBoxes s)) (sExtra s) (sDup s).
  Theorem h_solve o fuel Ms errs : oexact o = false ->
    hres hsol (solveChebyshevSubdivision X fuel o Ms errs) = solveChebyshevSubdivision X' fuel o (map (tmap h) Ms) (map h errs).
  Proof.
    intros Ho. unfold solveChebyshevSubdivision. rewrite existsb_map, !map_length. change (fun x => negb (ndim (tmap h x) =? length Ms)%nat) with (fun M : tensor A => negb (ndim M =? length Ms)%nat).
    destruct (existsb _ _); auto. destruct (negb _); auto. destruct Ms as [|M0 Ms]; auto. cbn [map]. change (tmap h M0 :: map (tmap h) Ms) with (map (tmap h) (M0 :: Ms)). change (ndim (tmap h M0)) with (ndim M0).
    assert (E : newInterval (repeat ((- n1)%num, n1) (ndim M0)) = ht (newInterval (repeat ((- n1)%num, n1) (ndim M0)))) by (rewrite h_new, map_repeat; unfold QuadTransfer.h2; cbn [fst snd]; homs h; auto).
    rewrite E, <- h_solvePoly by auto. apply h_bind. intros [b1 b2]. cbn [h2l fst snd hres]. unfold hsol. cbn [sRoots sBoxes sExtra sDup]. rewrite <- map_app. f_equal. f_equal.
    - apply map_flat. intros; apply h_rootsOf.
    - rewrite existsb_map. auto.
    - rewrite existsb_map. apply existsb_ext. intros t. cbn [ht dups]. rewrite map_length. auto.
  Qed.
End H.

Lemma Q_pos (m : Q) : @nltb Q Q_num (@n0 Q Q_num) m = true -> @nltb Q Q_num (@n0 Q Q_num) (@nabs Q Q_num m) = true.
Proof.
  rewrite !(h_ltb (NB:=R_num) (h:=Q2R)), (h_abs (h:=Q2R)), (h_0 (h:=Q2R)). rnum. rewrite !Rltb_true. intros Hm. rewrite Rabs_pos_eq; lra.
Qed.
