(** * solve() commutes with maps between arithmetics (exact = false) *)
From Coq Require Import ZArith QArith Reals List Bool Lia Arith.
From Verif Require Import Num Tensor PolySpec TransformModel Transfer IntervalModel LinearModel QuadModel QuadTransfer SolverModel SolverTransfer CombinedModel.
Import ListNotations.

Section H.
  Context {A B} {NA : Num A} {NB : Num B} {h : A -> B} {H : NumHom NA NB h}.
  Hypothesis Hpos : forall m : A, nltb n0 m = true -> nltb n0 (nabs m) = true.
  Notation h2 := (@h2 A B h).
  Notation ht := (ht (h := h)).

  (** function objects of the same kind; polynomial objects with corresponding coefficients *)
  Inductive fsim : fobj A -> fobj B -> Prop :=
  | sim_not : fsim NotCallable NotCallable
  | sim_plain f f' : fsim (Plain f) (Plain f')
  | sim_cheb t : fsim (MCheb t) (MCheb (tmap h t)).
  Definition hout (o : cout A) : cout B :=
    mkOut (map (map h) (cRoots o)) (map (map h2) (cBoxes o)) (map (fun p => (map h (fst p), map h (snd p))) (cSearched o)).
  Definition hc {X Y} (f : X -> Y) (r : cres A X) : cres B Y :=
    match r with COk a => COk (f a) | CNotCallable => CNotCallable | CBadLengths => CBadLengths | CInverted a b => CInverted (map h a) (map h b) | CInner => CInner | CFuel => CFuel end.

  Lemma h_cbind {X Y X' Y'} (f : X -> X') (k : Y -> Y') (r : cres A X) (r' : cres B X') F F' :
    hc f r = r' -> (forall x, hc k (F x) = F' (f x)) -> hc k (cbind r F) = cbind r' F'.
  Proof. intros <- HF. destruct r; cbn; auto. Qed.
  Lemma h_ofRes {X Y} (f : X -> Y) (r : res X) : hc f (@ofRes A X r) = @ofRes B Y (hres f r).
  Proof. destruct r; auto. Qed.
  Lemma h_zip3 (f : A -> A -> A -> A) (f' : B -> B -> B -> B) x a b : (forall x a b, h (f x a b) = f' (h x) (h a) (h b)) ->
    map h (zip3 f x a b) = zip3 f' (map h x) (map h a) (map h b).
  Proof.
    intros Hf. unfold zip3. revert a b. induction x as [|u x IH]; intros [|v a] [|w b]; cbn; auto. f_equal; auto.
  Qed.
  Lemma h_tp x a b : h (transformPt x a b) = transformPt (h x) (h a) (h b).
  Proof. unfold transformPt. homs h. rewrite ?h_2. reflexivity. Qed.
  Lemma h_bcast n l : option_map (map h) (bcast n l) = bcast n (map h l).
  Proof.
    unfold bcast. rewrite map_length. destruct (Nat.eqb _ _); auto. destruct l as [|v [|w l]]; cbn; auto. rewrite map_repeat. auto.
  Qed.
  Lemma h_close v c : close1 v c = close1 (h v) (h c).
  Proof. unfold close1. rewrite (h_leb (h := h)). homs h. reflexivity. Qed.
  Lemma h_nearUnit a b : nearUnit a b = nearUnit (map h a) (map h b).
  Proof.
    unfold nearUnit. rewrite !forallb_map. f_equal; apply forallb_ext; intros v; rewrite h_close; homs h; reflexivity.
  Qed.
  Lemma h_split a b : h (splitPoint a b) = splitPoint (h a) (h b).
  Proof. unfold splitPoint. homs h. reflexivity. Qed.
  Lemma h_splitBounds a b val : (map h (fst (splitBounds a b val)), map h (snd (splitBounds a b val))) = splitBounds (map h a) (map h b) val.
  Proof.
    unfold splitBounds. cbn [fst snd]. f_equal.
    - revert b val. induction a as [|u a IH]; intros [|v b] [|c val]; cbn; auto. f_equal; [destruct c; auto; apply h_split|apply IH].
    - revert b val. induction a as [|u a IH]; intros [|v b] [|c val]; cbn; auto. f_equal; [destruct c; auto; apply h_split|apply IH].
  Qed.
  Lemma h_app o1 o2 : hout (outApp o1 o2) = outApp (hout o1) (hout o2).
  Proof. unfold hout, outApp. cbn [cRoots cBoxes cSearched]. rewrite !map_app. reflexivity. Qed.
  Lemma h_drop o : hout (dropEmpty o) = dropEmpty (hout o).
  Proof. unfold dropEmpty, hout. cbn [cRoots]. destruct (cRoots o) eqn:E; cbn; rewrite ?E; reflexivity. Qed.
  Lemma h_gather {X X'} (k : X -> X') (f : X -> cres A (cout A)) (f' : X' -> cres B (cout B)) l : (forall x, hc hout (f x) = f' (k x)) ->
    hc hout (gather f l) = gather f' (map k l).
  Proof.
    intros Hf. induction l as [|x l IH]; cbn [gather map]; [reflexivity|]. eapply h_cbind; [apply Hf|]. intros o1. eapply h_cbind; [apply IH|]. intros o2. cbn [hc]. rewrite h_app. reflexivity.
  Qed.

  Variables (X : ext A) (X' : ext B).
  Hypothesis HXX : extHom (h := h) X X'.
  Variables (approx : fobj A -> list A -> list A -> res (tensor A * A)) (approx' : fobj B -> list B -> list B -> res (tensor B * B)).
  Hypothesis Happ : forall f f' a b, fsim f f' -> hres (hte (h := h)) (approx f a b) = approx' f' (map h a) (map h b).
  Variables (minSize : A) (sfuel : nat).

  Lemma h_approxFor f f' a b : fsim f f' -> hres (hte (h := h)) (approxFor approx f a b) = approxFor approx' f' (map h a) (map h b).
  Proof.
    intros Hs. pose proof (Happ f f' a b Hs) as Hf. destruct Hs; cbn [approxFor]; auto. rewrite <- h_nearUnit. destruct (nearUnit a b); auto.
    cbn [hres hte fst snd]. unfold hte. cbn [fst snd]. rewrite (h_lit (h := h)). reflexivity.
  Qed.
  Lemma h_approxAll l l' a b : Forall2 fsim l l' -> hres (map (hte (h := h))) (approxAll approx l a b) = approxAll approx' l' (map h a) (map h b).
  Proof.
    induction 1 as [|f f' l l' Hf Hl IH]; cbn [approxAll]; auto. rewrite <- (h_approxFor f f') by auto. destruct (approxFor approx f a b); cbn [bindR hres]; auto.
    rewrite <- IH. destruct (approxAll approx l a b); cbn [bindR hres]; auto.
  Qed.
  Lemma h_finish again again' a b t : (forall a b, hc hout (again a b) = again' (map h a) (map h b)) ->
    hc hout (finish minSize again a b t) = finish (h minSize) again' (map h a) (map h b) (ht t).
  Proof.
    intros Hag. unfold finish. cbv zeta. rewrite <- h_final, map_length, <- !h_bcast.
    destruct (bcast _ a) as [a'|]; cbn [option_map]; auto. destruct (bcast _ b) as [b'|]; cbn [option_map]; auto.
    assert (E1 : forall s, map h (zip3 transformPt s a' b') = zip3 transformPt (map h s) (map h a') (map h b')) by (intros; apply h_zip3, h_tp).
    assert (F1 : map fst (map h2 (getFinalInterval t)) = map h (map fst (getFinalInterval t))) by (rewrite !map_map; apply map_ext; intros []; auto).
    assert (F2 : map snd (map h2 (getFinalInterval t)) = map h (map snd (getFinalInterval t))) by (rewrite !map_map; apply map_ext; intros []; auto).
    rewrite F1, F2, <- !E1.
    set (nA := zip3 transformPt (map fst (getFinalInterval t)) a' b'). set (nB := zip3 transformPt (map snd (getFinalInterval t)) a' b').
    assert (E2 : map h (map (fun p => nmul minSize (nmax (nmax (nabs (fst p)) (nabs (snd p))) n1)) (combine a' b')) =
                 map (fun p => nmul (h minSize) (nmax (nmax (nabs (fst p)) (nabs (snd p))) n1)) (combine (map h a') (map h b'))).
    { apply mapc. intros u v. cbn [fst snd]. rewrite (h_mul (h := h)), !(h_max (h := h)), !(h_abs (h := h)), (h_1 (h := h)). reflexivity. }
    rewrite <- E2, <- (map_combine h h nA nB).
    rewrite <- (forallb_combine h (fun p => (h (fst p), h (snd p))) (fun p => ngtb (nsub (snd (snd p)) (fst (snd p))) (fst p)) _ _ (combine nA nB)).
    2: { intros u [v w]. cbn [fst snd]. rewrite (h_gtb (h := h)), (h_sub (h := h)). reflexivity. }
    destruct (forallb _ _).
    - eapply h_cbind; [apply Hag|]. intros o. cbn [hc]. rewrite h_drop. reflexivity.
    - cbn [hc]. unfold hout. cbn [cRoots cBoxes cSearched map]. rewrite <- h_rootsOf, !map_map. f_equal. f_equal. apply map_ext. intros p. apply E1.
  Qed.
  Theorem h_csolve fuel : forall l l' a b, Forall2 fsim l l' ->
    hc hout (csolve X approx false minSize sfuel fuel l a b) = csolve X' approx' false (h minSize) sfuel fuel l' (map h a) (map h b).
  Proof.
    induction fuel as [|fuel IH]; intros l l' a b Hl; cbn [csolve]; auto.
    assert (E : existsb (fun f : fobj A => match f with NotCallable => true | _ => false end) l = existsb (fun f : fobj B => match f with NotCallable => true | _ => false end) l').
    { induction Hl as [|f f' l l' Hf Hl IHl]; cbn; auto. rewrite IHl. destruct Hf; auto. }
    rewrite <- E. destruct (existsb _ l); auto. rewrite !map_length. destruct (negb _); auto.
    rewrite <- (existsb_combine h h (fun p => nltb (snd p) (fst p))). 2: { intros u v. cbn [fst snd]. apply (h_ltb (h := h)). }
    destruct (existsb _ (combine a b)); auto.
    rewrite <- (h_approxAll l l') by auto. eapply h_cbind; [apply h_ofRes|]. intros ps.
    assert (E1 : map fst (map (hte (h := h)) ps) = map (tmap h) (map fst ps)) by (rewrite !map_map; apply map_ext; auto).
    assert (E2 : map snd (map (hte (h := h)) ps) = map h (map snd ps)) by (rewrite !map_map; apply map_ext; auto).
    rewrite E1, E2, <- (h_solve Hpos X X' HXX) by auto. eapply h_cbind; [apply h_ofRes|]. intros sol.
    cbv zeta.
    rewrite <- (forallb_combine h h (fun p => ngtb (nsub (snd p) (fst p)) minSize)). 2: { intros u v. cbn [fst snd]. rewrite (h_gtb (h := h)), (h_sub (h := h)). reflexivity. }
    assert (E3 : (match sBoxes (hsol (h := h) sol) with [t] => forallb (fun d => neqb d n2) (finalDimSize t) | _ => false end) =
                 match sBoxes sol with [t] => forallb (fun d => neqb d n2) (finalDimSize t) | _ => false end).
    { unfold hsol. cbn [sBoxes]. destruct (sBoxes sol) as [|t [|t' bs]]; cbn [map]; auto. unfold finalDimSize. rewrite <- h_final, <- h_boxDims, forallb_map.
      apply forallb_ext. intros d. rewrite (h_eqb (h := h) d), (h_2 (h := h)). reflexivity. }
    rewrite E3. destruct (_ && _).
    - eapply h_cbind with (f := hout).
      + rewrite <- (map_id (boolLists (length a))) at 2. apply h_gather. intros val. rewrite <- h_splitBounds. destruct (splitBounds a b val) as [na nb]. cbn [fst snd].
        eapply h_cbind; [apply (IH l l'); auto|]. intros o. cbn [hc]. rewrite h_drop. reflexivity.
      + intros o. reflexivity.
    - eapply h_cbind with (f := hout).
      + unfold hsol. cbn [sBoxes]. apply h_gather. intros t. apply h_finish. intros. apply IH. auto.
      + intros o. reflexivity.
  Qed.
End H.
