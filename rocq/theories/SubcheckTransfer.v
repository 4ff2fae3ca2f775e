(** * The sub-interval checks and the bounding intervals commute with maps between arithmetics *)
From Coq Require Import ZArith QArith Reals List Bool Lia Arith.
From Verif Require Import Num Tensor PolySpec TransformModel Transfer QuadModel QuadTransfer SubcheckModel.
Import ListNotations.

Section H.
  Context {A B} {NA : Num A} {NB : Num B} {h : A -> B} {H : NumHom NA NB h}.
  Ltac homq := homs h; rewrite ?(h_nth (h:=h)), ?(h_4 (h:=h)), ?(h_16 (h:=h)).
  Definition hbox (s : @sbox A) : @sbox B := (map h (fst s), map h (snd s)).
  Lemma h_lo s i : h (lo s i) = lo (hbox s) i.
  Proof. unfold lo. rewrite (h_nth (h:=h)). reflexivity. Qed.
  Lemma h_hi s i : h (hi s i) = hi (hbox s) i.
  Proof. unfold hi. rewrite (h_nth (h:=h)). reflexivity. Qed.
  Lemma h_cornersFrom s k : forall i, map (map h) (cornersFrom s i k) = cornersFrom (hbox s) i k.
  Proof.
    induction k as [|k IH]; intros i; [reflexivity|]. cbn [cornersFrom]. rewrite <- (IH (S i)), <- h_lo, <- h_hi.
    rewrite (map_flat _ (fun v => map (cons v) (map (map h) (cornersFrom s (S i) k))) h); [reflexivity|]. intros v. rewrite !map_map. reflexivity.
  Qed.
  Lemma h_insideOf s u X : insideOf s u X = insideOf (hbox s) u (map h X).
  Proof.
    unfold insideOf. revert X. induction u as [|a u IH]; intros [|v X]; cbn [combine map forallb fst snd]; auto.
    rewrite IH, !(h_leb (h:=h)), h_lo, h_hi. reflexivity.
  Qed.

  Section Or.
    Variable rank : list (list A) -> bool.
    Variable solve : list (list A) -> list A -> list A.
    Variable rank' : list (list B) -> bool.
    Variable solve' : list (list B) -> list B -> list B.
    Hypothesis Hr : forall L, rank L = rank' (map (map h) L).
    Hypothesis Hs : forall L b, map h (solve L b) = solve' (map (map h) L) (map h b).
    Lemma h_subFace (M : tensor A) s f : map (map h) (subFace rank solve M s f) = subFace rank' solve' (tmap h M) (hbox s) f.
    Proof.
      unfold subFace. change (ndim (tmap h M)) with (ndim M). cbv zeta. rewrite !map_if. rewrite (h_signChange (h:=h)), map_map, Hr, (h_submat (h:=h)).
      rewrite (map_ext _ (fun i => mij (ndA (tmap h M)) i i)) by (intros; rewrite (h_mij (h:=h)), (h_ndA (h:=h)); reflexivity). rewrite (h_ndA (h:=h)).
      destruct (signChange _); auto. destruct (rank' _); auto. unfold cornersOf. rewrite <- (h_cornersFrom s (length f) 0). apply map_flat. intros X0.
      rewrite map_if, h_insideOf, Hs, (h_submat (h:=h)), (h_ndA (h:=h)). cbn [map]. rewrite (h_scatter (h:=h)), Hs, (h_submat (h:=h)), (h_ndA (h:=h)).
      match goal with |- context [map h (map ?F ?L)] => assert (E : map h (map F L) = map (fun i => (- nth i (ndB (tmap h M)) n0 - nsum (map (fun p => mij (ndA (tmap h M)) i (fst p) * snd p) (combine f (map h X0))))%num) L) end.
      { rewrite map_map. apply map_ext. intros i. homq. rewrite (h_ndB (h:=h)). f_equal. f_equal. revert X0. induction f as [|a f IH]; intros [|v X0]; cbn [combine map]; auto. rewrite IH. cbn [fst snd]. homq. rewrite (h_mij (h:=h)), (h_ndA (h:=h)). reflexivity. }
      rewrite E. reflexivity.
    Qed.
    Lemma h_subInterior (M : tensor A) s : map (map h) (subInterior rank solve M s) = subInterior rank' solve' (tmap h M) (hbox s).
    Proof.
      unfold subInterior. change (ndim (tmap h M)) with (ndim M). rewrite !map_if. rewrite (h_signChange (h:=h)), Hr, (h_ndP (h:=h)), (h_ndA (h:=h)). destruct (signChange _); auto. destruct (rank' _); auto. cbv zeta.
      rewrite ?map_if, h_insideOf. cbn [map]. rewrite Hs, (h_ndA (h:=h)).
      assert (E : map h (map (fun b => (- b)%num) (ndB M)) = map (fun b => (- b)%num) (ndB (tmap h M))).
      { rewrite <- (h_ndB (h:=h)), !map_map. apply map_ext. intros; apply (h_opp (h:=h)). }
      rewrite E. reflexivity.
    Qed.
    Lemma h_throwN (M : tensor A) tol s : throwN rank solve M tol s = throwN rank' solve' (tmap h M) (h tol) (hbox s).
    Proof.
      unfold throwN. rewrite (h_scan (h:=h)), (h_ndOther (h:=h)). f_equal.
      assert (E : map (map h) (subPoints rank solve M s) = subPoints rank' solve' (tmap h M) (hbox s)).
      { unfold subPoints, cornersOf. change (ndim (tmap h M)) with (ndim M). rewrite !map_app, h_cornersFrom, h_subInterior. do 2 f_equal.
        rewrite (map_flat _ (subFace rank' solve' (tmap h M) (hbox s)) (fun x => x)), map_id; auto. intros; apply h_subFace. }
      rewrite <- E, !map_map. apply map_ext. intros. apply (h_ndEval (h:=h)).
    Qed.
    Lemma h_between l u v : between l u v = between (h l) (h u) (h v).
    Proof. unfold between. rewrite !(h_ltb (h:=h)). reflexivity. Qed.
    Lemma h_throw2 (M : tensor A) tol s : throw2 M tol s = throw2 (tmap h M) (h tol) (hbox s).
    Proof.
      unfold throw2. cbv zeta. rewrite (h_scan (h:=h)), (h_other_low (h:=h)), (h_qc2_coeff (h:=h)). f_equal.
      assert (E : map (h2 (h:=h)) (sub2_points (qc2_coeff M) s) = sub2_points (qc2_coeff (tmap h M)) (hbox s)).
      { rewrite <- (h_qc2_coeff (h:=h)). generalize (qc2_coeff M). intros c. unfold sub2_points. cbv zeta. rewrite !map_app, !map_if. rewrite !(h_eqb (h:=h)). homq. rewrite <- ?h_lo, <- ?h_hi.
        f_equal. f_equal; [|f_equal].
        - match goal with |- (if ?b then _ else _) = _ => destruct b; auto end.
          apply (map_flat _ _ h (h2 (h:=h)) [lo s 0; hi s 0]). intros x. rewrite map_if, h_between. homq. unfold h2; cbn [map fst snd]. homq. reflexivity.
        - match goal with |- (if ?b then _ else _) = _ => destruct b; auto end.
          apply (map_flat _ _ h (h2 (h:=h)) [lo s 1; hi s 1]). intros x. rewrite map_if, h_between. homq. unfold h2; cbn [map fst snd]. homq. reflexivity.
        - match goal with |- (if ?b then _ else _) = _ => destruct b; auto end. rewrite ?map_if, !h_between. homq. unfold h2; cbn [map fst snd]. homq. reflexivity. }
      rewrite <- E, <- (h_qc2_coeff (h:=h)), !map_map. apply map_ext. intros. apply (h_qc2_eval (h:=h)).
    Qed.
  End Or.

  (** bounding intervals *)
  Lemma h_nmaxl l : forall v, h (nmaxl v l) = nmaxl (h v) (map h l).
  Proof. unfold nmaxl. induction l as [|a l IH]; intros v; cbn [fold_left map]; auto. rewrite IH, (h_max (h:=h)). reflexivity. Qed.
  Lemma h_nminl l : forall v, h (nminl v l) = nminl (h v) (map h l).
  Proof. unfold nminl. induction l as [|a l IH]; intros v; cbn [fold_left map]; auto. rewrite IH, (h_min (h:=h)). reflexivity. Qed.
  Lemma map_fst_h2 l : map fst (map (h2 (h:=h)) l) = map h (map fst l).
  Proof. rewrite !map_map. reflexivity. Qed.
  Lemma map_snd_h2 l : map snd (map (h2 (h:=h)) l) = map h (map snd l).
  Proof. rewrite !map_map. reflexivity. Qed.
  Lemma h2_if (b : bool) p q : h2 (h:=h) (if b then p else q) = if b then h2 (h:=h) p else h2 (h:=h) q.
  Proof. destruct b; auto. Qed.
  Lemma h_merge l : h2 (h:=h) (mergeIntervals l) = mergeIntervals (map (h2 (h:=h)) l).
  Proof.
    unfold mergeIntervals. destruct l as [|p r]; [unfold h2; cbn [fst snd]; homs h; reflexivity|]. cbn [map]. cbv zeta. rewrite map_fst_h2, map_snd_h2. change (fst (h2 p)) with (h (fst p)). change (snd (h2 p)) with (h (snd p)).
    rewrite <- h_nmaxl, <- h_nminl, <- (h_gtb (h:=h)), h2_if. unfold h2. cbn [fst snd]. rewrite (h_0 (h:=h)). reflexivity.
  Qed.
  Lemma h_clamp1 v : h (clamp1 v) = clamp1 (h v).
  Proof. unfold clamp1. homs h. reflexivity. Qed.
  Lemma h_width p : h2 (h:=h) (widthCheck p) = widthCheck (h2 (h:=h) p).
  Proof.
    unfold widthCheck. cbv zeta. rewrite !h2_if. change (fst (h2 p)) with (h (fst p)). change (snd (h2 p)) with (h (snd p)). rewrite <- !h_clamp1, <- (h_eqb (h:=h)).
    assert (Em : h minWidth = minWidth) by apply (h_lit (h:=h)).
    rewrite <- Em. rewrite (h_ltb (h:=h)). homs h. unfold h2. cbn [fst snd]. rewrite !h_clamp1. homs h. rewrite !h_clamp1. reflexivity.
  Qed.
  Definition hlin (e : @lin2 A) : @lin2 B := mkLin2 (h (xt e)) (h (yt e)) (h (ct e)) (h (et e)).
  Lemma h_around c w : h2 (h:=h) (around c w) = around (h c) (h w).
  Proof. unfold around, h2. cbn [fst snd]. homs h. reflexivity. Qed.
  Lemma h_linOf M e : hlin (linOf M e) = linOf (tmap h M) (h e).
  Proof. unfold linOf, hlin. cbv zeta. cbn [xt yt ct et]. homs h. rewrite (h_tsumabs (h:=h)), !(h_tget (h:=h)). reflexivity. Qed.
  Lemma h_improveX e : map (h2 (h:=h)) (improveX e) = improveX (hlin e).
  Proof. unfold improveX. rewrite map_if. cbn [map]. rewrite h_around, (h_eqb (h:=h)). homs h. reflexivity. Qed.
  Lemma h_improveY e : map (h2 (h:=h)) (improveY e) = improveY (hlin e).
  Proof. unfold improveY. rewrite map_if. cbn [map]. rewrite h_around, (h_eqb (h:=h)). homs h. reflexivity. Qed.
  Lemma h_parallelX p q : map (h2 (h:=h)) (parallelX p q) = parallelX (hlin p) (hlin q).
  Proof. unfold parallelX. cbv zeta. rewrite map_if. cbn [map]. rewrite h_around, (h_eqb (h:=h)). homs h. reflexivity. Qed.
  Lemma h_parallelY p q : map (h2 (h:=h)) (parallelY p q) = parallelY (hlin p) (hlin q).
  Proof. unfold parallelY. cbv zeta. rewrite map_if. cbn [map]. rewrite h_around, (h_eqb (h:=h)). homs h. reflexivity. Qed.
  Lemma h_bounding2D (P1 P2 : tensor A) e1 e2 methods :
    match bounding2D P1 P2 e1 e2 methods with Done s => bounding2D (tmap h P1) (tmap h P2) (h e1) (h e2) methods = Done (hbox s) | IndexError => bounding2D (tmap h P1) (tmap h P2) (h e1) (h e2) methods = IndexError | SingularMatrix => True end.
  Proof.
    unfold bounding2D. change (hasLinear (tmap h P1)) with (hasLinear P1). change (hasLinear (tmap h P2)) with (hasLinear P2). destruct (_ && _); auto. cbv zeta. rewrite <- !h_linOf.
    set (p := linOf P1 e1). set (q := linOf P2 e2).
    assert (EX : flat_map (fun m => match m with ImproveBound => improveX (hlin p) ++ improveX (hlin q) | Parallelogram => parallelX (hlin p) (hlin q) end) methods
               = map (h2 (h:=h)) (flat_map (fun m => match m with ImproveBound => improveX p ++ improveX q | Parallelogram => parallelX p q end) methods)).
    { induction methods as [|[|] l IH]; cbn [flat_map]; auto; rewrite IH, !map_app, ?h_improveX, ?h_parallelX; reflexivity. }
    assert (EY : flat_map (fun m => match m with ImproveBound => improveY (hlin p) ++ improveY (hlin q) | Parallelogram => parallelY (hlin p) (hlin q) end) methods
               = map (h2 (h:=h)) (flat_map (fun m => match m with ImproveBound => improveY p ++ improveY q | Parallelogram => parallelY p q end) methods)).
    { clear EX. induction methods as [|[|] l IH]; cbn [flat_map]; auto; rewrite IH, !map_app, ?h_improveY, ?h_parallelY; reflexivity. }
    rewrite EX, EY, <- !h_merge, <- !h_width. reflexivity.
  Qed.
  Lemma h_unitSubs n : map hbox (@unitSubs A NA n) = @unitSubs B NB n.
  Proof.
    unfold unitSubs. rewrite map_map. apply map_ext. intros spot. unfold hbox. cbn [fst snd]. rewrite !map_map.
    assert (Em : h middleVal = middleVal) by (unfold middleVal, RAND; homs h; reflexivity).
    f_equal; apply map_ext; intros v; rewrite (h_if (h:=h)), Em; homs h; reflexivity.
  Qed.
End H.
