(** * The quadratic checks commute with maps between arithmetics *)
From Coq Require Import ZArith QArith Reals List Bool Lia Arith.
From Verif Require Import Num Tensor PolySpec TransformModel Transfer QuadModel.
Import ListNotations.

Section H.
  Context {A B} {NA : Num A} {NB : Num B} {h : A -> B} {H : NumHom NA NB h}.

  Lemma h_nth l i : h (nth i l n0) = nth i (map h l) n0.
  Proof. rewrite <- (h_0 (h:=h)), map_nth. reflexivity. Qed.
  Lemma h_scan os l : forall a b, scan os a b l = scan (h os) a b (map h l).
  Proof.
    induction l; intros u v; simpl; auto. rewrite (h_ltb (h:=h)), (h_gtb (h:=h)). homs h.
    rewrite IHl. reflexivity.
  Qed.
  Lemma h_inside x : inside x = inside (h x).
  Proof. unfold inside. rewrite !(h_ltb (h:=h)). homs h. reflexivity. Qed.
  Lemma h_4 : h n4 = n4. Proof. apply (h_lit (h:=h)). Qed.
  Lemma h_16 : h n16 = n16. Proof. apply (h_lit (h:=h)). Qed.
  Lemma h_if (b : bool) x y : h (if b then x else y) = if b then h x else h y.
  Proof. destruct b; auto. Qed.
  Lemma map_if {X Y} (f : X -> Y) (b : bool) x y : map f (if b then x else y) = if b then map f x else map f y.
  Proof. destruct b; auto. Qed.
  Lemma h_pget (M : tensor A) i : h (pget M i) = pget (tmap h M) i.
  Proof. unfold pget. rewrite h_if, (h_tget (h:=h)), (h_0 (h:=h)). reflexivity. Qed.
  Lemma h_qc2_coeff (M : tensor A) : map h (qc2_coeff M) = qc2_coeff (tmap h M).
  Proof. unfold qc2_coeff. cbn [map]. rewrite !h_if, !(h_tget (h:=h)), !(h_0 (h:=h)). reflexivity. Qed.
  Lemma h_qc3_coeff (M : tensor A) : map h (qc3_coeff M) = qc3_coeff (tmap h M).
  Proof. unfold qc3_coeff. cbn [map]. rewrite !h_if, !(h_tget (h:=h)), !(h_0 (h:=h)). reflexivity. Qed.
  Lemma h_other_low (M : tensor A) c tol : h (other_sum_low M c tol) = other_sum_low (tmap h M) (map h c) (h tol).
  Proof. unfold other_sum_low. homs h. rewrite (h_tsumabs (h:=h)). reflexivity. Qed.
  Ltac homq := homs h; rewrite ?h_nth, ?h_4, ?h_16.
  Lemma h_qc2_eval c x y : h (qc2_eval c x y) = qc2_eval (map h c) (h x) (h y).
  Proof. unfold qc2_eval. homq. reflexivity. Qed.
  Lemma h_qc3_eval c x y z : h (qc3_eval c x y z) = qc3_eval (map h c) (h x) (h y) (h z).
  Proof. unfold qc3_eval. homq. reflexivity. Qed.
  Definition h2 (p : A * A) : B * B := (h (fst p), h (snd p)).
  Definition h3 (p : A * A * A) : B * B * B := let '(x, y, z) := p in (h x, h y, h z).
  Lemma map_flat {X Y Z W} (f : X -> list Y) (k : Z -> list W) (u : X -> Z) (w : Y -> W) l :
    (forall x, map w (f x) = k (u x)) -> map w (flat_map f l) = flat_map k (map u l).
  Proof. intros E. induction l; simpl; auto. rewrite map_app, IHl, E. auto. Qed.
  Lemma h_pm : map h [(- n1)%num; n1] = [(- n1)%num; n1].
  Proof. cbn [map]. homs h. reflexivity. Qed.
  Lemma h_qc2_points c : map h2 (qc2_points c) = qc2_points (map h c).
  Proof.
    unfold qc2_points. rewrite !map_app, !map_if. rewrite !(h_eqb (h:=h)). homq.
    f_equal; [cbn [map]; unfold h2; cbn [fst snd]; homs h; reflexivity|].
    f_equal; [|f_equal].
    - match goal with |- (if ?b then _ else _) = _ => destruct b; auto end. rewrite <- h_pm. apply map_flat. intros x. cbv zeta. rewrite map_if, h_inside. homq. unfold h2; cbn [map fst snd]. homq. reflexivity.
    - match goal with |- (if ?b then _ else _) = _ => destruct b; auto end. rewrite <- h_pm. apply map_flat. intros x. cbv zeta. rewrite map_if, h_inside. homq. unfold h2; cbn [map fst snd]. homq. reflexivity.
    - match goal with |- (if ?b then _ else _) = _ => destruct b; auto end. cbv zeta. rewrite ?map_if, !h_inside. homq. unfold h2; cbn [map fst snd]. homq. reflexivity.
  Qed.
  Lemma h_quad2 (M : tensor A) tol : quadratic_check_2D M tol = quadratic_check_2D (tmap h M) (h tol).
  Proof.
    unfold quadratic_check_2D. change (ndim (tmap h M)) with (ndim M). destruct (negb _); auto. rewrite h_scan, h_other_low, h_qc2_coeff. f_equal.
    rewrite <- h_qc2_coeff, <- h_qc2_points, !map_map. apply map_ext. intros. apply h_qc2_eval.
  Qed.
  Lemma h_pairs : map h2 [((- n1)%num, (- n1)%num); ((- n1)%num, n1); (n1, (- n1)%num); (n1, n1)] = [((- n1)%num, (- n1)%num); ((- n1)%num, n1); (n1, (- n1)%num); (n1, n1)].
  Proof. unfold h2. cbn [map fst snd]. homs h. reflexivity. Qed.
  Ltac byif := match goal with |- (if ?b then _ else _) = _ => destruct b; auto end.
  Lemma h_qc3_points c : map h3 (qc3_points c) = qc3_points (map h c).
  Proof.
    unfold qc3_points. rewrite !map_app, !map_if. rewrite !(h_eqb (h:=h)). homq.
    f_equal; [cbn [map]; unfold h3; homs h; reflexivity|].
    do 3 (f_equal; [byif; rewrite <- h_pairs; apply map_flat; intros [x y]; unfold h2; cbn [fst snd]; cbv zeta; rewrite map_if, h_inside; homq; unfold h3; cbn [map]; homq; reflexivity|]).
    do 3 (f_equal; [byif; rewrite <- h_pm; apply map_flat; intros x; cbv zeta; rewrite map_if, !h_inside; homq; unfold h3; cbn [map]; homq; reflexivity|]).
    byif. cbv zeta. rewrite ?map_if, !h_inside. homq. unfold h3; cbn [map]. homq. reflexivity.
  Qed.
  Lemma h_quad3 (M : tensor A) tol : quadratic_check_3D M tol = quadratic_check_3D (tmap h M) (h tol).
  Proof.
    unfold quadratic_check_3D. change (ndim (tmap h M)) with (ndim M). destruct (negb _); auto. rewrite h_scan, h_other_low, h_qc3_coeff. f_equal.
    rewrite <- h_qc3_coeff, <- h_qc3_points, !map_map. apply map_ext. intros [[x y] z]. unfold h3. apply h_qc3_eval.
  Qed.

  (** n-D version *)
  Lemma h_ndB (M : tensor A) : map h (ndB M) = ndB (tmap h M).
  Proof. unfold ndB. rewrite map_map. apply map_ext. intros. apply h_pget. Qed.
  Lemma h_ndP (M : tensor A) : map h (ndP M) = ndP (tmap h M).
  Proof. unfold ndP. rewrite map_map. apply map_ext. intros. apply h_pget. Qed.
  Lemma h_ndA (M : tensor A) : map (map h) (ndA M) = ndA (tmap h M).
  Proof.
    unfold ndA. rewrite map_map. apply map_ext. intros i. rewrite map_map. apply map_ext. intros j. rewrite h_if. homq. rewrite h_pget, h_ndP. reflexivity.
  Qed.
  Lemma h_mij (L : list (list A)) i j : h (mij L i j) = mij (map (map h) L) i j.
  Proof. unfold mij. rewrite h_nth. f_equal. change (@nil B) with (map h []). rewrite map_nth. reflexivity. Qed.
  Lemma h_ndConst (M : tensor A) : h (ndConst M) = ndConst (tmap h M).
  Proof. apply h_pget. Qed.
  Lemma h_ndOther (M : tensor A) tol : h (ndOther M tol) = ndOther (tmap h M) (h tol).
  Proof. unfold ndOther. homq. rewrite map_map. do 2 f_equal. apply map_ext. intros. rewrite h_if. homq. rewrite (h_tget (h:=h)). reflexivity. Qed.
  Lemma h_ndEval (M : tensor A) pt : h (ndEval M pt) = ndEval (tmap h M) (map h pt).
  Proof.
    unfold ndEval. change (ndim (tmap h M)) with (ndim M).
    assert (E : forall l a, h (fold_left (fun s i => (s + (nth i (ndB M) n0 + n2 * nth i (ndP M) n0 * nth i pt n0 + nsum (map (fun j => mij (ndA M) i j * nth j pt n0) (seq (S i) (ndim M - S i)))) * nth i pt n0)%num) l a)
      = fold_left (fun s i => (s + (nth i (ndB (tmap h M)) n0 + n2 * nth i (ndP (tmap h M)) n0 * nth i (map h pt) n0 + nsum (map (fun j => mij (ndA (tmap h M)) i j * nth j (map h pt) n0) (seq (S i) (ndim M - S i)))) * nth i (map h pt) n0)%num) l (h a)).
    { induction l; intros z; simpl; auto. rewrite IHl. f_equal. homq. rewrite map_map. rewrite h_ndB, h_ndP. do 4 f_equal. apply map_ext. intros j. homq. rewrite h_mij, h_ndA. reflexivity. }
    rewrite E. homq. rewrite h_ndConst, h_ndP. reflexivity.
  Qed.
  Lemma h_submat (L : list (list A)) r c : map (map h) (submat L r c) = submat (map (map h) L) r c.
  Proof. unfold submat. rewrite map_map. apply map_ext. intros. rewrite map_map. apply map_ext. intros. apply h_mij. Qed.
  Lemma h_sides k : map (map h) (sides k) = sides k.
  Proof.
    induction k; simpl; auto. rewrite !app_nil_r, map_app, !map_map. rewrite <- IHk, !map_map. f_equal; apply map_ext; intros; cbn [map]; homs h; reflexivity.
  Qed.
  Lemma h_signChange d : signChange d = signChange (map h d).
  Proof. induction d as [|x [|y d] IH]; auto. cbn [map signChange] in *. rewrite IH, (h_ltb (h:=h)). homs h. reflexivity. Qed.
  Lemma h_insideC v : insideC v = insideC (h v).
  Proof. unfold insideC. rewrite !(h_leb (h:=h)). homs h. reflexivity. Qed.
  Lemma h_forallb_inside l : forallb insideC l = forallb insideC (map h l).
  Proof. induction l; simpl; auto. rewrite IHl, h_insideC. reflexivity. Qed.
  Lemma h_foldupd keys : forall vals base, map h (fold_left (fun X p => upd X (fst p) (snd p)) (combine keys vals) base)
    = fold_left (fun X p => upd X (fst p) (snd p)) (combine keys (map h vals)) (map h base).
  Proof. induction keys; intros [|v vals] base; simpl; auto. rewrite IHkeys, (h_upd (h:=h)). reflexivity. Qed.
  Lemma h_scatter n f X0 u X : map h (scatter n f X0 u X) = scatter n f (map h X0) u (map h X).
  Proof. unfold scatter. rewrite !h_foldupd, (h_repeat0 (h:=h)). reflexivity. Qed.

  Section Or.
    Variable rank : list (list A) -> bool.
    Variable solve : list (list A) -> list A -> list A.
    Variable rank' : list (list B) -> bool.
    Variable solve' : list (list B) -> list B -> list B.
    Hypothesis Hr : forall L, rank L = rank' (map (map h) L).
    Hypothesis Hs : forall L b, map h (solve L b) = solve' (map (map h) L) (map h b).
    Lemma h_ndFace (M : tensor A) f : map (map h) (ndFace rank solve M f) = ndFace rank' solve' (tmap h M) f.
    Proof.
      unfold ndFace. change (ndim (tmap h M)) with (ndim M). rewrite !map_if. rewrite h_signChange, map_map, Hr, h_submat.
      rewrite (map_ext _ (fun i => mij (ndA (tmap h M)) i i)) by (intros; rewrite h_mij, h_ndA; reflexivity). rewrite h_ndA.
      destruct (signChange _); auto. destruct (rank' _); auto. rewrite <- (h_sides (length f)). apply map_flat. intros X0. cbv zeta.
      rewrite map_if, h_forallb_inside, Hs, h_submat, h_ndA. cbn [map]. rewrite h_scatter, Hs, h_submat, h_ndA.
      match goal with |- context [map h (map ?F ?L)] => assert (E : map h (map F L) = map (fun i => (- nth i (ndB (tmap h M)) n0 - nsum (map (fun p => mij (ndA (tmap h M)) i (fst p) * snd p) (combine f (map h X0))))%num) L) end.
      { rewrite map_map. apply map_ext. intros i. homq. rewrite h_ndB. f_equal. f_equal. revert X0. induction f as [|a f IH]; intros [|v X0]; cbn [combine map]; auto. rewrite IH. cbn [fst snd]. homq. rewrite h_mij, h_ndA. reflexivity. }
      rewrite E. reflexivity.
    Qed.
    Lemma h_ndInterior (M : tensor A) : map (map h) (ndInterior rank solve M) = ndInterior rank' solve' (tmap h M).
    Proof.
      unfold ndInterior. rewrite !map_if. rewrite h_signChange, Hr, h_ndP, h_ndA. destruct (signChange _); auto. destruct (rank' _); auto. cbv zeta.
      rewrite ?map_if, h_forallb_inside. cbn [map]. rewrite Hs, h_ndA.
      assert (E : map h (map (fun b => (- b)%num) (ndB M)) = map (fun b => (- b)%num) (ndB (tmap h M))).
      { rewrite <- h_ndB, !map_map. apply map_ext. intros; apply (h_opp (h:=h)). }
      rewrite E. reflexivity.
    Qed.
    Lemma h_ndPoints (M : tensor A) : map (map h) (ndPoints rank solve M) = ndPoints rank' solve' (tmap h M).
    Proof.
      unfold ndPoints. change (ndim (tmap h M)) with (ndim M). rewrite !map_app, h_sides, h_ndInterior. do 2 f_equal.
      rewrite (map_flat _ (ndFace rank' solve' (tmap h M)) (fun x => x)), map_id; auto. intros; apply h_ndFace.
    Qed.
    Lemma h_quadnd (M : tensor A) tol : quadratic_check_nd rank solve M tol = quadratic_check_nd rank' solve' (tmap h M) (h tol).
    Proof.
      unfold quadratic_check_nd. rewrite h_scan, h_ndOther. f_equal. rewrite <- h_ndPoints, !map_map. apply map_ext. intros. apply h_ndEval.
    Qed.
    Lemma h_quadratic_check (M : tensor A) tol nd : quadratic_check rank solve M tol nd = quadratic_check rank' solve' (tmap h M) (h tol) nd.
    Proof. unfold quadratic_check. change (ndim (tmap h M)) with (ndim M). rewrite h_quadnd, h_quad2, h_quad3. reflexivity. Qed.
  End Or.
End H.
