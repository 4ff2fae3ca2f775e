(** * Objects with shared arrays behave like values under the solver's discipline *)
From Coq Require Import List Arith Bool ZArith Lia.
From Verif Require Import Num Tensor PolySpec TransformModel IntervalModel HeapModel.
Import ListNotations.

Section Proofs.
  Context {T : Type} {NT : Num T}.
  Notation obj := HeapModel.obj.
  Notation state := (state T).
  Notation heap := (heap T).

  Record inb (h : heap) (o : obj) : Prop := {
    ib_top : rTop o < length (hb h);
    ib_ivl : rIvl o < length (hb h);
    ib_trs : rTrs o < length (hl h);
    ib_pts : rPts o < length (hp h);
    ib_dup : rDup o < length (hd h);
    ib_pre : forall a l, rPre o = Some (a, l) -> a < length (hb h) /\ l < length (hl h);
    ib_fin : oFin o = true <-> rPre o <> None }.

  Record inv (s : state) (dir : list bool) : Prop := {
    iv_len : length dir = length (objs s);
    iv_inb : forall i, i < length (objs s) -> inb (hp_ s) (ob s i);
    iv_trs : forall i j, i < length (objs s) -> j < length (objs s) -> i <> j -> rTrs (ob s i) <> rTrs (ob s j);
    iv_pts : forall i j, i < length (objs s) -> j < length (objs s) -> i <> j -> rPts (ob s i) <> rPts (ob s j);
    iv_dup : forall i j, i < length (objs s) -> j < length (objs s) -> i <> j -> rDup (ob s i) <> rDup (ob s j);
    iv_pret : forall i j a l, i < length (objs s) -> j < length (objs s) -> rPre (ob s j) = Some (a, l) -> rTrs (ob s i) <> l;
    iv_top : forall i j, i < length (objs s) -> j < length (objs s) -> nth i dir true = false -> rIvl (ob s i) <> rTop (ob s j);
    iv_ivl : forall i j, i < length (objs s) -> j < length (objs s) -> i <> j -> nth i dir true = false -> rIvl (ob s i) <> rIvl (ob s j);
    iv_prei : forall i j a l, i < length (objs s) -> j < length (objs s) -> nth i dir true = false -> rPre (ob s j) = Some (a, l) -> rIvl (ob s i) <> a }.

  Lemma view_same (h h' : heap) (o : obj) :
    rdb h' (rTop o) = rdb h (rTop o) -> rdb h' (rIvl o) = rdb h (rIvl o) -> rdl h' (rTrs o) = rdl h (rTrs o) ->
    rdp h' (rPts o) = rdp h (rPts o) -> rdd h' (rDup o) = rdd h (rDup o) ->
    (forall a l, rPre o = Some (a, l) -> rdb h' a = rdb h a /\ rdl h' l = rdl h l) -> view h' o = view h o.
  Proof.
    intros H1 H2 H3 H4 H5 H6. unfold view. rewrite H1, H2, H3, H4, H5. destruct (rPre o) as [[a l]|] eqn:E; auto.
    destruct (H6 a l eq_refl) as [-> ->]. auto.
  Qed.

  Definition ext (h h' : heap) : Prop :=
    (exists x, hb h' = hb h ++ x) /\ (exists x, hl h' = hl h ++ x) /\ (exists x, hp h' = hp h ++ x) /\ (exists x, hd h' = hd h ++ x).
  Lemma view_ext (h h' : heap) (o : obj) : inb h o -> ext h h' -> view h' o = view h o.
  Proof.
    intros [] [[xb Eb] [[xl El] [[xp Ep] [xd Ed]]]].
    apply view_same; unfold rdb, rdl, rdp, rdd; rewrite ?Eb, ?El, ?Ep, ?Ed; try (apply app_nth1; auto).
    intros a l E. destruct (ib_pre0 a l E). split; apply app_nth1; auto.
  Qed.
  Lemma inb_ext (h h' : heap) (o : obj) : inb h o -> ext h h' -> inb h' o.
  Proof.
    intros [] [[xb Eb] [[xl El] [[xp Ep] [xd Ed]]]]. constructor; rewrite ?Eb, ?El, ?Ep, ?Ed, ?app_length; try lia; auto.
    intros a l E. destruct (ib_pre0 a l E). lia.
  Qed.
  Lemma map_upd {A B} (f : A -> B) l i v : map f (upd l i v) = upd (map f l) i (f v).
  Proof. revert i; induction l; intros [|i]; simpl; auto. f_equal; auto. Qed.

  Lemma nth_views (s : state) i : i < length (objs s) -> nth i (views s) dtint = view (hp_ s) (ob s i).
  Proof.
    intros H. unfold views, ob. rewrite nth_indep with (d' := view (hp_ s) dobj) by (rewrite map_length; auto). apply map_nth.
  Qed.
  Lemma map_view_ext (s : state) (h' : heap) : (forall i, i < length (objs s) -> inb (hp_ s) (ob s i)) -> ext (hp_ s) h' -> map (view h') (objs s) = views s.
  Proof.
    intros H He. unfold views. apply map_ext_in. intros o Ho. destruct (In_nth _ _ dobj Ho) as (i & Hi & <-).
    apply view_ext; auto. apply H; auto.
  Qed.
  (** views after replacing object i and possibly changing the heap: everything else unchanged *)
  Lemma views_upd (s : state) (h' : heap) i (o' : obj) t :
    i < length (objs s) -> (forall j, j < length (objs s) -> j <> i -> view h' (ob s j) = view (hp_ s) (ob s j)) ->
    view h' o' = t -> map (view h') (upd (objs s) i o') = upd (views s) i t.
  Proof.
    intros Hi Hj <-. apply nth_ext with dtint dtint; [rewrite map_length, !upd_length; unfold views; rewrite map_length; auto|].
    rewrite map_length, upd_length. intros k Hk.
    rewrite nth_indep with (d' := view h' dobj) by (rewrite map_length, upd_length; auto). rewrite map_nth.
    destruct (Nat.eq_dec k i).
    - subst. rewrite nth_upd_eq by auto. rewrite nth_upd_eq; auto. unfold views. rewrite map_length; auto.
    - rewrite !nth_upd_neq by auto. rewrite nth_views by auto. apply Hj; auto.
  Qed.
  Lemma views_same (s : state) (h' : heap) i t :
    i < length (objs s) -> (forall j, j < length (objs s) -> j <> i -> view h' (ob s j) = view (hp_ s) (ob s j)) ->
    view h' (ob s i) = t -> map (view h') (objs s) = upd (views s) i t.
  Proof.
    intros Hi Hj Ht. rewrite <- (views_upd s h' i (ob s i) t); auto. unfold ob. rewrite upd_nth. auto.
  Qed.

  Ltac refl_ext := unfold ext; cbn; repeat split; eexists; (reflexivity || (symmetry; apply app_nil_r) || (rewrite <- app_assoc; reflexivity)).

  Lemma ob_app (s : state) (h : heap) o i : ob (mkS h (objs s ++ [o])) i = if i <? length (objs s) then ob s i else if i =? length (objs s) then o else dobj.
  Proof.
    unfold ob; cbn [objs]. destruct (Nat.ltb_spec i (length (objs s))); [apply app_nth1; auto|]. rewrite app_nth2 by auto.
    destruct (Nat.eqb_spec i (length (objs s))). subst; rewrite Nat.sub_diag; auto.
    destruct (i - length (objs s)) as [|[|]] eqn:E; auto; lia.
  Qed.
  Lemma ob_upd (s : state) (h : heap) i o j : i < length (objs s) -> ob (mkS h (upd (objs s) i o)) j = if j =? i then o else ob s j.
  Proof.
    intros. unfold ob; cbn [objs]. destruct (Nat.eqb_spec j i); [subst; apply nth_upd_eq; auto|apply nth_upd_neq; auto].
  Qed.
  Lemma nth_dir_app dir b i : nth i (dir ++ [b]) true = if i <? length dir then nth i dir true else if i =? length dir then b else true.
  Proof.
    destruct (Nat.ltb_spec i (length dir)); [apply app_nth1; auto|]. rewrite app_nth2 by auto.
    destruct (Nat.eqb_spec i (length dir)). subst; rewrite Nat.sub_diag; auto.
    destruct (i - length dir) as [|[|]] eqn:E; auto; lia.
  Qed.

  (** adding a new object whose own arrays are fresh *)
  Lemma inv_new (s : state) dir (h' : heap) o b : inv s dir -> ext (hp_ s) h' -> inb h' o ->
    length (hl (hp_ s)) <= rTrs o -> length (hp (hp_ s)) <= rPts o -> length (hd (hp_ s)) <= rDup o ->
    (length (hb (hp_ s)) <= rIvl o) ->
    (b = false -> rIvl o <> rTop o /\ (forall a l, rPre o = Some (a,l) -> rIvl o <> a)) ->
    (rTop o < length (hb (hp_ s)) /\ (forall i, i < length (objs s) -> nth i dir true = false -> rIvl (ob s i) <> rTop o) \/ length (hb (hp_ s)) <= rTop o) ->
    (forall a l, rPre o = Some (a, l) -> length (hb (hp_ s)) <= a /\ length (hl (hp_ s)) <= l /\ rTrs o <> l) ->
    inv (mkS h' (objs s ++ [o])) (dir ++ [b]).
  Proof.
    intros [] He Ho Ht Hp Hd Hi Hb Htop Hpre.
    constructor; cbn [hp_ objs]; rewrite ?app_length, ?iv_len0; cbn [length]; auto;
      intros; rewrite ?ob_app in *; rewrite ?nth_dir_app, ?iv_len0 in *;
      repeat (match goal with
       | |- context[?i <? ?n] => destruct (Nat.ltb_spec i n)
       | H : context[?i <? ?n] |- _ => destruct (Nat.ltb_spec i n)
       | |- context[?i =? ?n] => destruct (Nat.eqb_spec i n)
       | H : context[?i =? ?n] |- _ => destruct (Nat.eqb_spec i n)
       end; try lia); subst; auto.
    all: try (eapply inb_ext; eauto; fail).
    all: repeat match goal with H : ?i < length (objs _) |- _ =>
           lazymatch goal with K : inb (hp_ _) (ob _ i) |- _ => fail | _ => pose proof (iv_inb0 i H) end end.
    all: repeat match goal with H : inb (hp_ _) _ |- _ => destruct H end.
    all: try lia.
    all: try (eauto; fail).
    all: try (match goal with H : rPre _ = Some _ |- _ => first [ specialize (Hpre _ _ H) | 
            match goal with K : forall a l, rPre _ = Some (a,l) -> _ < _ /\ _ < _ |- _ => specialize (K _ _ H) end ]; lia end).
    all: try (destruct Htop as [[? Htop]|]; [apply Htop; auto|lia]).
    all: try (destruct (Hb eq_refl) as [? ?]; eauto; try lia).
    all: try (destruct Htop as [[? Htop]|]; lia).
  Qed.

  (** changing flags only *)
  Lemma inv_flags (s : state) dir (h' : heap) i o' : inv s dir -> i < length (objs s) -> ext (hp_ s) h' ->
    rTop o' = rTop (ob s i) -> rTrs o' = rTrs (ob s i) -> rPts o' = rPts (ob s i) -> rDup o' = rDup (ob s i) ->
    rIvl o' = rIvl (ob s i) -> (oFin o' = true <-> rPre o' <> None) ->
    (rPre o' = rPre (ob s i) \/ exists a l, rPre o' = Some (a, l) /\ length (hb (hp_ s)) <= a < length (hb h') /\ length (hl (hp_ s)) <= l < length (hl h')) ->
    inv (mkS h' (upd (objs s) i o')) dir.
  Proof.
    intros [] Hi He H1 H2 H3 H4 H5 H6 H7.
    constructor; cbn [hp_ objs]; rewrite ?upd_length; auto; intros; rewrite ?ob_upd in * by auto.
    - destruct (Nat.eqb_spec i0 i); [subst|eapply inb_ext; eauto]. pose proof (inb_ext _ _ _ (iv_inb0 i Hi) He) as [].
      constructor; rewrite ?H1, ?H2, ?H3, ?H4, ?H5; auto. intros a l E.
      destruct H7 as [H7 | (a' & l' & H7 & ? & ?)]; [rewrite H7 in E; eauto|]. rewrite H7 in E. inversion E; subst. lia.
    - destruct (Nat.eqb_spec i0 i), (Nat.eqb_spec j i); subst; rewrite ?H2; auto; lia.
    - destruct (Nat.eqb_spec i0 i), (Nat.eqb_spec j i); subst; rewrite ?H3; auto; lia.
    - destruct (Nat.eqb_spec i0 i), (Nat.eqb_spec j i); subst; rewrite ?H4; auto; lia.
    - replace (rTrs (if i0 =? i then o' else ob s i0)) with (rTrs (ob s i0)) by (destruct (Nat.eqb_spec i0 i); subst; auto).
      destruct (Nat.eqb_spec j i); [subst|eauto]. destruct H7 as [H7 | (a' & l' & H7 & ? & ?)].
      + rewrite H7 in H8. eauto.
      + rewrite H7 in H8. inversion H8; subst. pose proof (iv_inb0 i0 H) as []. lia.
    - replace (rIvl (if i0 =? i then o' else ob s i0)) with (rIvl (ob s i0)) by (destruct (Nat.eqb_spec i0 i); subst; auto).
      replace (rTop (if j =? i then o' else ob s j)) with (rTop (ob s j)) by (destruct (Nat.eqb_spec j i); subst; auto). auto.
    - replace (rIvl (if i0 =? i then o' else ob s i0)) with (rIvl (ob s i0)) by (destruct (Nat.eqb_spec i0 i); subst; auto).
      replace (rIvl (if j =? i then o' else ob s j)) with (rIvl (ob s j)) by (destruct (Nat.eqb_spec j i); subst; auto). auto.
    - replace (rIvl (if i0 =? i then o' else ob s i0)) with (rIvl (ob s i0)) by (destruct (Nat.eqb_spec i0 i); subst; auto).
      destruct (Nat.eqb_spec j i); [subst|eauto]. destruct H7 as [H7 | (a' & l' & H7 & ? & ?)].
      + rewrite H7 in *. eauto.
      + match goal with E : rPre o' = Some _ |- _ => rewrite H7 in E; inversion E; subst end. pose proof (iv_inb0 i0 H) as []. lia.
  Qed.

  (** writing the heap without changing its layout *)
  Lemma inv_heap (s : state) dir (h' : heap) : inv s dir -> length (hb h') = length (hb (hp_ s)) -> length (hl h') = length (hl (hp_ s)) ->
    length (hp h') = length (hp (hp_ s)) -> length (hd h') = length (hd (hp_ s)) -> inv (mkS h' (objs s)) dir.
  Proof.
    intros [] E1 E2 E3 E4. constructor; cbn [hp_ objs]; auto. intros i Hi. destruct (iv_inb0 i Hi). unfold ob in *. cbn.
    constructor; rewrite ?E1, ?E2, ?E3, ?E4; auto.
  Qed.
  Lemma ext_refl (h : heap) : ext h h.
  Proof. unfold ext. repeat split; exists []; rewrite app_nil_r; auto. Qed.

  Lemma nth_fresh {A} (l : list A) v x d : nth (length l) (l ++ v :: x) d = v.
  Proof. rewrite app_nth2 by auto. rewrite Nat.sub_diag. auto. Qed.

  Lemma nth_fresh2 {A} (l : list A) u v d : nth (S (length l)) ((l ++ [u]) ++ [v]) d = v.
  Proof. rewrite <- app_assoc. rewrite app_nth2 by lia. replace (S (length l) - length l) with 1 by lia. reflexivity. Qed.

  Definition nextDir (dir : list bool) (c : op T) : list bool :=
    match c with ONew _ => dir ++ [true] | OCopy _ => dir ++ [false] | OSetIvl i _ => upd dir i false | _ => dir end.
  Definition legal (dir : list bool) (c : op T) : Prop :=
    match target c with None => True | Some i => i < length dir end /\
    match c with OAdd i _ => nth i dir true = false | _ => True end.

  Lemma step (s : state) dir c : inv s dir -> legal dir c -> inv (exec s c) (nextDir dir c) /\ views (exec s c) = fexec (views s) c.
  Proof.
    intros HI [Ht Hc]. pose proof HI as [].
    destruct c; cbn [target] in Ht; try rewrite iv_len0 in Ht; try pose proof (iv_inb0 i Ht) as Hb; cbn [nextDir fexec].
    - (* new *)
      cbn [exec]. assert (He : ext (hp_ s) (ald (alp (all_ (alb (hp_ s) b) []) (repeat (nlit 394555475981047 10000000000000000) (length b))) [])) by refl_ext.
      split.
      + apply inv_new; cbn; auto; try discriminate.
        constructor; cbn; rewrite ?app_length; cbn; try lia; try discriminate. split; [discriminate|congruence].
      + unfold views at 1. cbn [objs hp_]. rewrite map_app, map_view_ext by auto. f_equal.
        cbn [map]. unfold view, rdb, rdl, rdp, rdd; cbn. rewrite !nth_fresh. reflexivity.
    - (* copy *)
      cbn [exec]. rewrite nth_views by auto. destruct Hb as [].
      destruct (oFin (ob s i)) eqn:Ef; destruct (rPre (ob s i)) as [[a l]|] eqn:Ep;
        try (destruct ib_fin0 as [Hx Hy]; exfalso; first [apply (Hx eq_refl); reflexivity | assert (false = true) by (apply Hy; discriminate); discriminate]).
      + destruct (ib_pre0 a l eq_refl) as [Ha Hl].
        match goal with |- inv (mkS ?h' _) _ /\ _ => assert (He : ext (hp_ s) h') by refl_ext end. split.
        * apply inv_new; cbn; auto; try lia.
          -- constructor; cbn; rewrite ?app_length; cbn; try lia.
             ++ intros a' l' E. inversion E; subst. rewrite ?app_length; cbn. lia.
             ++ split; [discriminate|auto].
          -- intros _. split; [lia|]. intros a' l' E. inversion E; subst. lia.
          -- intros a' l' E. inversion E; subst. lia.
        * unfold views at 1. cbn [objs hp_]. rewrite map_app, map_view_ext by auto. f_equal.
          cbn [map]. f_equal. unfold copyT. unfold view at 1. cbn. rewrite Ef, Ep. unfold rdb, rdl, rdp, rdd. cbn.
          f_equal; try (rewrite <- ?app_assoc; apply nth_fresh).
          -- rewrite <- app_assoc. apply app_nth1. auto.
          -- apply nth_fresh2.
          -- apply nth_fresh2.
      + match goal with |- inv (mkS ?h' _) _ /\ _ => assert (He : ext (hp_ s) h') by refl_ext end. split.
        * apply inv_new; cbn; auto; try lia; try discriminate.
          -- constructor; cbn; rewrite ?app_length; cbn; try lia; try discriminate. split; [discriminate|congruence].
          -- intros _. split; [lia|]. discriminate.
        * unfold views at 1. cbn [objs hp_]. rewrite map_app, map_view_ext by auto. f_equal.
          cbn [map]. f_equal. unfold copyT. unfold view at 1. cbn. rewrite Ef. unfold rdb, rdl, rdp, rdd. cbn.
          f_equal; try apply nth_fresh. apply app_nth1. auto.
    - (* add *)
      cbn [exec]. rewrite nth_views by auto.
      destruct (anyInverted sub && canThrowOut (view (hp_ s) (ob s i))) eqn:Ei.
      + split.
        * apply inv_flags; cbn; auto; [apply ext_refl| apply Hb].
        * unfold views at 1. cbn [objs hp_]. apply views_upd; auto. unfold addTransform. rewrite Ei. reflexivity.
      + split.
        * apply inv_heap; auto; cbn; rewrite ?upd_length; auto.
        * unfold views at 1. cbn [objs hp_]. destruct Hb as [].
          apply views_same; auto.
          -- intros j Hj Hji. destruct (iv_inb0 j Hj) as []. apply view_same; unfold rdb, rdl, rdp, rdd; cbn; auto.
             ++ apply nth_upd_neq. apply iv_top0; auto.
             ++ apply nth_upd_neq. apply iv_ivl0; auto.
             ++ apply nth_upd_neq. apply iv_trs0; auto.
             ++ intros a l E. split; apply nth_upd_neq; eauto.
          -- unfold view at 1. unfold rdb, rdl, rdp, rdd; cbn. rewrite !nth_upd_eq by auto. rewrite nth_upd_neq by (apply iv_top0; auto).
             destruct (rPre (ob s i)) as [[a l]|] eqn:Ep.
             ++ rewrite nth_upd_neq by eauto. rewrite nth_upd_neq by eauto.
                unfold addTransform. rewrite Ei. cbn. rewrite Ep. reflexivity.
             ++ unfold addTransform. rewrite Ei. cbn. rewrite Ep. reflexivity.
    - (* startFinalStep *)
      cbn [exec]. rewrite nth_views by auto.
      match goal with |- inv (mkS ?h' _) _ /\ _ => assert (He : ext (hp_ s) h') by refl_ext end. split.
      + apply inv_flags; cbn; auto; [split; [discriminate|auto]|]. right. eexists _, _. split; [reflexivity|]. rewrite ?app_length; cbn. lia.
      + unfold views at 1. cbn [objs hp_]. apply views_upd; auto.
        * intros j Hj _. apply view_ext; auto.
        * destruct Hb as []. unfold view. unfold startFinalStep, rdb, rdl, rdp, rdd. cbn. rewrite !nth_fresh. rewrite !app_nth1 by auto. reflexivity.
    - (* nextTransformPoints *)
      cbn [exec]. rewrite nth_views by auto. split.
      + apply inv_heap; auto; cbn; rewrite ?upd_length; auto.
      + unfold views at 1. cbn [objs hp_]. apply views_same; auto.
        * intros j Hj Hji. apply view_same; unfold rdb, rdl, rdp, rdd; cbn; auto. apply nth_upd_neq. apply iv_pts0; auto.
        * destruct Hb as []. unfold view at 1. unfold rdb, rdl, rdp, rdd; cbn. rewrite nth_upd_eq by auto. reflexivity.
    - (* interval assignment *)
      cbn [exec]. rewrite nth_views by auto.
      match goal with |- inv (mkS ?h' _) _ /\ _ => assert (He : ext (hp_ s) h') by refl_ext end. split.
      + constructor; cbn [hp_ objs]; rewrite ?upd_length; auto; intros; rewrite ?ob_upd in * by auto.
        * destruct (Nat.eqb_spec i0 i); [subst|eapply inb_ext; eauto]. destruct Hb as [].
          constructor; cbn; rewrite ?app_length; cbn; auto; try lia. intros a l E. destruct (ib_pre0 a l E). lia.
        * destruct (Nat.eqb_spec i0 i), (Nat.eqb_spec j i); subst; cbn; auto; lia.
        * destruct (Nat.eqb_spec i0 i), (Nat.eqb_spec j i); subst; cbn; auto; lia.
        * destruct (Nat.eqb_spec i0 i), (Nat.eqb_spec j i); subst; cbn; auto; lia.
        * destruct (Nat.eqb_spec i0 i), (Nat.eqb_spec j i); subst; cbn in *; eauto.
        * pose proof (iv_inb0 i0 H) as []. pose proof (iv_inb0 j H0) as [].
          destruct (Nat.eqb_spec i0 i), (Nat.eqb_spec j i); subst; cbn in *; eauto; try lia; rewrite nth_upd_neq in * by auto; eauto.
        * pose proof (iv_inb0 i0 H) as []. pose proof (iv_inb0 j H0) as [].
          destruct (Nat.eqb_spec i0 i), (Nat.eqb_spec j i); subst; cbn in *; eauto; try lia; rewrite nth_upd_neq in * by auto; eauto.
        * pose proof (iv_inb0 i0 H) as []. pose proof (iv_inb0 j H0) as [].
          destruct (Nat.eqb_spec i0 i), (Nat.eqb_spec j i); subst; cbn in *;
            match goal with E : rPre (ob s _) = Some _ |- _ => rename E into Ep end;
            try (match goal with K : forall a l, rPre (ob s _) = Some (a,l) -> _ |- _ => pose proof (K _ _ Ep) end; lia);
            rewrite nth_upd_neq in * by auto; eauto.
      + unfold views at 1. cbn [objs hp_]. apply views_upd; auto.
        * intros j Hj _. apply view_ext; auto.
        * destruct Hb as []. unfold view. unfold setInterval, rdb, rdl, rdp, rdd. cbn. rewrite !nth_fresh. rewrite !app_nth1 by auto.
          destruct (rPre (ob s i)) as [[a l]|] eqn:Ep; auto. destruct (ib_pre0 a l eq_refl). rewrite app_nth1 by auto. reflexivity.
    - (* duplicates *)
      cbn [exec]. rewrite nth_views by auto. split.
      + apply inv_heap; auto; cbn; rewrite ?upd_length; auto.
      + unfold views at 1. cbn [objs hp_]. apply views_same; auto.
        * intros j Hj Hji. apply view_same; unfold rdb, rdl, rdp, rdd; cbn; auto. apply nth_upd_neq. apply iv_dup0; auto.
        * destruct Hb as []. unfold view at 1. unfold rdb, rdl, rdp, rdd; cbn. rewrite nth_upd_eq by auto. reflexivity.
    - cbn [exec]. rewrite nth_views by auto. split.
      + apply inv_flags; cbn; auto; [apply ext_refl| apply Hb].
      + unfold views at 1. cbn [objs hp_]. apply views_upd; auto.
    - cbn [exec]. rewrite nth_views by auto. split.
      + apply inv_flags; cbn; auto; [apply ext_refl| apply Hb].
      + unfold views at 1. cbn [objs hp_]. apply views_upd; auto.
    - cbn [exec]. rewrite nth_views by auto. split.
      + apply inv_flags; cbn; auto; [apply ext_refl| apply Hb].
      + unfold views at 1. cbn [objs hp_]. apply views_upd; auto.
  Qed.

  Lemma disciplined_cons dir c l : disciplined dir (c :: l) <-> legal dir c /\ disciplined (nextDir dir c) l.
  Proof. destruct c; cbn; unfold legal; cbn; tauto. Qed.

  Lemma run_gen l : forall s dir, inv s dir -> disciplined dir l ->
    views (fold_left exec l s) = fold_left fexec l (views s).
  Proof.
    induction l as [|c l IH]; intros s dir HI HD; auto. apply disciplined_cons in HD. destruct HD as [Hc HD].
    destruct (step s dir c HI Hc) as [H1 H2]. cbn [fold_left]. rewrite <- H2. eapply IH; eauto.
  Qed.
  Lemma inv0 : inv (@s0 T) [].
  Proof. constructor; cbn; auto; intros; lia. Qed.
  Lemma run_refines l : disciplined [] l -> views (run l) = frun l.
  Proof. intros. unfold run, frun. rewrite (run_gen l s0 []); auto. apply inv0. Qed.

  Lemma run_inv l : forall s dir, inv s dir -> disciplined dir l -> inv (fold_left exec l s) (fold_left nextDir l dir).
  Proof.
    induction l as [|c l IH]; intros s dir HI HD; auto. apply disciplined_cons in HD. destruct HD as [Hc HD].
    cbn [fold_left]. apply IH; auto. apply (step s dir c HI Hc).
  Qed.
  Lemma disciplined_app l : forall dir m, disciplined dir (l ++ m) <-> disciplined dir l /\ disciplined (fold_left nextDir l dir) m.
  Proof.
    induction l as [|c l IH]; intros; cbn [app fold_left]; [cbn; tauto|]. rewrite !disciplined_cons, IH. tauto.
  Qed.
End Proofs.
