(** * Lemmas about the model of Combined_Solver.solve *)
From Coq Require Import List Arith Bool ZArith Reals Lra Lia.
From Verif Require Import Num RSum Tensor PolySpec SystemSpec IntervalModel IntervalProofs SolverModel MergeProofs SolverProofs SolverProps CombinedModel CombinedSpec.
Import ListNotations.
Local Open Scope R_scope.

Notation tp := (@transformPt R R_num).
Lemma tp_R x a b : tp x a b = ((b - a) * x + (b + a)) / 2.
Proof. unfold transformPt. rewrite n2_R. reflexivity. Qed.
Lemma tp_mono x y a b : a <= b -> x <= y -> tp x a b <= tp y a b.
Proof. rewrite !tp_R. intros. apply Rmult_le_compat_r; [lra|]. apply Rplus_le_compat_r, Rmult_le_compat_l; lra. Qed.
Lemma tp_lo a b : tp (-1) a b = a. Proof. rewrite tp_R. field. Qed.
Lemma tp_hi a b : tp 1 a b = b. Proof. rewrite tp_R. field. Qed.
Lemma tp_onto a b x : a <= x <= b -> exists y, -1 <= y <= 1 /\ tp y a b = x.
Proof.
  intros H. destruct (Req_dec a b) as [->|Hne].
  - exists 0. split; [lra|]. rewrite tp_R. lra.
  - exists ((2 * x - a - b) / (b - a)). assert (0 < b - a) by lra. split.
    + split; [apply Rmult_le_reg_r with (b - a)|apply Rmult_le_reg_r with (b - a)]; auto; unfold Rdiv; rewrite Rmult_assoc, Rinv_l by lra; lra.
    + rewrite tp_R. field. lra.
Qed.
Lemma onto a : forall b x, length a = length b -> inBox (combine a b) x -> exists y, in_cube (length a) y /\ zip3 tp y a b = x.
Proof.
  induction a as [|u a IH]; intros [|v b] x HL H; try discriminate; cbn [combine] in H.
  - inversion H. exists []. repeat split; constructor.
  - inversion H as [|z p x' l Hz Hx]; subst. destruct (IH b x') as (y & [Hy1 Hy2] & E); auto. cbn in Hz.
    destruct (tp_onto u v z Hz) as (w & Hw & E2). exists (w :: y). split.
    + split; [cbn; auto|]. constructor; auto.
    + unfold zip3 in *. cbn [combine map fst snd]. rewrite E, E2. auto.
Qed.
Lemma image fi : forall y a b, length a = length fi -> ordered a b -> inBox fi y ->
  inBox (combine (zip3 tp (map fst fi) a b) (zip3 tp (map snd fi) a b)) (zip3 tp y a b).
Proof.
  induction fi as [|p fi IH]; intros y [|u a] [|v b] H1 [H2 H3] H; try discriminate; inversion H as [|z q y' l Hz Hy]; subst.
  - constructor.
  - cbn [combine] in H3. apply Forall_cons_iff in H3 as [H3 H4]. cbn in H3. unfold zip3. cbn [combine map fst snd]. constructor.
    + cbn [fst snd]. split; apply tp_mono; tauto.
    + apply IH; auto. split; auto.
Qed.
Lemma subBox_refl B : Forall (fun p => fst p <= snd p) B -> subBox B B.
Proof. induction 1; constructor; auto. repeat split; lra. Qed.
Lemma subBox_trans B : forall C D, subBox B C -> subBox C D -> subBox B D.
Proof.
  induction B as [|p B IH]; intros C D H1 H2; inversion H1; subst; inversion H2; subst; constructor; [|eapply IH; eauto]. lra.
Qed.
Lemma image_sub fi : forall a b, length a = length fi -> ordered a b -> Forall (fun p => -1 <= fst p /\ fst p <= snd p /\ snd p <= 1) fi ->
  subBox (combine (zip3 tp (map fst fi) a b) (zip3 tp (map snd fi) a b)) (combine a b).
Proof.
  induction fi as [|p fi IH]; intros [|u a] [|v b] H1 [H2 H3] H; try discriminate.
  - constructor.
  - cbn [combine] in H3. apply Forall_cons_iff in H3 as [H3 H4]. cbn in H3. apply Forall_cons_iff in H as [Hp H].
    unfold zip3. cbn [combine map fst snd]. constructor.
    + cbn [fst snd]. pose proof (tp_mono (-1) (fst p) u v H3 (proj1 Hp)) as A1. pose proof (tp_mono (snd p) 1 u v H3 (proj2 (proj2 Hp))) as A2. rewrite tp_lo in A1. rewrite tp_hi in A2.
      repeat split; auto. apply tp_mono; tauto.
    + apply IH; auto. split; auto.
Qed.
Lemma zip3_length {A} (f : R -> R -> R -> A) x a b : length a = length x -> length b = length x -> length (zip3 f x a b) = length x.
Proof. intros H1 H2. unfold zip3. rewrite map_length, !combine_length. lia. Qed.
Lemma bcast_same n (l : list R) : length l = n -> bcast n l = Some l.
Proof. intros <-. unfold bcast. rewrite Nat.eqb_refl. auto. Qed.

(** ** the split *)
Lemma splitBounds_length a b val : length b = length a -> length val = length a ->
  length (fst (@splitBounds R R_num a b val)) = length a /\ length (snd (@splitBounds R R_num a b val)) = length a.
Proof. intros H1 H2. unfold splitBounds. cbn [fst snd]. rewrite !map_length, !combine_length, !map_length, !combine_length. lia. Qed.
Lemma boolLists_length n : forall v, In v (boolLists n) -> length v = n.
Proof.
  induction n; cbn [boolLists]; intros v H.
  - destruct H as [<-|[]]. auto.
  - apply in_app_or in H as [H|H]; apply in_map_iff in H as (w & <- & Hw); cbn; f_equal; auto.
Qed.
Lemma boolLists_all n : forall v, length v = n -> In v (boolLists n).
Proof.
  induction n; intros [|[] v] H; try discriminate; cbn [boolLists]; [left; auto| |]; apply in_or_app; [right|left]; apply in_map, IHn; cbn in H; lia.
Qed.
Lemma split_cons u v a b c val : @splitBounds R R_num (u :: a) (v :: b) (c :: val) =
  ((if c then @splitPoint R R_num u v else u) :: fst (@splitBounds R R_num a b val), (if c then v else @splitPoint R R_num u v) :: snd (@splitBounds R R_num a b val)).
Proof. reflexivity. Qed.
(** every point of the box is in one of the parts *)
Lemma split_cover a : forall b x, length b = length a -> inBox (combine a b) x ->
  exists val, length val = length a /\ inBox (combine (fst (@splitBounds R R_num a b val)) (snd (@splitBounds R R_num a b val))) x.
Proof.
  induction a as [|u a IH]; intros [|v b] x HL H; try discriminate; cbn [combine] in H; inversion H as [|z p x' l Hz Hx]; subst.
  - exists []. split; [auto|constructor].
  - destruct (IH b x') as (val & H1 & H2); auto. cbn in Hz.
    destruct (Rle_dec (@splitPoint R R_num u v) z).
    + exists (true :: val). split; [cbn; auto|]. rewrite split_cons. cbn [fst snd combine]. constructor; auto. cbn [fst snd]. lra.
    + exists (false :: val). split; [cbn; auto|]. rewrite split_cons. cbn [fst snd combine]. constructor; auto. cbn [fst snd]. lra.
Qed.
Lemma split_sub a : forall b val, length b = length a -> length val = length a ->
  Forall (fun p => fst p <= @splitPoint R R_num (fst p) (snd p) <= snd p) (combine a b) ->
  subBox (combine (fst (@splitBounds R R_num a b val)) (snd (@splitBounds R R_num a b val))) (combine a b).
Proof.
  induction a as [|u a IH]; intros [|v b] [|c val] H1 H2 H; try discriminate.
  - constructor.
  - rewrite split_cons. cbn [fst snd combine] in *. apply Forall_cons_iff in H as [Hp H]. cbn [fst snd] in Hp. constructor; [|apply IH; auto].
    cbn [fst snd]. destruct c; repeat split; lra.
Qed.
(** if no part has its bounds in the wrong order, the split point is inside *)
Lemma split_mid a : forall b, length b = length a ->
  (forall val, length val = length a -> ordered (fst (@splitBounds R R_num a b val)) (snd (@splitBounds R R_num a b val))) ->
  Forall (fun p => fst p <= @splitPoint R R_num (fst p) (snd p) <= snd p) (combine a b).
Proof.
  induction a as [|u a IH]; intros [|v b] HL H; try discriminate; cbn [combine]; constructor.
  - cbn [fst snd]. pose proof (H (true :: repeat true (length a))) as Ht. pose proof (H (false :: repeat true (length a))) as Hf.
    rewrite split_cons in Ht, Hf. cbn [fst snd combine length] in Ht, Hf. rewrite repeat_length in Ht, Hf.
    destruct (Ht eq_refl) as [_ Ht']. destruct (Hf eq_refl) as [_ Hf']. cbn [combine] in Ht', Hf'. apply Forall_cons_iff in Ht' as [A _]. apply Forall_cons_iff in Hf' as [B _]. cbn [fst snd] in A, B. lra.
  - apply IH; auto. intros val Hv. destruct (H (true :: val)) as [A B]; [cbn; auto|]. rewrite split_cons in A, B. cbn [fst snd combine length] in A, B.
    apply Forall_cons_iff in B as [_ B]. split; auto.
Qed.

(** ** what a successful run looks like *)
Lemma cbind_ok {A B} (r : cres R A) (f : A -> cres R B) v : cbind r f = COk v -> exists a, r = COk a /\ f a = COk v.
Proof. destruct r; cbn; intros H; try discriminate. eauto. Qed.
Lemma gather_ok {A} (f : A -> cres R (cout R)) l : forall o, gather f l = COk o ->
  exists os, Forall2 (fun x o => f x = COk o) l os /\ cRoots o = flat_map cRoots os /\ cBoxes o = flat_map cBoxes os /\ cSearched o = flat_map cSearched os.
Proof.
  induction l as [|x l IH]; cbn [gather]; intros o H.
  - inversion H. exists []. repeat split; constructor.
  - apply cbind_ok in H as (o1 & H1 & H). apply cbind_ok in H as (o2 & H2 & H). inversion H; subst. destruct (IH o2 H2) as (os & K1 & K2 & K3 & K4).
    exists (o1 :: os). cbn [flat_map outApp cRoots cBoxes cSearched]. rewrite K2, K3, K4. repeat split. constructor; auto.
Qed.
Lemma ofRes_ok {A} (r : res A) (v : A) : @ofRes R A r = COk v -> r = Ok v.
Proof. destruct r; cbn; intros H; try discriminate. inversion H. auto. Qed.
Definition isCallable (f : fobj R) : bool := match f with NotCallable => false | _ => true end.

Section Runs.
  Variables (X : ext R) (approx : fobj R -> list R -> list R -> res (tensor R * R)) (exact : bool) (minSize : R) (sfuel : nat).
  Notation solve := (@csolve R R_num X approx exact minSize sfuel).

  (** A successful call: the bounds are in order, the approximations and the subdivision solver
      returned; then either every part of the split was solved, or every box was finished. *)
  Inductive runs : nat -> list (fobj R) -> list R -> list R -> cout R -> Prop :=
  | runs_split fuel l a b ps sol os : forallb isCallable l = true -> ordered a b ->
      @approxAll R R_num approx l a b = Ok ps ->
      @solveChebyshevSubdivision R R_num X sfuel (defaultOpts exact true true false) (map fst ps) (map snd ps) = Ok sol ->
      Forall (fun p => snd p - fst p > minSize) (combine a b) ->
      Forall2 (fun val o => runs fuel l (fst (@splitBounds R R_num a b val)) (snd (@splitBounds R R_num a b val)) o) (boolLists (length a)) os ->
      runs (S fuel) l a b (mkOut (flat_map (fun o => cRoots (dropEmpty o)) os) (flat_map (fun o => cBoxes (dropEmpty o)) os) ((a, b) :: flat_map cSearched os))
  | runs_finish fuel l a b ps sol os : forallb isCallable l = true -> ordered a b ->
      @approxAll R R_num approx l a b = Ok ps ->
      @solveChebyshevSubdivision R R_num X sfuel (defaultOpts exact true true false) (map fst ps) (map snd ps) = Ok sol ->
      Forall2 (fun t o => finishes fuel l a b t o) (sBoxes sol) os ->
      runs (S fuel) l a b (mkOut (flat_map cRoots os) (flat_map cBoxes os) ((a, b) :: flat_map cSearched os))
  with finishes : nat -> list (fobj R) -> list R -> list R -> tint R -> cout R -> Prop :=
  | finishes_again fuel l a b t a' b' o : bcast (length (@getFinalInterval R R_num t)) a = Some a' -> bcast (length (@getFinalInterval R R_num t)) b = Some b' ->
      runs fuel l (zip3 tp (map fst (@getFinalInterval R R_num t)) a' b') (zip3 tp (map snd (@getFinalInterval R R_num t)) a' b') o ->
      finishes fuel l a b t (dropEmpty o)
  | finishes_here fuel l a b t a' b' : bcast (length (@getFinalInterval R R_num t)) a = Some a' -> bcast (length (@getFinalInterval R R_num t)) b = Some b' ->
      Exists (fun p => snd (snd p) - fst (snd p) <= minSize * Rmax (Rmax (Rabs (fst (fst p))) (Rabs (snd (fst p)))) 1)
        (combine (combine a' b') (combine (zip3 tp (map fst (@getFinalInterval R R_num t)) a' b') (zip3 tp (map snd (@getFinalInterval R R_num t)) a' b'))) ->
      finishes fuel l a b t (mkOut (map (fun pt => zip3 tp pt a' b') (@rootsOf R R_num t))
        [combine (zip3 tp (map fst (@getFinalInterval R R_num t)) a' b') (zip3 tp (map snd (@getFinalInterval R R_num t)) a' b')] []).

  Lemma Forall2_impl_in {A B} (P Q : A -> B -> Prop) l m : Forall2 P l m -> (forall x y, In x l -> P x y -> Q x y) -> Forall2 Q l m.
  Proof. induction 1; intros HI; constructor; [apply HI; auto; left; auto|]. apply IHForall2. intros; apply HI; auto. right; auto. Qed.
  Lemma combine_map_l {A B C} (f : A -> C) (l : list A) (m : list B) : combine (map f l) m = map (fun p => (f (fst p), snd p)) (combine l m).
  Proof. revert m. induction l; intros [|]; cbn; auto. rewrite IHl. auto. Qed.
  Lemma forallb_false {A} (f : A -> bool) l : forallb f l = false -> Exists (fun x => f x = false) l.
  Proof. induction l; cbn; [discriminate|]. destruct (f a) eqn:E; cbn; intros H; [right; auto|left; auto]. Qed.
  Lemma Exists_map_l {A B} (f : A -> B) P l : Exists P (map f l) -> Exists (fun x => P (f x)) l.
  Proof. rewrite Exists_map. auto. Qed.

  Lemma csolve_runs fuel : forall l a b o, solve fuel l a b = COk o -> runs fuel l a b o.
  Proof.
    induction fuel as [|fuel IH]; intros l a b o H; [discriminate|]. cbn [csolve] in H.
    destruct (existsb _ l) eqn:E1; [discriminate|]. destruct (negb _) eqn:E2; [discriminate|]. destruct (existsb _ (combine a b)) eqn:E3; [discriminate|].
    assert (Hc : forallb isCallable l = true).
    { apply forallb_forall. intros f Hf. destruct f; auto. exfalso. enough (existsb (fun f : fobj R => match f with NotCallable => true | _ => false end) l = true) by congruence.
      apply existsb_exists. exists NotCallable. auto. }
    assert (Ho : ordered a b).
    { split; [apply negb_false_iff, Nat.eqb_eq in E2; auto|]. apply Forall_forall. intros p Hp. destruct (Rle_dec (fst p) (snd p)); auto.
      exfalso. enough (existsb (fun p => nltb (snd p) (fst p)) (combine a b) = true) by congruence. apply existsb_exists. exists p. split; auto.
      apply Rltb_true. lra. }
    apply cbind_ok in H as (ps & Hps & H). apply ofRes_ok in Hps. apply cbind_ok in H as (sol & Hsol & H). apply ofRes_ok in Hsol.
    cbv zeta in H. apply cbind_ok in H as (o' & Hg & H). inversion H; subst o. clear H.
    destruct (_ && _) eqn:E4 in Hg.
    - apply andb_prop in E4 as [_ E4]. apply gather_ok in Hg as (os & Hos & -> & -> & ->).
      assert (Hd : exists os', Forall2 (fun val o => solve fuel l (fst (@splitBounds R R_num a b val)) (snd (@splitBounds R R_num a b val)) = COk o) (boolLists (length a)) os' /\ os = map dropEmpty os').
      { clear - Hos. induction Hos as [|val o vs os H Hos IH].
        - exists []. split; auto.
        - destruct IH as (os' & A & ->). cbv beta in H. destruct (splitBounds a b val) as [na nb] eqn:E. apply cbind_ok in H as (o1 & H1 & H2). inversion H2; subst o.
          exists (o1 :: os'). split; auto. constructor; auto. rewrite E. auto. }
      destruct Hd as (os' & Hos' & ->). rewrite !flat_map_concat_map, !map_map, <- !flat_map_concat_map.
      assert (HS : flat_map (fun x : cout R => cSearched (dropEmpty x)) os' = flat_map cSearched os').
      { apply flat_map_ext. intros [r bb s]. unfold dropEmpty. cbn. destruct r; auto. }
      rewrite HS. apply (runs_split fuel l a b ps sol os'); auto.
      + apply Forall_forall. intros p Hp. rewrite forallb_forall in E4. specialize (E4 p Hp). unfold ngtb in E4. apply Rltb_true in E4. cbn in E4. lra.
      + eapply Forall2_impl_in; [exact Hos'|]. intros val o'' _ Ho''. apply IH; auto.
    - apply gather_ok in Hg as (os & Hos & -> & -> & ->). apply (runs_finish fuel l a b ps sol os); auto.
      eapply Forall2_impl_in; [exact Hos|]. intros t o'' _ Ht. unfold finish in Ht. cbv zeta in Ht.
      destruct (bcast _ a) as [a'|] eqn:Ea; [|discriminate]. destruct (bcast _ b) as [b'|] eqn:Eb; [|discriminate].
      destruct (forallb _ _) eqn:E5 in Ht.
      + apply cbind_ok in Ht as (o1 & H1 & H2). inversion H2. apply (finishes_again fuel l a b t a' b' o1); auto.
      + inversion Ht. apply finishes_here; auto. apply forallb_false in E5. rewrite combine_map_l in E5. apply Exists_map_l in E5.
        eapply Exists_impl; [|exact E5]. cbv beta. intros p Hp. cbn [fst snd] in Hp. unfold ngtb in Hp. apply Rltb_false in Hp. rewrite !nmax_R in Hp. exact Hp.
  Qed.
End Runs.

(** ** No root is lost; boxes; sizes *)
Lemma boxPoint_zip3 a b y : boxPoint a b y = zip3 tp y a b.
Proof. unfold boxPoint, zip3. apply map_ext. intros p. rewrite tp_R. auto. Qed.
Lemma Forall2_in_l {A B} (P : A -> B -> Prop) l m x : Forall2 P l m -> In x l -> exists y, In y m /\ P x y.
Proof. induction 1; intros H'; [destruct H'|]. destruct H' as [->|H']; [eexists; split; [left; eauto|auto]|]. destruct (IHForall2 H') as (z & ? & ?). exists z. split; auto. right; auto. Qed.
Lemma Forall2_in_r {A B} (P : A -> B -> Prop) l m y : Forall2 P l m -> In y m -> exists x, In x l /\ P x y.
Proof. induction 1; intros H'; [destruct H'|]. destruct H' as [->|H']; [eexists; split; [left; eauto|auto]|]. destruct (IHForall2 H') as (z & ? & ?). exists z. split; auto. right; auto. Qed.
Lemma flat_map_nil {A B} (f : A -> list B) l : flat_map f l = [] <-> Forall (fun x => f x = []) l.
Proof.
  induction l; cbn; split; intros H; auto.
  - apply app_eq_nil in H as [H1 H2]. constructor; auto. apply IHl; auto.
  - apply Forall_cons_iff in H as [-> H]. apply IHl; auto.
Qed.

Section Facts.
  Variables (X : ext R) (approx : fobj R -> list R -> list R -> res (tensor R * R)) (exact : bool) (minSize : R) (sfuel : nat).
  Notation runs := (runs X approx exact minSize sfuel).
  Notation finishes := (finishes X approx exact minSize sfuel).
  Notation approxFor := (@approxFor R R_num approx).

  Lemma approxAll_ok l a b : forall ps, @approxAll R R_num approx l a b = Ok ps -> Forall2 (fun f p => approxFor f a b = Ok p) l ps.
  Proof.
    induction l as [|f l IH]; cbn [approxAll]; intros ps H.
    - inversion H. constructor.
    - destruct (approxFor f a b) as [p| |] eqn:E; cbn [bindR] in H; try discriminate. destruct (approxAll approx l a b) as [qs| |]; cbn [bindR] in H; try discriminate.
      inversion H. constructor; auto.
  Qed.
  Lemma dropEmpty_roots (o : cout R) : cRoots (dropEmpty o) = cRoots o.
  Proof. unfold dropEmpty. destruct (cRoots o) eqn:E; auto. Qed.
  Lemma dropEmpty_searched (o : cout R) : cSearched (dropEmpty o) = cSearched o.
  Proof. unfold dropEmpty. destruct (cRoots o) eqn:E; auto. Qed.
  Lemma dropEmpty_boxes (o : cout R) : (cRoots o = [] <-> cBoxes o = []) -> cBoxes (dropEmpty o) = cBoxes o.
  Proof. unfold dropEmpty. intros H. destruct (cRoots o) eqn:E; auto. symmetry. apply H; auto. Qed.
  Definition emptyTogether (o : cout R) : Prop := cRoots o = [] <-> cBoxes o = [].
  Lemma drop_empty o : emptyTogether o -> emptyTogether (dropEmpty o).
  Proof. intros H. unfold emptyTogether. rewrite dropEmpty_roots, dropEmpty_boxes by auto. exact H. Qed.
  Lemma flat_empty os : Forall emptyTogether os -> (flat_map cRoots os = [] <-> flat_map cBoxes os = []).
  Proof.
    intros H. rewrite !flat_map_nil. split; intros H'; rewrite Forall_forall in *; intros x Hx; apply (H x Hx); auto.
  Qed.
  Lemma flat_drop {A} (g : cout R -> list A) os : flat_map (fun o => g (dropEmpty o)) os = flat_map g (map dropEmpty os).
  Proof. rewrite !flat_map_concat_map, map_map. auto. Qed.
  Lemma runs_empty fuel : forall l a b o, runs fuel l a b o -> emptyTogether o.
  Proof.
    induction fuel as [|fuel IH]; intros l a b o H; inversion H; subst.
    - unfold emptyTogether. cbn [cRoots cBoxes]. rewrite !flat_drop. apply flat_empty. apply Forall_forall. intros o' Ho. apply in_map_iff in Ho as (o1 & <- & Ho).
      match goal with F : Forall2 _ _ os |- _ => destruct (Forall2_in_r _ _ _ _ F Ho) as (val & _ & Hr) end. apply drop_empty. apply (IH _ _ _ _ Hr).
    - unfold emptyTogether. cbn [cRoots cBoxes]. apply flat_empty. apply Forall_forall. intros o' Ho.
      match goal with F : Forall2 _ _ os |- _ => destruct (Forall2_in_r _ _ _ _ F Ho) as (t & _ & Hr) end. inversion Hr; subst.
      + apply drop_empty. eapply IH; eauto.
      + unfold emptyTogether. cbn [cRoots cBoxes]. split; [|discriminate]. intros E. apply map_eq_nil in E. exfalso. apply (rootsOf_ne t E).
  Qed.
  Lemma runs_ordered fuel l a b o : runs fuel l a b o -> ordered a b.
  Proof. intros H. inversion H; auto. Qed.

  (** every approximation used on a searched box is good *)
  Definition usedOK (P : fobj R -> list R -> list R -> tensor R -> R -> Prop) (l : list (fobj R)) (o : cout R) : Prop :=
    forall a b f M e, In (a, b) (cSearched o) -> In f l -> approxFor f a b = Ok (M, e) -> P f a b M e.

  Section Sys.
  Variables (n : nat) (l : list (fobj R)).
  Hypothesis (HX : externalsOK n X) (Hnl : (0 < n)%nat /\ length l = n).
  Lemma shapes a b ps : (forall f M e, In f l -> approxFor f a b = Ok (M, e) -> goodShape exact n M) ->
    @approxAll R R_num approx l a b = Ok ps -> squareSystem n (map fst ps) (map snd ps) /\ sizesOK exact (map fst ps).
  Proof.
    intros HP H. destruct Hnl as [Hn Hl]. apply approxAll_ok in H. assert (HL : length ps = n). { rewrite <- Hl. clear - H. induction H; cbn; auto. }
    assert (HF : forall M, In M (map fst ps) -> goodShape exact n M).
    { intros M HM. apply in_map_iff in HM as ([M' e] & <- & Hin). destruct (Forall2_in_r _ _ _ _ H Hin) as (f & Hf & E). apply (HP f M' e); auto. }
    split.
    - split; auto. rewrite !map_length. split; auto. split; auto. apply Forall_forall. intros M HM. destruct (HF M HM) as (H1 & H2 & _). auto.
    - apply Forall_forall. intros M HM. apply (HF M HM).
  Qed.
  Lemma bounds_of a b ps : (forall f M e, In f l -> approxFor f a b = Ok (M, e) -> closeOn exact n f a b M e) ->
    @approxAll R R_num approx l a b = Ok ps -> errorBounds (n <=? 3)%nat n (fun i y => valueOf (nth i l NotCallable) (boxPoint a b y)) (map fst ps) (map snd ps).
  Proof.
    intros HP H. destruct Hnl as [Hn Hl]. apply approxAll_ok in H. intros i Hi y Hy. rewrite <- Hl in Hi.
    assert (E : exists M e, nth i (map fst ps) noT = M /\ nth i (map snd ps) 0 = e /\ approxFor (nth i l NotCallable) a b = Ok (M, e)).
    { clear - H Hi. revert i Hi. induction H as [|f [M e] l ps E H IH]; intros [|i] Hi; cbn in *; try lia; [eauto|]. apply IH. lia. }
    destruct E as (M & e & -> & -> & E). destruct (HP _ M e (nth_In l NotCallable Hi) E) as [_ H']. apply H'. auto.
  Qed.
  Lemma quadOnly : quadraticChecksOn (defaultOpts exact true true false) n = (n <=? 3)%nat.
  Proof. unfold quadraticChecksOn. cbn. apply orb_false_r. Qed.

  Lemma no_loss fuel : forall a b o, runs fuel l a b o -> length a = n -> usedOK (closeOn exact n) l o ->
    forall x, inBox (combine a b) x -> commonZero l x -> exists B, In B (cBoxes o) /\ inBox B x.
  Proof.
    induction fuel as [|fuel IH]; intros a b o H; inversion H as [? ? ? ? ps sol os Hc Ho Hps Hs Hbig Hos|? ? ? ? ps sol os Hc Ho Hps Hs Hos]; subst; intros Ha HU x Hx Hz.
    - destruct (split_cover a b x) as (val & Hv & Hxv); [symmetry; apply Ho|auto|].
      destruct (Forall2_in_l _ _ _ val Hos (boolLists_all _ _ Hv)) as (o1 & Ho1 & Hr).
      destruct (IH _ _ _ Hr) with (x := x) as (B & HB & HBx); auto.
      + rewrite (proj1 (splitBounds_length a b val (eq_sym (proj1 Ho)) Hv)). auto.
      + intros a' b' f M e Hin. apply HU. right. cbn [cSearched]. apply in_flat_map. eauto.
      + exists B. split; auto. cbn [cBoxes]. apply in_flat_map. exists o1. split; auto. rewrite dropEmpty_boxes; auto. apply (runs_empty _ _ _ _ _ Hr).
    - assert (HP : forall f M e, In f l -> approxFor f a b = Ok (M, e) -> closeOn exact n f a b M e) by (intros; eapply HU; eauto; left; auto).
      destruct (shapes a b ps) as [Hsq Hsz]; auto. { intros f M e Hf E. apply (HP f M e Hf E). }
      destruct (onto a b x (proj1 Ho) Hx) as (y & Hy & Exy). rewrite Ha in Hy.
      destruct (C01_no_root_is_lost n X sfuel (defaultOpts exact true true false) _ _ sol (fun i y => valueOf (nth i l NotCallable) (boxPoint a b y)) HX Hsq Hsz) with (x := y) as (t & Ht & Hty); auto.
      { rewrite quadOnly. apply bounds_of; auto. }
      { split; auto. intros i Hi. rewrite boxPoint_zip3, Exy. apply Hz. apply nth_In. rewrite (proj2 Hnl). auto. }
      destruct (C03_roots_lie_in_their_boxes n X sfuel (defaultOpts exact true true false) _ _ sol HX Hsq Hsz Hs) as [Hb _]. destruct (Hb t Ht) as [Hlen Hin].
      destruct (Forall2_in_l _ _ _ t Hos Ht) as (o1 & Ho1 & Hr).
      assert (Hb1 : length b = n) by (rewrite <- (proj1 Ho); auto).
      assert (Him := image _ y a b (eq_trans Ha (eq_sym Hlen)) Ho Hty). rewrite Exy in Him.
      clear H. inversion Hr as [? ? ? ? ? a' b' o2 Ea Eb Hr2 E1 E2 E3 E4 E5 E6|? ? ? ? ? a' b' Ea Eb Hsm E1 E2 E3 E4 E5 E6]; clear E1 E2 E3 E4 E5; subst o1; rewrite bcast_same in Ea, Eb by lia; inversion Ea; inversion Eb; subst a' b'.
      + assert (Hdb := dropEmpty_boxes o2 (runs_empty _ _ _ _ _ Hr2)).
        destruct (IH _ _ _ Hr2) with (x := x) as (B & HB & HBx); auto.
        * rewrite zip3_length; rewrite map_length; lia.
        * intros a' b' f M e Hin2. apply HU. right. cbn [cSearched]. apply in_flat_map. eexists; split; [exact Ho1|]. rewrite dropEmpty_searched. auto.
        * exists B. split; auto. cbn [cBoxes]. apply in_flat_map. eexists; split; [exact Ho1|]. rewrite Hdb. auto.
      + eexists. split; [|exact Him]. cbn [cBoxes]. apply in_flat_map. eexists; split; [exact Ho1|]. left; auto.
  Qed.

  (** the returned points are grouped by box, and the boxes lie in the search box *)
  Definition grouped (a b : list R) (minS : R) (o : cout R) : Prop :=
    exists groups, concat groups = cRoots o /\
      Forall2 (fun B g => subBox B (combine a b) /\ g <> [] /\ Forall (fun r => inBox B r) g /\
         (0 <= minS -> Exists (fun p => snd (snd p) - fst (snd p) <= minS * Rmax (Rmax (Rabs (fst (fst p))) (Rabs (snd (fst p)))) 1) (combine (combine a b) B))) (cBoxes o) groups.
  Lemma Exists_sub minS B : forall a b a' b', subBox (combine a' b') (combine a b) -> 0 <= minS ->
    Exists (fun p => snd (snd p) - fst (snd p) <= minS * Rmax (Rmax (Rabs (fst (fst p))) (Rabs (snd (fst p)))) 1) (combine (combine a' b') B) ->
    Exists (fun p => snd (snd p) - fst (snd p) <= minS * Rmax (Rmax (Rabs (fst (fst p))) (Rabs (snd (fst p)))) 1) (combine (combine a b) B).
  Proof.
    intros a b a' b' Hs Hm. revert B. induction Hs as [|p q P Q Hpq Hs IH]; intros B H; cbn [combine] in *; [auto|].
    destruct B as [|r B]; [inversion H|]. apply Exists_cons in H. destruct H as [H|H]; [left|right; auto]. cbn [fst snd] in *. eapply Rle_trans; [exact H|].
    apply Rmult_le_compat_l; auto. assert (Rmax (Rabs (fst p)) (Rabs (snd p)) <= Rmax (Rabs (fst q)) (Rabs (snd q))).
    { apply Rmax_lub; unfold Rmax, Rabs; repeat destruct (Rle_dec _ _); repeat destruct (Rcase_abs _); lra. }
    apply Rle_max_compat_r; auto.
  Qed.
  Lemma grouped_sub minS a b a' b' o : subBox (combine a' b') (combine a b) -> grouped a' b' minS o -> grouped a b minS o.
  Proof.
    intros Hs (g & E & HF). exists g. split; auto. eapply Forall2_impl_in; [exact HF|]. cbv beta. intros B g' _ (A1 & A2 & A3 & A4). split; [eapply subBox_trans; eauto|]. split; auto. split; auto.
    intros Hm. eapply Exists_sub; eauto.
  Qed.
  Lemma grouped_flat minS a b os s : Forall (grouped a b minS) os -> grouped a b minS (mkOut (flat_map cRoots os) (flat_map cBoxes os) s).
  Proof.
    induction 1 as [|o os (g & E & HF) Hos (gs & Es & HFs)]; cbn [flat_map].
    - exists []. split; auto. constructor.
    - exists (g ++ gs). cbn [cRoots cBoxes] in *. rewrite concat_app, E, Es. split; auto. apply Forall2_app; auto.
  Qed.
  Lemma grouped_drop minS a b o : emptyTogether o -> grouped a b minS o -> grouped a b minS (dropEmpty o).
  Proof. intros He (g & E & HF). exists g. rewrite dropEmpty_roots, dropEmpty_boxes by exact He. auto. Qed.
  Lemma runs_grouped fuel : forall a b o, runs fuel l a b o -> length a = n -> usedOK (fun _ _ _ M _ => goodShape exact n M) l o -> grouped a b minSize o.
  Proof.
    induction fuel as [|fuel IH]; intros a b o H; inversion H as [? ? ? ? ps sol os Hc Ho Hps Hs Hbig Hos|? ? ? ? ps sol os Hc Ho Hps Hs Hos]; subst; intros Ha HU.
    - rewrite !flat_drop. apply grouped_flat. apply Forall_forall. intros o' Ho'. apply in_map_iff in Ho' as (o1 & <- & Ho1).
      destruct (Forall2_in_r _ _ _ _ Hos Ho1) as (val & Hv & Hr). apply boolLists_length in Hv.
      apply grouped_drop; [apply (runs_empty _ _ _ _ _ Hr)|].
      eapply grouped_sub; [|apply (IH _ _ _ Hr)].
      + apply split_sub; auto; [symmetry; apply Ho|]. apply split_mid; [symmetry; apply Ho|]. intros v Hv'. destruct (Forall2_in_l _ _ _ v Hos (boolLists_all _ _ Hv')) as (o2 & _ & Hr2). apply (runs_ordered _ _ _ _ _ Hr2).
      + rewrite (proj1 (splitBounds_length a b val (eq_sym (proj1 Ho)) Hv)). auto.
      + intros a' b' f M e Hin. apply HU. right. cbn [cSearched]. apply in_flat_map. eauto.
    - destruct (shapes a b ps) as [Hsq Hsz]; auto. { intros f M e Hf E. apply (HU a b f M e); auto. left; auto. }
      destruct (C03_roots_lie_in_their_boxes n X sfuel (defaultOpts exact true true false) _ _ sol HX Hsq Hsz Hs) as [Hb _].
      destruct (solve_good X n (defaultOpts exact true true false) sfuel _ _ sol HX Hsq Hsz Hs) as (i & e & Ebx & _ & G). destruct (G i e eq_refl) as [R1 _].
      assert (Hb1 : length b = n) by (rewrite <- (proj1 Ho); auto).
      apply grouped_flat. apply Forall_forall. intros o' Ho'. destruct (Forall2_in_r _ _ _ _ Hos Ho') as (t & Ht & Hr).
      destruct (Hb t Ht) as [Hlen Hin].
      clear H. inversion Hr as [? ? ? ? ? a' b' o2 Ea Eb Hr2 E1 E2 E3 E4 E5 E6|? ? ? ? ? a' b' Ea Eb Hsm E1 E2 E3 E4 E5 E6]; clear E1 E2 E3 E4 E5; subst o'; rewrite bcast_same in Ea, Eb by lia; inversion Ea; inversion Eb; subst a' b'.
      + apply grouped_drop; [apply (runs_empty _ _ _ _ _ Hr2)|]. eapply grouped_sub; [apply image_sub|apply (IH _ _ _ Hr2)]; eauto; try lia.
        * rewrite zip3_length; rewrite map_length; lia.
        * intros a' b' f M e' Hin2. apply HU. right. cbn [cSearched]. apply in_flat_map. eexists; split; [exact Ho'|]. rewrite dropEmpty_searched. auto.
      + assert (Ht' : In t (i ++ e)) by (rewrite <- Ebx; auto). destruct (R1 t Ht') as [T1 T2].
        exists [map (fun pt => zip3 tp pt a b) (@rootsOf R R_num t)]. cbn [cRoots cBoxes concat]. rewrite app_nil_r. split; auto. constructor; [|constructor].
        split; [|split; [|split; [|auto]]].
        * apply image_sub; auto. lia.
        * intros E. apply map_eq_nil in E. apply (rootsOf_ne t E).
        * apply Forall_forall. intros r Hr3. apply in_map_iff in Hr3 as (pt & <- & Hpt). apply image; auto; [lia|].
          assert (HF : Forall (fun r => inBox (@finalBox R R_num (unitBox n) (bt t)) r) (@rootsOf R R_num t)) by (apply (rootsOf_in n); auto).
          rewrite (final_cbox n), (cbox_final n) by auto. rewrite Forall_forall in HF. apply HF; auto.
  Qed.
  End Sys.
End Facts.

(** ** searched boxes, and where a ValueError can come from *)
Lemma subBox_ordered a b a' b' : length a' = length b' -> subBox (combine a' b') (combine a b) -> ordered a' b'.
Proof.
  intros HL H. split; auto. induction H; constructor; auto. tauto.
Qed.
Lemma gather_stop {A} (f : A -> cres R (cout R)) l : forall r, gather f l = r ->
  (exists o, r = COk o) \/ exists x, In x l /\ f x = r.
Proof.
  induction l as [|x l IH]; cbn [gather]; intros r H; [left; eauto|].
  destruct (f x) as [o1| | |a b| |] eqn:E; cbn [cbind] in H; try (right; exists x; split; [left; auto|congruence]).
  destruct (IH _ eq_refl) as [(o2 & E2)|(y & Hy & E2)].
  - rewrite E2 in H. cbn [cbind] in H. left. eauto.
  - destruct (gather f l) eqn:E3; cbn [cbind] in H; try (right; exists y; split; [right; auto|congruence]). left; eauto.
Qed.
(** the box [a2,b2] is a part of the split of a box in order, whose split point is outside *)
Definition badPart (n : nat) (a2 b2 : list R) : Prop :=
  exists a1 b1 val, length a1 = n /\ ordered a1 b1 /\ length val = n /\ @splitBounds R R_num a1 b1 val = (a2, b2) /\
    ~ Forall (fun p => fst p <= @splitPoint R R_num (fst p) (snd p) <= snd p) (combine a1 b1).
Section Stop.
  Variables (X : ext R) (approx : fobj R -> list R -> list R -> res (tensor R * R)) (exact : bool) (minSize : R) (sfuel : nat).
  Variables (n : nat) (l : list (fobj R)).
  Hypothesis (HX : externalsOK n X) (Hnl : (0 < n)%nat /\ length l = n).
  Notation solve := (@csolve R R_num X approx exact minSize sfuel).
  Notation approxFor := (@approxFor R R_num approx).
  Notation runs := (runs X approx exact minSize sfuel).

  Lemma searched_in fuel : forall a b o, runs fuel l a b o -> length a = n -> usedOK approx (fun _ _ _ M _ => goodShape exact n M) l o ->
    forall a' b', In (a', b') (cSearched o) -> ordered a' b' /\ subBox (combine a' b') (combine a b).
  Proof.
    induction fuel as [|fuel IH]; intros a b o H; inversion H as [? ? ? ? ps sol os Hc Ho Hps Hs Hbig Hos|? ? ? ? ps sol os Hc Ho Hps Hs Hos]; subst; intros Ha HU a' b' [E|Hin];
      try (inversion E; subst a' b'; split; [auto|apply subBox_refl, Ho]).
    - apply in_flat_map in Hin as (o1 & Ho1 & Hin). destruct (Forall2_in_r _ _ _ _ Hos Ho1) as (val & Hv & Hr). apply boolLists_length in Hv.
      destruct (IH _ _ _ Hr) with (a' := a') (b' := b') as [A1 A2]; auto.
      + rewrite (proj1 (splitBounds_length a b val (eq_sym (proj1 Ho)) Hv)). auto.
      + intros a2 b2 f M e Hin2. apply HU. right. cbn [cSearched]. apply in_flat_map. eauto.
      + split; auto. eapply subBox_trans; [exact A2|]. apply split_sub; auto; [symmetry; apply Ho|]. apply split_mid; [symmetry; apply Ho|]. intros v Hv'.
        destruct (Forall2_in_l _ _ _ v Hos (boolLists_all _ _ Hv')) as (o2 & _ & Hr2). eapply runs_ordered; exact Hr2.
    - apply in_flat_map in Hin as (o1 & Ho1 & Hin).
      destruct (shapes approx exact n l Hnl a b ps) as [Hsq Hsz]; auto. { intros f M e Hf E. apply (HU a b f M e); auto. left; auto. }
      destruct (C03_roots_lie_in_their_boxes n X sfuel (defaultOpts exact true true false) _ _ sol HX Hsq Hsz Hs) as [Hb _].
      assert (Hb1 : length b = n) by (rewrite <- (proj1 Ho); auto).
      destruct (Forall2_in_r _ _ _ _ Hos Ho1) as (t & Ht & Hr). destruct (Hb t Ht) as [Hlen Hbx]. clear H.
      inversion Hr as [? ? ? ? ? a2 b2 o2 Ea Eb Hr2 E1 E2 E3 E4 E5 E6|? ? ? ? ? a2 b2 Ea Eb Hsm E1 E2 E3 E4 E5 E6]; clear E1 E2 E3 E4 E5; subst o1; rewrite bcast_same in Ea, Eb by lia; inversion Ea; inversion Eb; subst a2 b2; [|destruct Hin].
      rewrite dropEmpty_searched in Hin.
      destruct (IH _ _ _ Hr2) with (a' := a') (b' := b') as [A1 A2]; auto.
      + rewrite zip3_length; rewrite map_length; lia.
      + intros a2 b2 f M e Hin2. apply HU. right. cbn [cSearched]. apply in_flat_map. eexists; split; [exact Ho1|]. rewrite dropEmpty_searched. auto.
      + split; auto. eapply subBox_trans; [exact A2|]. apply image_sub; auto. lia.
  Qed.

  Hypothesis Hshape : forall f a b M e, In f l -> ordered a b -> length a = n -> approxFor f a b = Ok (M, e) -> goodShape exact n M.
  Hypothesis Hcall : forallb isCallable l = true.
  Lemma callable_test : existsb (fun f : fobj R => match f with NotCallable => true | _ => false end) l = false.
  Proof.
    clear - Hcall. induction l as [|f r IH]; auto. cbn in *. apply andb_prop in Hcall as [H1 H2]. rewrite IH by auto. destruct f; [discriminate| | |]; auto.
  Qed.
  Lemma order_test a b : existsb (fun p : R * R => nltb (snd p) (fst p)) (combine a b) = false -> Forall (fun p => fst p <= snd p) (combine a b).
  Proof.
    intros H. apply Forall_forall. intros p Hp. destruct (Rle_dec (fst p) (snd p)); auto.
    exfalso. enough (existsb (fun p => nltb (snd p) (fst p)) (combine a b) = true) by congruence. apply existsb_exists. exists p. split; auto. apply Rltb_true. lra.
  Qed.
  Lemma order_test_iff a b : existsb (fun p : R * R => nltb (snd p) (fst p)) (combine a b) = true <-> ~ Forall (fun p => fst p <= snd p) (combine a b).
  Proof.
    split.
    - intros H HF. apply existsb_exists in H as (p & Hp & Hl). apply Rltb_true in Hl. rewrite Forall_forall in HF. specialize (HF p Hp). lra.
    - intros H. destruct (existsb _ _) eqn:E; auto. exfalso. apply H, order_test, E.
  Qed.
  Lemma stops fuel : forall a b, ordered a b -> length a = n ->
    match solve fuel l a b with COk _ | CInner | CFuel => True | CInverted a2 b2 => badPart n a2 b2 | CNotCallable | CBadLengths => False end.
  Proof.
    induction fuel as [|fuel IH]; intros a b Ho Ha; [exact I|]. cbn [csolve]. rewrite callable_test. rewrite (proj1 Ho), Nat.eqb_refl. cbn [negb].
    destruct (existsb _ (combine a b)) eqn:E1. { apply order_test_iff in E1. destruct Ho as [_ Ho]. contradiction. }
    destruct (approxAll approx l a b) as [ps| |] eqn:Eps; cbn [ofRes cbind]; auto.
    destruct (solveChebyshevSubdivision _ _ _ _ _) as [sol| |] eqn:Esol; cbn [ofRes cbind]; auto. cbv zeta.
    destruct (shapes approx exact n l Hnl a b ps) as [Hsq Hsz]; auto. { intros f M e Hf E. apply (Hshape f a b M e); auto. }
    destruct (C03_roots_lie_in_their_boxes n X sfuel (defaultOpts exact true true false) _ _ sol HX Hsq Hsz Esol) as [Hb _].
    assert (Hb1 : length b = n) by (rewrite <- (proj1 Ho); auto).
    destruct (_ && _).
    - match goal with |- context [gather ?f ?l0] => destruct (gather_stop f l0 _ eq_refl) as [(o & ->)|(val & Hv & Es)]; [exact I|] end.
      rewrite <- Es. clear Es. apply boolLists_length in Hv. destruct (splitBounds_length a b val) as [L1 L2]; auto; [lia|lia|].
      destruct (splitBounds a b val) as [na nb] eqn:Esp. cbn [fst snd] in L1, L2.
      destruct (existsb (fun p : R * R => nltb (snd p) (fst p)) (combine na nb)) eqn:E2.
      + assert (Hbp : badPart n na nb).
        { exists a, b, val. split; auto. split; auto. split; [lia|]. split; auto. intros HF. apply order_test_iff in E2. apply E2.
          pose proof (split_sub a b val ltac:(lia) ltac:(lia) HF) as S. rewrite Esp in S. cbn [fst snd] in S. apply subBox_ordered in S; [apply S|lia]. }
        destruct fuel as [|fuel]; [exact I|]. cbn [csolve]. rewrite callable_test, L1, L2, Nat.eqb_refl. cbn [negb]. rewrite E2. exact Hbp.
      + pose proof (IH na nb (conj (eq_trans L1 (eq_sym L2)) (order_test _ _ E2)) (eq_trans L1 Ha)) as HI. destruct (solve fuel l na nb); cbn [cbind]; auto.
    - match goal with |- context [gather ?f ?l0] => destruct (gather_stop f l0 _ eq_refl) as [(o & ->)|(t & Ht & Es)]; [exact I|] end.
      rewrite <- Es. clear Es. destruct (Hb t Ht) as [Hlen Hbx]. unfold finish. cbv zeta. rewrite !bcast_same by lia. match goal with |- context [forallb ?f ?m] => destruct (forallb f m); [|exact I] end.
      assert (Hs := image_sub _ a b (eq_trans Ha (eq_sym Hlen)) Ho Hbx). apply subBox_ordered in Hs; [|rewrite !zip3_length; rewrite ?map_length; lia].
      pose proof (IH _ _ Hs ltac:(rewrite zip3_length; rewrite ?map_length; lia)) as HI. destruct (csolve _ _ _ _ _ fuel l _ _); cbn [cbind]; auto.
  Qed.
End Stop.
