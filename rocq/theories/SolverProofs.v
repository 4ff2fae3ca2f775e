(** * The recursive solver keeps every root (over the reals) *)
From Coq Require Import List Arith Bool Lia ZArith Reals Lra.
From Verif Require Import Num RSum Cheb Tensor PolySpec TransformModel TransformChebProofs IntervalModel IntervalProofs
  LinearModel LinearProofs QuadModel QuadProofs Quad3Proofs QuadNdProofs QuadNdFaces
  SolverModel SystemSpec TrimProofs OrderProofs SubdivProofs SubdivReal ZoomProofs MergeProofs.
Import ListNotations.
Local Open Scope R_scope.

Lemma quad_any rk sv (M : tensor R) tol nd (g : list R -> R) : sym_solver_ok (ndim M) rk sv -> wf M ->
  @quadratic_check R R_num rk sv M tol nd = true ->
  (forall x, in_cube (ndim M) x -> Rabs (g x - cheb_eval M x) < tol) -> forall x, in_cube (ndim M) x -> g x <> 0.
Proof.
  intros Hor Hwf Hq. unfold quadratic_check in Hq.
  destruct ((ndim M =? 2)%nat && negb nd) eqn:E2; [|destruct ((ndim M =? 3)%nat && negb nd) eqn:E3].
  - apply andb_true_iff in E2. destruct E2 as [E2 _]. apply Nat.eqb_eq in E2. rewrite E2. exact (proj2 (quad2_sound M tol g Hwf Hq)).
  - apply andb_true_iff in E3. destruct E3 as [E3 _]. apply Nat.eqb_eq in E3. rewrite E3. exact (proj2 (quad3_sound M tol g Hwf Hq)).
  - exact (quadN_sound M rk sv Hor tol g Hwf Hq).
Qed.

(** ** running a function over a list *)
Section Run.
  Context {A : Type}.
  Variable f : A -> res (list (tint R) * list (tint R)).
  Lemma runAll_spec l : forall i e, @runAll R A f l = Ok (i, e) ->
    (forall a, In a l -> exists i1 e1, f a = Ok (i1, e1) /\ incl i1 i /\ incl e1 e) /\
    (forall t, In t i -> exists a i1 e1, In a l /\ f a = Ok (i1, e1) /\ In t i1) /\
    (forall t, In t e -> exists a i1 e1, In a l /\ f a = Ok (i1, e1) /\ In t e1).
  Proof.
    induction l as [|a l IH]; cbn [runAll]; intros i e H.
    - inversion H; subst. repeat split; intros ? [].
    - destruct (f a) as [[i1 e1]| |] eqn:E; cbn [bindR] in H; try discriminate.
      destruct (runAll f l) as [[i2 e2]| |] eqn:E2; cbn [bindR] in H; try discriminate. inversion H; subst.
      destruct (IH _ _ eq_refl) as (H1 & H2 & H3). split; [|split].
      + intros b [<-|Hb].
        * exists i1, e1. split; auto. split; intros t Ht; apply in_app_iff; auto.
        * destruct (H1 b Hb) as (ib & eb & Eb & I1 & I2). exists ib, eb. split; auto. split; intros t Ht; apply in_app_iff; auto.
      + intros t Ht. apply in_app_iff in Ht. destruct Ht as [Ht|Ht]; [exists a, i1, e1; cbn; auto|].
        destruct (H2 t Ht) as (b & ib & eb & Hb & Eb & Hi). exists b, ib, eb. cbn. auto.
      + intros t Ht. apply in_app_iff in Ht. destruct Ht as [Ht|Ht]; [exists a, i1, e1; cbn; auto|].
        destruct (H3 t Ht) as (b & ib & eb & Hb & Eb & Hi). exists b, ib, eb. cbn. auto.
  Qed.
  Lemma runFlat_spec l : forall all, @runFlat R A f l = Ok all ->
    forall t, In t all -> exists a i1 e1, In a l /\ f a = Ok (i1, e1) /\ In t (i1 ++ e1).
  Proof.
    induction l as [|a l IH]; cbn [runFlat]; intros all H.
    - inversion H; subst. intros ? [].
    - destruct (f a) as [[i1 e1]| |] eqn:E; cbn [bindR] in H; try discriminate.
      destruct (runFlat f l) as [r| |] eqn:E2; cbn [bindR] in H; try discriminate. inversion H; subst.
      intros t Ht. rewrite app_assoc in Ht. apply in_app_iff in Ht. destruct Ht as [Ht|Ht]; [exists a, i1, e1; cbn; auto|].
      destruct (IH _ eq_refl t Ht) as (b & ib & eb & Hb & Eb & Hi). exists b, ib, eb. cbn. auto.
  Qed.
End Run.
Lemma report_in (orig t u : tint R) : In u (fst (@report R R_num orig t) ++ snd (@report R R_num orig t)) <-> u = t.
Proof. unfold report. destruct (isExterior orig t); cbn; split; try (intros [<-|[]]; auto); intros ->; auto. Qed.
Lemma report_one (orig t : tint R) : fst (@report R R_num orig t) ++ snd (@report R R_num orig t) = [t].
Proof. unfold report. destruct (isExterior orig t); auto. Qed.
Lemma rerun_spec f (orig : tint R) l : forall i e, @rerun R R_num f orig l = Ok (i, e) ->
  let g := fun p : flagged => if fst p then (if @sameBox R R_num (ivl (snd p)) (ivl orig) then Ok ([], [snd p]) else f (snd p)) else Ok (@report R R_num orig (snd p)) in
  (forall a, In a l -> exists i1 e1, g a = Ok (i1, e1) /\ incl i1 i /\ incl e1 e) /\
  (forall t, In t i -> exists a i1 e1, In a l /\ g a = Ok (i1, e1) /\ In t i1) /\
  (forall t, In t e -> exists a i1 e1, In a l /\ g a = Ok (i1, e1) /\ In t e1).
Proof.
  intros i e H g. assert (E : @rerun R R_num f orig l = @runAll R _ g l).
  { clear H i e. induction l as [|[b t] l IH]; auto. cbn [rerun runAll]. rewrite IH. unfold g at 1. cbn [fst snd]. destruct b; auto. }
  rewrite E in H. apply (runAll_spec g l i e H).
Qed.

(** ** trimming *)
Lemma trim_ok n exact Ms errs : sysOK n exact Ms errs ->
  let r := @trimMs R R_num Ms errs in
  sysOK n exact (fst r) (snd r) /\ (forall i, (i < n)%nat -> nth i errs 0 <= nth i (snd r) 0) /\
  forall st fs l, trs_ok n l -> appr n exact st fs l Ms errs -> appr n exact st fs l (fst r) (snd r).
Proof.
  intros [(Hn & HMl & Hel & HM) Hcov] r. pose proof (trimMs_spec n (nlit 1 1000) n0 Ms errs Hn HMl Hel HM) as (L1 & L2 & H). fold (@trimMs R R_num Ms errs) in *. fold r in L1, L2, H.
  assert (HS : sysOK n exact (fst r) (snd r)).
  { split; [split; [auto|split; [auto|split; [auto|]]]|].
    - apply (Forall_nth_iff _ _ noT). rewrite L1. intros i Hi. destruct (H i Hi) as ((W & D & _) & _). split; auto. unfold noT. rewrite D. rewrite Forall_forall in HM. apply HM, nth_In. lia.
    - apply (Forall_nth_iff _ _ noT). rewrite L1. intros i Hi. destruct (H i Hi) as ((W & D & S1 & _) & _). unfold noT. unfold all_covered.
      assert (Hc : all_covered exact (nth i Ms (mkT [] []))) by (rewrite Forall_forall in Hcov; apply Hcov, nth_In; lia). unfold all_covered in Hc.
      apply (Forall_nth_iff _ _ 0%nat). intros j Hj. apply (covered_le exact (nth j (shp (nth i Ms (mkT [] []))) 0%nat)); [apply S1|].
      apply (proj1 (Forall_nth_iff _ _ 0%nat) Hc). unfold ndim in D. lia. }
  split; auto. split; [intros i Hi; destruct (H i Hi) as ((_ & _ & _ & _ & E & _) & _); auto|].
  intros st fs l Hl [_ _ HA]. constructor; try apply HS. intros i Hi y Hy. destruct (H i Hi) as ((W & D & _ & _ & _ & A) & _).
  assert (Hd : ndim (nth i Ms (mkT [] [])) = n) by (rewrite Forall_forall in HM; apply HM, nth_In; lia). rewrite Hd in A. specialize (A y Hy). specialize (HA i Hi y Hy). unfold noT in *.
  set (u := cheb_eval (nth i Ms (mkT [] [])) y) in *.
  replace (nth i (snd r) 0) with (nth i errs 0 + (nth i (snd r) 0 - nth i errs 0)) by ring. eapply within_plus; [exact HA|].
  match goal with |- Rabs (?p - ?q) <= _ => replace (p - q) with ((p - u) - (q - u)) by ring end.
  eapply Rle_trans; [apply Rabs_triang|]. rewrite Rabs_Ropp. lra.
Qed.

(** ** what a returned interval satisfies *)
(** the box reported for t, and the points reported for it *)
Record resOK (n : nat) (ti t : tint R) : Prop := {
  ro_tok : tok n t;
  ro_emp : empt t = false;
  ro_fresh : fresh t;
  ro_fin : fin ti = true -> fin t = true /\ preT t = preT ti;
  ro_nfin : fin ti = false -> exists suf, bt t = trs ti ++ suf;
  ro_dups : fin t = true -> Forall (inBox (@finalBox R R_num (unitBox n) (preT t))) (dups t)
}.
(** an interval as the solver receives it *)
Record inOK (n : nat) (t : tint R) : Prop := {
  io_ok : okti n t;
  io_dups : fin t = true -> Forall (inBox (@finalBox R R_num (unitBox n) (preT t))) (dups t)
}.
Lemma mid_in n l : trs_ok n l -> inBox (@finalBox R R_num (unitBox n) l) (@midpoint R R_num (@finalBox R R_num (unitBox n) l)).
Proof.
  intros Hl. pose proof (final_sub_ok n l Hl) as Hs. apply (Forall2_nth_iff _ _ _ 0 (0,0)). unfold midpoint. rewrite map_length. split; auto. intros i Hi.
  rewrite (nth_map_lt _ _ _ (0,0)) by auto. pose proof (sub_ok_nth n _ i Hs ltac:(destruct Hs; lia)) as (A & B & C). rewrite n2_R. rnum. lra.
Qed.
Lemma rootsOf_in n t : tok n t -> (fin t = true -> Forall (inBox (@finalBox R R_num (unitBox n) (preT t))) (dups t)) -> fresh t ->
  Forall (inBox (@finalBox R R_num (unitBox n) (bt t))) (@rootsOf R R_num t).
Proof.
  intros Ht Hd Hf. unfold rootsOf, bt. destruct (fin t) eqn:E.
  - destruct (dups t) as [|d ds] eqn:Ed; [|apply Hd; auto]. constructor; auto. unfold getFinalPoint. rewrite E, (tok_top n t Ht). cbn [negb].
    destruct (tok_pre n t Ht E) as [suf Es]. pose proof (tok_trs n t Ht) as Htr. rewrite Es in *. pose proof Htr as Htr'. apply Forall_app in Htr'.
    apply (final_nested n (preT t) suf); try apply Htr'. apply mid_in; auto.
  - destruct (Hf E) as (_ & -> & _). constructor; auto. unfold getFinalPoint. rewrite E. cbn [negb]. unfold getFinalInterval. rewrite E, (tok_top n t Ht). apply mid_in. apply tok_trs; auto.
Qed.
Lemma distinct_acc (l : list (tint R)) : forall acc t,
  In t (fold_left (fun acc t => if existsb (fun u => samePoint (corner u) (corner t)) acc then acc else t :: acc) l acc) -> In t acc \/ In t l.
Proof.
  induction l as [|a l IH]; intros acc t H; cbn [fold_left] in H; auto. apply IH in H. destruct H as [H|H]; [|right; right; auto].
  destruct (existsb _ acc); auto. destruct H as [<-|H]; auto. right; left; auto.
Qed.
Lemma distinct_in (l : list (tint R)) t : In t (@distinctResults R R_num l) -> In t l.
Proof. unfold distinctResults. intros H. rewrite <- in_rev in H. apply distinct_acc in H. destruct H as [[]|H]; auto. Qed.
Lemma distinct_acc_ne (l : list (tint R)) : forall acc, acc <> [] ->
  fold_left (fun acc t => if existsb (fun u => @samePoint R R_num (corner u) (corner t)) acc then acc else t :: acc) l acc <> [].
Proof.
  induction l as [|a l IH]; intros acc H; cbn [fold_left]; auto. apply IH. destruct (existsb _ acc); auto. discriminate.
Qed.
Lemma distinct_ne (l : list (tint R)) : l <> [] -> @distinctResults R R_num l <> [].
Proof.
  intros H. unfold distinctResults. destruct l as [|a l]; [congruence|]. cbn [fold_left existsb]. intros E. apply (f_equal (@rev _)) in E. rewrite rev_involutive in E. cbn in E.
  revert E. apply distinct_acc_ne. discriminate.
Qed.
Lemma rootsOf_ne (t : tint R) : @rootsOf R R_num t <> [].
Proof. unfold rootsOf. destruct (dups t); discriminate. Qed.
Lemma collect_ne d0 (l : list (tint R)) : l <> [] -> @collectDups R R_num d0 l <> [].
Proof.
  intros H E. unfold collectDups in E. apply app_eq_nil in E. destruct E as [_ E]. destruct l as [|a l]; [congruence|]. cbn in E. apply app_eq_nil in E. destruct E as [E _]. apply (rootsOf_ne a). auto.
Qed.

Lemma kin_res n t t' e : inOK n t -> tok n t' -> kin t t' e -> resOK n t t'.
Proof.
  intros [Hok Hd] Ht K. destruct (kin_okti n t t' e Hok Ht K) as [A B C]. constructor; auto.
  - intros E. destruct (kin_pre _ _ _ K E) as [P1 P2]. rewrite (kin_fin _ _ _ K). auto.
  - intros E. exists e. unfold bt. rewrite (kin_fin _ _ _ K), E. apply (kin_trs _ _ _ K).
  - rewrite (kin_fin _ _ _ K). intros E. destruct (kin_pre _ _ _ K E) as [P1 P2]. rewrite P1, (kin_dups _ _ _ K). auto.
Qed.
Lemma kin_inOK n t t' e : inOK n t -> tok n t' -> kin t t' e -> inOK n t'.
Proof.
  intros [Hok Hd] Ht K. constructor; [apply (kin_okti n t t' e); auto|]. rewrite (kin_fin _ _ _ K). intros E. destruct (kin_pre _ _ _ K E) as [P1 P2]. rewrite P1, (kin_dups _ _ _ K). auto.
Qed.
Lemma kin_copy (t : tint R) : fresh t -> kin t (@copyT R t) [].
Proof.
  intros Hf. destruct (fresh_copy t Hf) as (A & B & C). constructor; auto; cbn; [rewrite app_nil_r; auto|]. intros ->. auto.
Qed.
(** results of a descendant are results of the ancestor *)
Lemma res_trans n t t' t2 e : kin t t' e -> resOK n t' t2 -> resOK n t t2.
Proof.
  intros K [A B C D E F]. constructor; auto.
  - intros Hf. destruct (kin_pre _ _ _ K Hf) as [P1 P2]. rewrite <- P1. apply D. rewrite (kin_fin _ _ _ K); auto.
  - intros Hf. destruct E as [suf Es]; [rewrite (kin_fin _ _ _ K); auto|]. exists (e ++ suf). rewrite Es, (kin_trs _ _ _ K), app_assoc. auto.
Qed.

Lemma res_prefix n t t' t2 e : fin t = false -> fin t' = false -> trs t' = trs t ++ e -> resOK n t' t2 -> resOK n t t2.
Proof.
  intros F F' E [A B C D G H]. constructor; auto; [congruence|]. intros _. destruct (G F') as [suf Es]. exists (e ++ suf). rewrite Es, E, app_assoc. auto.
Qed.

(** the quadratic checks may run: only then must the error bounds be strict *)
Definition quadOn (o : opts) (n : nat) : bool := (olowq o && (n <=? 3)%nat) || oallq o.

Section Solve.
  Variables (X : ext R) (n : nat) (o : opts).
  Hypothesis Hsvd : svd_ok n (xsvd X).
  Hypothesis Hsym : sym_solver_ok n (xrank X) (xsolve X).
  Hypothesis Has : argsort_ok (xargsort X).
  Hypothesis Hset : set_ok n (xset X).

  (** the entry checks do not fire on a box with a root *)
  Lemma entry_const Ms errs fs l y : squareSystem n Ms errs -> appr n (oexact o) (quadOn o n) fs l Ms errs -> zeroAt n fs l y -> @constantCheck R R_num Ms errs = false.
  Proof.
    intros (Hn & HMl & Hel & HM) HA HZ. destruct (constantCheck Ms errs) eqn:E; auto. exfalso.
    assert (HW : Forall wf Ms) by (eapply Forall_impl; [|exact HM]; intros M [W _]; auto).
    destruct (constantCheck_true Ms errs HW E) as (i & Hi & Hi2 & Hlt).
    rewrite Forall_forall in HM. destruct (HM (nth i Ms (mkT [] [])) (nth_In _ _ Hi)) as [W D].
    pose proof (ap_err _ _ _ _ _ _ _ HA i ltac:(lia) y (proj1 HZ)) as Hb. apply within_le in Hb.
    pose proof (const_root (nth i Ms (mkT [] [])) W y (fs i (place l y)) (nth i errs 0)) as Hc.
    rewrite D in Hc. specialize (Hc (proj1 HZ) Hb ltac:(apply HZ; lia)). lra.
  Qed.
  Lemma entry_quad Ms errs fs l y : squareSystem n Ms errs -> appr n (oexact o) (quadOn o n) fs l Ms errs -> zeroAt n fs l y -> @quadCheck R R_num X o Ms errs = false.
  Proof.
    intros (Hn & HMl & Hel & HM) HA HZ. unfold quadCheck. destruct (quadOn o n) eqn:Eo.
    2:{ assert (D : ndim (nth 0 Ms (mkT [] [])) = n) by (rewrite Forall_forall in HM; apply HM, nth_In; lia). unfold quadOn in Eo. rewrite D, Eo. reflexivity. }
    match goal with |- ?a && _ = _ => replace a with true by (unfold quadOn in Eo; assert (D : ndim (nth 0 Ms (mkT [] [])) = n) by (rewrite Forall_forall in HM; apply HM, nth_In; lia); rewrite D, Eo; auto) end. cbn [andb].
    destruct (existsb _ _) eqn:E; auto. exfalso. apply existsb_exists in E. destruct E as ([M e] & Hin & Hq). cbn [fst snd] in Hq.
    destruct (In_nth _ _ (noT, 0) Hin) as (i & Hi & Ei). rewrite combine_length in Hi. rewrite nth_combine in Ei by lia. inversion Ei as [[E1 E2]].
    rewrite Forall_forall in HM. destruct (HM M ltac:(rewrite <- E1; apply nth_In; lia)) as [W D].
    rewrite <- D in Hsym. refine (quad_any _ _ M e false (fun x => fs i (place l x)) Hsym W Hq _ y _ _).
    - rewrite D. intros x Hx. rewrite <- E1, <- E2. apply (ap_err _ _ _ _ _ _ _ HA i); auto. lia.
    - rewrite D. apply HZ.
    - apply HZ. lia.
  Qed.

  (** ** the induction *)
  Definition goodRes (ti : tint R) (Ms : list (tensor R)) (errs : list R) (r : res (list (tint R) * list (tint R))) : Prop :=
    forall i e, r = Ok (i, e) ->
      (forall t, In t (i ++ e) -> resOK n ti t) /\
      (forall fs y, appr n (oexact o) (quadOn o n) fs (trs ti) Ms errs -> zeroAt n fs (trs ti) y ->
         (fin ti = true -> cthr ti = false -> i ++ e <> []) /\
         (fin ti = false -> exists t, In t (i ++ e) /\ inBox (@finalBox R R_num (unitBox n) (bt t)) (place (trs ti) y))).
  Lemma good_report ti Ms errs orig t e : inOK n ti -> tok n t -> kin ti t e ->
    (fin ti = false -> forall fs y, appr n (oexact o) (quadOn o n) fs (trs ti) Ms errs -> zeroAt n fs (trs ti) y -> exists y', in_cube n y' /\ place (trs ti) y = place (trs t) y') ->
    goodRes ti Ms errs (Ok (@report R R_num orig t)).
  Proof.
    intros Hin Ht K Hr i0 e0 E. inversion E as [E']. clear E. rewrite (surjective_pairing (report orig t)) in E'. inversion E'. subst i0 e0. rewrite report_one. split.
    - intros u [<-|[]]. apply (kin_res n ti t e); auto.
    - intros fs y HA HZ. split; [discriminate|]. intros Hf. exists t. split; [left; auto|]. destruct (Hr Hf fs y HA HZ) as (y' & Hy' & ->).
      assert (Eb : bt t = trs t) by (unfold bt; rewrite (kin_fin _ _ _ K), Hf; auto). rewrite Eb. apply place_in_final; auto. apply tok_trs; auto.
  Qed.
  (** children, as the recursion uses them *)
  Lemma children_good Ms errs ti level : inOK n ti -> sysOK n (oexact o) Ms errs ->
    forall ch, @getSubdivisionIntervals R R_num X (oexact o) Ms errs ti level = Ok ch ->
    (forall c, In c ch -> inOK n (snd c) /\ (exists e, kin ti (snd c) e) /\ sysOK n (oexact o) (fst (fst c)) (snd (fst c)) /\
       forall fs, appr n (oexact o) (quadOn o n) fs (trs ti) Ms errs -> appr n (oexact o) (quadOn o n) fs (trs (snd c)) (fst (fst c)) (snd (fst c))) /\
    (forall y, in_cube n y -> exists c y', In c ch /\ in_cube n y' /\ place (trs ti) y = place (trs (snd c)) y').
  Proof.
    intros Hin [Hsq Hcov] ch Hch. pose proof Hsq as (Hn & HMl & Hel & HM). pose proof (io_ok n ti Hin) as Hok. pose proof (ok_tok n ti Hok) as Htok. pose proof (ok_fresh n ti Hok) as Hfr.
    assert (HMd : Forall (fun M => ndim M = n) Ms) by (eapply Forall_impl; [|exact HM]; intros M [_ D]; auto).
    pose proof (children_spec X n Has Hset (oexact o) Ms errs ti level Hn HMl Hel HMd) as Hs. cbv zeta in Hs.
    destruct (subdims_ok n Ms ti level HMl) as [Hd1 Hd2]. set (dims := subdivisionDims Ms ti level) in *.
    rewrite Hs in Hch. destruct (_ && _) in Hch; [discriminate|]. inversion Hch; subst ch. clear Hch Hs. split.
    - intros c Hc. apply in_map_iff in Hc. destruct Hc as (bs & <- & Hb). apply in_bitLists in Hb.
      destruct (child_ok X n (oexact o) Has Ms errs ti dims bs Htok Hfr Hsq Hcov Hd1 Hd2 (proj1 Hb)) as (A1 & (e & A2 & _) & _ & A4 & A5 & A6).
      split; [apply (kin_inOK n ti _ e); auto|]. split; [eauto|]. split; [split; auto|auto].
    - intros y Hy. destruct (child_cover X n (oexact o) Has Ms errs ti dims y Htok Hfr Hsq Hcov Hd1 Hd2 Hy) as (bs & y' & Hb & Hy' & E).
      exists (childAt X (oexact o) Ms errs ti dims bs), y'. split; [apply in_map; auto|auto].
  Qed.

  Theorem solvePoly_good : forall fuel level Ms ti errs, inOK n ti -> sysOK n (oexact o) Ms errs ->
    goodRes ti Ms errs (@solvePoly R R_num X fuel o level Ms ti errs).
  Proof.
    induction fuel as [|fuel IH]; intros level Ms ti errs Hin Hsys; cbn [solvePoly]; [intros i e E; discriminate|].
    pose proof (io_ok n ti Hin) as Hok. pose proof (ok_tok n ti Hok) as Htok. pose proof (ok_fresh n ti Hok) as Hfr.
    destruct (isPoint ti) eqn:Ept.
    { intros i e E. inversion E; subst. cbn [app]. split.
      - intros t [<-|[]]. apply (kin_res n ti ti []); auto. apply kin_refl.
      - intros fs y HA HZ. split; [discriminate|]. intros Hf. exists ti. split; [left; auto|]. unfold bt. rewrite Hf. apply place_in_final; [apply tok_trs; auto|apply HZ]. }
    destruct (occheck o && constantCheck Ms errs) eqn:Ecc.
    { intros i e E. inversion E; subst. split; [intros t []|]. intros fs y HA HZ. exfalso. rewrite (entry_const Ms errs fs (trs ti) y) in Ecc; auto; [|apply Hsys]. rewrite andb_false_r in Ecc. discriminate. }
    destruct (quadCheck X o Ms errs) eqn:Eq.
    { intros i e E. inversion E; subst. split; [intros t []|]. intros fs y HA HZ. exfalso. rewrite (entry_quad Ms errs fs (trs ti) y) in Eq; auto; [discriminate|apply Hsys]. }
    cbv zeta. pose proof (trim_ok n (oexact o) Ms errs Hsys) as Htrim. cbv zeta in Htrim. destruct (trimMs Ms errs) as [Ms1 errs1]. cbn [fst snd] in Htrim. destruct Htrim as (S1 & M1 & A1).
    specialize (fun fs => A1 (quadOn o n) fs (trs ti) (tok_trs n ti Htok)).
    pose proof (kin_copy ti Hfr) as Kc. set (ti1 := copyT ti) in *. assert (Htok1 : tok n ti1) by (apply copy_tok; auto).
    assert (Hin1 : inOK n ti1) by (apply (kin_inOK n ti ti1 []); auto). assert (Et1 : trs ti1 = trs ti) by reflexivity.
    set (orig := copyT ti1).
    pose proof (zoomLoop_spec X n Hsvd o fuel Ms1 errs1 ti1 0 (dimSize ti1) (io_ok n ti1 Hin1) S1) as Hzoom.
    destruct (zoomLoop X fuel o Ms1 errs1 ti1 0 (dimSize ti1)) as [[[[[Ms2 errs2] ti2] stop]|] | |]; cbn [bindR].
    2:{ intros i e E. inversion E; subst. split; [intros t []|]. intros fs y HA HZ. destruct Hzoom as [Hc Hno]. split; intros Hf; [intros Hct|]; exfalso.
        - unfold canThrowOut in Hc. rewrite (kin_fin _ _ _ Kc), (kin_cthr _ _ _ Kc), Hf, Hct in Hc. discriminate.
        - apply (Hno ltac:(rewrite (kin_fin _ _ _ Kc); auto) (quadOn o n) fs y); [rewrite Et1; apply A1; auto|rewrite Et1; auto]. }
    2,3: intros i e E; discriminate.
    destruct (zs_kin _ _ _ _ _ _ _ _ Hzoom) as [e2 K2]. pose proof (kin_trans _ _ _ _ _ Kc K2) as K. cbn [app] in K.
    pose proof (zs_ti _ _ _ _ _ _ _ _ Hzoom) as Hok2. pose proof (ok_tok n ti2 Hok2) as Htok2. pose proof (ok_fresh n ti2 Hok2) as Hfr2.
    pose proof (kin_inOK n ti ti2 e2 Hin Htok2 K) as Hin2. pose proof (zs_sys _ _ _ _ _ _ _ _ Hzoom) as S2.
    assert (A2 : forall fs, appr n (oexact o) (quadOn o n) fs (trs ti) Ms errs -> appr n (oexact o) (quadOn o n) fs (trs ti2) Ms2 errs2).
    { intros fs HA. apply (zs_appr _ _ _ _ _ _ _ _ Hzoom (quadOn o n)). rewrite Et1. apply A1; auto. }
    assert (Hroot : fin ti = false -> forall fs y, appr n (oexact o) (quadOn o n) fs (trs ti) Ms errs -> zeroAt n fs (trs ti) y -> exists y', in_cube n y' /\ place (trs ti) y = place (trs ti2) y').
    { intros Hf fs y HA HZ. rewrite <- Et1. apply (zs_root _ _ _ _ _ _ _ _ Hzoom ltac:(rewrite (kin_fin _ _ _ Kc); auto) (quadOn o n) fs y); rewrite Et1; auto. }
    destruct stop.
    - (* the zoom says stop *)
      destruct (fin ti2 || negb (ofinal o)) eqn:Efin; [apply (good_report ti Ms errs orig ti2 e2); auto|].
      apply orb_false_iff in Efin. destruct Efin as [Ef2 _]. assert (Ef : fin ti = false) by (rewrite <- (kin_fin _ _ _ K); auto).
      assert (Hin3 : inOK n (startFinalStep ti2)).
      { constructor; [constructor; [apply start_tok; auto|apply Hok2|intros E; discriminate]|]. intros _. cbn. destruct (Hfr2 Ef2) as (_ & -> & _). constructor. }
      intros i e E. destruct (IH (S level) Ms2 (startFinalStep ti2) errs2 Hin3 S2 i e E) as [R1 R2].
      assert (Hbt : forall t, In t (i ++ e) -> bt t = trs ti2).
      { intros t Ht. destruct (ro_fin _ _ _ (R1 t Ht) eq_refl) as [F P]. unfold bt. rewrite F, P. reflexivity. }
      split.
      + intros t Ht. pose proof (R1 t Ht) as [B1 B2 B3 B4 B5 B6]. constructor; auto; [congruence|]. intros _. exists e2. rewrite (Hbt t Ht). apply (kin_trs _ _ _ K).
      + intros fs y HA HZ. split; [congruence|]. intros _. destruct (Hroot Ef fs y HA HZ) as (y' & Hy' & Ey).
        assert (HZ3 : zeroAt n fs (trs (startFinalStep ti2)) y') by (split; auto; intros k Hk; cbn [startFinalStep trs]; rewrite <- Ey; apply HZ; auto).
        destruct (R2 fs y' (A2 fs HA) HZ3) as [Hne _]. specialize (Hne eq_refl). cbn [startFinalStep cthr] in Hne. destruct (Hfr2 Ef2) as (Hct & _ & _). specialize (Hne Hct).
        destruct (i ++ e) as [|t r]; [congruence|]. exists t. split; [left; auto|]. rewrite (Hbt t (or_introl eq_refl)), Ey. apply place_in_final; auto. apply tok_trs; auto.
    - destruct (fin ti2) eqn:Ef2.
      + (* subdividing inside the final step *)
        assert (Ef : fin ti = true) by (rewrite <- (kin_fin _ _ _ K); auto).
        set (ti3 := setCanThrow ti2). assert (Htok3 : tok n ti3) by (destruct Htok2; constructor; cbn; auto).
        assert (Hin3 : inOK n ti3).
        { constructor; [constructor; [auto|apply Hok2|intros E; cbn in E; congruence]|]. intros _. cbn. apply (io_dups n ti2 Hin2 Ef2). }
        assert (Hpre : preT ti2 = preT ti) by (apply (kin_pre _ _ _ K Ef)).
        destruct (getSubdivisionIntervals X (oexact o) Ms2 errs2 ti3 (S level)) as [ch| |] eqn:Ech; cbn [bindR]; try (intros i e E; discriminate).
        destruct (children_good Ms2 errs2 ti3 (S level) Hin3 S2 ch Ech) as [Hch _].
        destruct (runFlat _ ch) as [all| |] eqn:Er; cbn [bindR]; try (intros i e E; discriminate).
        assert (Hall : forall t, In t all -> resOK n ti3 t).
        { intros t Ht. destruct (runFlat_spec _ ch all Er t Ht) as ([[Mc ec] tc] & i1 & e1 & Hc & Ec & Hi). destruct (Hch _ Hc) as (C1 & (ec' & C2) & C3 & _). cbn [fst snd] in *.
          apply (res_trans n ti3 tc t ec'); auto. apply (proj1 (IH (S level) Mc tc ec C1 C3 i1 e1 Ec) t Hi). }
        assert (Hone : forall t, tok n t -> empt t = false -> fin t = true -> preT t = preT ti -> Forall (inBox (@finalBox R R_num (unitBox n) (preT t))) (dups t) -> goodRes ti Ms errs (Ok (report orig t))).
        { intros t B1 B2 B3 B4 B5 i0 e0 E. inversion E as [E']. clear E. rewrite (surjective_pairing (report orig t)) in E'. inversion E'. subst i0 e0. rewrite report_one. split.
          - intros u [<-|[]]. constructor; auto; [intros E; congruence|congruence].
          - intros fs y HA HZ. split; [discriminate|congruence]. }
        destruct all as [|a0 all0] eqn:Eall.
        * apply Hone; cbn; auto; [destruct Htok2; constructor; cbn; auto|apply Hok2|apply (io_dups n ti2 Hin2 Ef2)].
        * rewrite <- Eall in *. clear Eall. apply Hone; cbn; auto; [destruct Htok2; constructor; cbn; auto|apply Hok2|].
          apply Forall_app. split; [apply (io_dups n ti2 Hin2 Ef2)|]. apply Forall_forall. intros d Hd. apply in_flat_map in Hd. destruct Hd as (t & Ht & Hd). apply distinct_in in Ht.
          destruct (Hall t Ht) as [B1 B2 B3 B4 B5 B6]. pose proof (rootsOf_in n t B1 B6 B3) as Hrt. rewrite Forall_forall in Hrt. specialize (Hrt d Hd). unfold bt in Hrt. destruct (B4 Ef2) as [F P]. rewrite F, P in Hrt. exact Hrt.
      + (* subdividing *)
        assert (Ef : fin ti = false) by (rewrite <- (kin_fin _ _ _ K); auto).
        destruct (getSubdivisionIntervals X (oexact o) Ms2 errs2 ti2 (S level)) as [ch| |] eqn:Ech; cbn [bindR]; try (intros i e E; discriminate).
        destruct (children_good Ms2 errs2 ti2 (S level) Hin2 S2 ch Ech) as [Hch Hcov].
        destruct (runAll _ ch) as [[ri re]| |] eqn:Er; cbn [bindR]; try (intros i e E; discriminate).
        destruct (runAll_spec _ ch ri re Er) as (Ra & Ri & Re).
        assert (Hres : forall t, In t (ri ++ re) -> resOK n ti t).
        { intros t Ht. assert (Hx : exists c i1 e1, In c ch /\ (let '(M, e, t) := c in solvePoly X fuel o (S level) M t e) = Ok (i1, e1) /\ In t (i1 ++ e1)).
          { apply in_app_iff in Ht. destruct Ht as [Ht|Ht]; [destruct (Ri t Ht) as (c & i1 & e1 & H1 & H2 & H3)|destruct (Re t Ht) as (c & i1 & e1 & H1 & H2 & H3)]; exists c, i1, e1; split; auto; split; auto; apply in_app_iff; auto. }
          destruct Hx as ([[Mc ec] tc] & i1 & e1 & Hc & Ec & Hi). destruct (Hch _ Hc) as (C1 & (ec' & C2) & C3 & _). cbn [fst snd] in *.
          apply (res_trans n ti ti2 t e2); auto. apply (res_trans n ti2 tc t ec'); auto. apply (proj1 (IH (S level) Mc tc ec C1 C3 i1 e1 Ec) t Hi). }
        assert (Htoko : tok n orig) by (apply copy_tok; auto). assert (Efo : fin orig = false) by (cbn; auto). assert (Eto : trs orig = trs ti) by reflexivity.
        assert (Hoko : okti n orig).
        { constructor; auto; [apply Hok|]. intros _. cbn. rewrite Ef. auto. }
        assert (Hcb : forall t, resOK n ti t -> boxLe (getIntervalForCombining t) (ivl orig)).
        { intros t [B1 B2 B3 B4 B5 B6]. rewrite (cbox_final n t B1), (tok_ivl n orig Htoko), Eto. destruct (B5 Ef) as [suf Es]. pose proof (bt_ok n t B1) as Hbt. rewrite Es in *. apply Forall_app in Hbt. apply final_boxLe; apply Hbt. }
        destruct (mergeExterior orig re) as [merged| |] eqn:Em; cbn [bindR]; try (intros i e E; discriminate).
        assert (HF : Forall (fun t => tok n t /\ boxLe (getIntervalForCombining t) (ivl orig)) re).
        { apply Forall_forall. intros t Ht. assert (Hr : resOK n ti t) by (apply Hres, in_app_iff; auto). split; [apply Hr|apply Hcb; auto]. }
        destruct (mergeExterior_ok n orig Hoko Efo re merged HF Em) as (G1 & G2 & G3). rewrite Forall_forall in G1.
        match goal with |- context [rerun ?f orig merged] => set (ff := f) end.
        destruct (rerun ff orig merged) as [[ri2 re2]| |] eqn:Err; cbn [bindR]; try (intros i e E; discriminate).
        pose proof (rerun_spec ff orig merged ri2 re2 Err) as Hrr. cbv zeta in Hrr. destruct Hrr as (Pa & Pi & Pe).
        (* re-solving a merged box *)
        assert (Hff : forall p, In p merged -> fst p = true -> forall i1 e1, ff (snd p) = Ok (i1, e1) ->
           (forall t, In t (i1 ++ e1) -> resOK n ti t) /\
           forall fs y, appr n (oexact o) (quadOn o n) fs (trs ti) Ms errs -> zeroAt n fs (trs ti) y -> inBox (getIntervalForCombining (snd p)) (place (trs ti) y) ->
             exists t, In t (i1 ++ e1) /\ inBox (@finalBox R R_num (unitBox n) (bt t)) (place (trs ti) y)).
        { intros p Hp Hflag i1 e1 E. destruct (G1 p Hp) as [M1' M2' M3']. destruct (M3' Hflag) as (Hokp & Hfp & ab & Etp & Hab). rewrite Eto in Etp.
          unfold ff in E. assert (El : getLastTransform (snd p) = Some ab) by (unfold getLastTransform; rewrite Etp, rev_app_distr; reflexivity). rewrite El in E.
          assert (S3 : sysOK n (oexact o) Ms errs2).
          { destruct Hsys as [(h1 & h2 & h3 & h4) h5]. split; auto. split; auto. split; auto. split; auto. apply S2. }
          pose proof (toInterval_ok n (oexact o) Ms ab errs2 S3 Hab) as (T1 & T2 & T3). destruct (transformChebToInterval Ms ab errs2 (oexact o)) as [M3 e3]. cbn [fst snd] in *.
          assert (Hinp : inOK n (snd p)) by (constructor; auto; congruence).
          destruct (IH (S level) M3 (snd p) e3 Hinp T1 i1 e1 E) as [R1 R2]. split.
          - intros t Ht. apply (res_prefix n ti (snd p) t [ab]); auto.
          - intros fs y HA HZ Hb.
            assert (HA3 : appr n (oexact o) (quadOn o n) fs (trs (snd p)) M3 e3).
            { rewrite Etp. apply T3. destruct HA as [a1 a2 a3]. constructor; auto; [apply S3|]. intros k Hk z Hz. replace (nth k errs2 0) with (nth k errs 0 + (nth k errs2 0 - nth k errs 0)) by ring. eapply within_plus; [apply (a3 k Hk z Hz)|].
              pose proof (M1 k Hk). pose proof (zs_mono _ _ _ _ _ _ _ _ Hzoom k Hk). lra. }
            assert (Hcp : getIntervalForCombining (snd p) = finalBox (unitBox n) (trs (snd p))) by (rewrite (cbox_final n) by auto; unfold bt; rewrite Hfp; auto).
            rewrite Hcp in Hb. destruct (final_reached n (trs (snd p)) _ (tok_trs n _ M1') Hb) as (y' & Hy' & Ey).
            destruct (R2 fs y' HA3) as [_ R3]; [split; auto; intros k Hk; rewrite <- Ey; apply HZ; auto|].
            destruct (R3 Hfp) as (t & Ht & Hbt). exists t. split; auto. rewrite Ey. auto. }
        assert (Hflagged : forall p, In p merged -> fst p = true -> resOK n ti (snd p)).
        { intros p Hp Hflag. destruct (G1 p Hp) as [M1' M2' M3']. destruct (M3' Hflag) as (Hokp & Hfp & ab & Etp & Hab). rewrite Eto in Etp.
          constructor; auto; try apply Hokp; [congruence| |congruence]. intros _. exists [ab]. unfold bt. rewrite Hfp. auto. }
        intros i e E. inversion E; subst i e. clear E. split.
        * intros t Ht. rewrite <- app_assoc in Ht. apply in_app_iff in Ht. destruct Ht as [Ht|Ht]; [apply Hres, in_app_iff; auto|].
          assert (Hx : exists p i1 e1, In p merged /\ (if fst p then (if sameBox (ivl (snd p)) (ivl orig) then Ok ([], [snd p]) else ff (snd p)) else Ok (report orig (snd p))) = Ok (i1, e1) /\ In t (i1 ++ e1)).
          { apply in_app_iff in Ht. destruct Ht as [Ht|Ht]; [destruct (Pi t Ht) as (c & i1 & e1 & H1 & H2 & H3)|destruct (Pe t Ht) as (c & i1 & e1 & H1 & H2 & H3)]; exists c, i1, e1; split; auto; split; auto; apply in_app_iff; auto. }
          destruct Hx as (p & i1 & e1 & Hp & Ep & Hi). destruct (fst p) eqn:Efl.
          -- destruct (sameBox _ _).
             ++ inversion Ep; subst. cbn [app] in Hi. destruct Hi as [<-|[]]. apply Hflagged; auto.
             ++ apply (proj1 (Hff p Hp Efl i1 e1 Ep) t Hi).
          -- inversion Ep as [Ep']. rewrite (surjective_pairing (report orig (snd p))) in Ep'. inversion Ep'; subst. apply report_in in Hi. subst t. apply Hres, in_app_iff. right. apply G2. destruct p; cbn in *; subst; auto.
        * intros fs y HA HZ. split; [congruence|]. intros _. destruct (Hroot Ef fs y HA HZ) as (y2 & Hy2 & E2). destruct (Hcov y2 Hy2) as ([[Mc ec] tc] & y3 & Hc & Hy3 & E3).
          destruct (Hch _ Hc) as (C1 & (ec' & C2) & C3 & C4). cbn [fst snd] in *. destruct (Ra _ Hc) as (i1 & e1 & Ec & I1 & I2).
          destruct (proj2 (IH (S level) Mc tc ec C1 C3 i1 e1 Ec) fs y3 (C4 fs (A2 fs HA))) as [_ Hx].
          { split; auto. intros k Hk. rewrite <- E3, <- E2. apply HZ; auto. }
          destruct (Hx ltac:(rewrite (kin_fin _ _ _ C2); auto)) as (t & Ht & Hbt). rewrite <- E3, <- E2 in Hbt. apply in_app_iff in Ht. destruct Ht as [Ht|Ht].
          { exists t. split; auto. apply in_app_iff. left. apply in_app_iff. left. apply I1; auto. }
          apply I2 in Ht. destruct (G3 t Ht) as (p & Hp & Hle). assert (Htt : tok n t) by (apply Hres, in_app_iff; auto).
          assert (Hbp : inBox (getIntervalForCombining (snd p)) (place (trs ti) y)) by (eapply boxLe_in; [exact Hle|]; rewrite (cbox_final n t Htt); auto).
          destruct (Pa p Hp) as (i2 & e3 & Ep & J1 & J2).
          assert (Hfinish : forall u, In u (i2 ++ e3) -> inBox (finalBox (unitBox n) (bt u)) (place (trs ti) y) -> exists t0, In t0 ((ri ++ ri2) ++ re2) /\ inBox (finalBox (unitBox n) (bt t0)) (place (trs ti) y)).
          { intros u Hu Hub. exists u. split; auto. apply in_app_iff in Hu. rewrite !in_app_iff. destruct Hu as [Hu|Hu]; [left; right; apply J1; auto|right; apply J2; auto]. }
          assert (Hself : inBox (finalBox (unitBox n) (bt (snd p))) (place (trs ti) y)) by (rewrite <- (cbox_final n) by apply (G1 p Hp); auto).
          destruct (fst p) eqn:Efl.
          -- destruct (sameBox _ _).
             ++ inversion Ep; subst. apply (Hfinish (snd p)); auto. left; auto.
             ++ destruct (proj2 (Hff p Hp Efl i2 e3 Ep) fs y HA HZ Hbp) as (u & Hu & Hub). apply (Hfinish u); auto.
          -- inversion Ep as [Ep']. rewrite (surjective_pairing (report orig (snd p))) in Ep'. inversion Ep'. apply (Hfinish (snd p)); auto. subst. apply report_in. auto.
  Qed.
End Solve.
