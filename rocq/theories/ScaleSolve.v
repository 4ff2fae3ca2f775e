(** * Powers of two: the zoom loop, the subdivision and the recursion *)
From Coq Require Import List Arith Bool Lia ZArith Sorted Permutation Reals Lra.
From Verif Require Import Num RSum Cheb Tensor PolySpec SystemSpec PartProofs TransformModel TransformNDProofs TransformChebProofs IntervalModel IntervalProofs LinearModel LinearProofs
  QuadModel QuadNdFaces SolverModel OrderProofs SubdivProofs TrimProofs SolverProps ScaleTransform ScaleProofs.
From Coq Require Import List.
Import ListNotations.
Local Open Scope R_scope.

Definition good (n : nat) (Ms : list (tensor R)) (es : list R) : Prop := length Ms = n /\ length es = n /\ Forall (fun M => wf M /\ ndim M = n) Ms.
Lemma good_map n (F : tensor R * R -> tensor R * R) Ms es : good n Ms es -> (forall M e, wf M -> ndim M = n -> wf (fst (F (M, e))) /\ ndim (fst (F (M, e))) = n) ->
  good n (map fst (map F (combine Ms es))) (map snd (map F (combine Ms es))).
Proof.
  intros (L1 & L2 & HM) HF. unfold good. rewrite !map_length, combine_length. split; [lia|]. split; [lia|]. rewrite map_map, Forall_map. apply Forall_forall. intros [M e] Hin.
  apply in_combine_l in Hin. rewrite Forall_forall in HM. destruct (HM M Hin). apply HF; auto.
Qed.

Section S.
  Variables (X : ext R) (n : nat) (ls : list R).
  Hypothesis Hn : (0 < n)%nat.
  Hypothesis HX : externalsOK n X.
  Hypothesis Hp : Forall isPow2 ls.
  Hypothesis Hls : length ls = n.
  Notation T1 := (sT ls). Notation E1 := (sE ls).

  Lemma trimMs_sc Ms es : good n Ms es -> @trimMs R R_num (T1 Ms) (E1 es) = let r := @trimMs R R_num Ms es in (T1 (fst r), E1 (snd r)).
  Proof.
    intros (L1 & L2 & HM). unfold trimMs, trimMsTol. cbv zeta. cbn [fst snd].
    assert (D : ndim (nth 0 (T1 Ms) (mkT [] [])) = ndim (nth 0 Ms (mkT [] []))).
    { destruct ls as [|l ls']; [cbn in Hls; lia|]. destruct Ms as [|M Ms]; [cbn in L1; lia|]. reflexivity. }
    rewrite D. match goal with |- (map fst (map ?F _), _) = _ => destruct (zip_sc F ls Hp) with (Ms := Ms) (es := es) as [A B] end.
    - intros l M e Hl. cbn [fst snd]. apply trimM_sc. apply pow2_pos; auto.
    - rewrite A, B. reflexivity.
  Qed.
  Lemma trimMs_good Ms es : good n Ms es -> good n (fst (@trimMs R R_num Ms es)) (snd (@trimMs R R_num Ms es)).
  Proof.
    intros G. pose proof G as (L1 & L2 & HM). unfold trimMs, trimMsTol. cbv zeta. cbn [fst snd]. apply good_map; auto. intros M e W D. cbn [fst snd].
    assert (Dn : ndim (nth 0 Ms (mkT [] [])) = ndim M) by (rewrite D; rewrite Forall_forall in HM; apply HM, nth_In; lia). rewrite Dn.
    destruct (trimM_spec M e (nlit 1 1000) n0 W) as [(A & B & _) _]. split; auto. rewrite B. auto.
  Qed.
  Lemma toInterval_sc Ms ab es ex : @transformChebToInterval R R_num (T1 Ms) ab (E1 es) ex = let r := @transformChebToInterval R R_num Ms ab es ex in (T1 (fst r), E1 (snd r)).
  Proof.
    unfold transformChebToInterval. cbv zeta. cbn [fst snd]. match goal with |- (map fst (map ?F _), _) = _ => destruct (zip_sc F ls Hp) with (Ms := Ms) (es := es) as [A B] end.
    - intros l M e Hl. cbn [fst snd]. apply transformCheb_sc. apply pow2_pos; auto.
    - rewrite A, B. reflexivity.
  Qed.
  Lemma transformCheb_from_good ex ab : forall d (t : tensor R) e, wf t -> (d + length ab <= ndim t)%nat ->
    wf (fst (@transformCheb_from R R_num d t ab e ex)) /\ ndim (fst (@transformCheb_from R R_num d t ab e ex)) = ndim t.
  Proof.
    induction ab as [|[a b] ab IH]; intros d t e W H; cbn [transformCheb_from]; cbv zeta; auto. cbn [length] in H.
    destruct (transformND_wf ex d t a b W ltac:(lia)) as [W' D']. destruct (IH (S d) (transformND t d a b ex) (nadd e (getTransformationError t d)) W' ltac:(lia)) as [A B]. split; auto. congruence.
  Qed.
  Lemma toInterval_good Ms ab es ex : good n Ms es -> good n (fst (@transformChebToInterval R R_num Ms ab es ex)) (snd (@transformChebToInterval R R_num Ms ab es ex)).
  Proof.
    intros G. unfold transformChebToInterval. cbv zeta. cbn [fst snd]. apply good_map; auto. intros M e W D. cbn [fst snd]. unfold transformCheb.
    destruct (transformCheb_from_good ex (firstn (ndim M) ab) 0 M e W) as [A B]; [rewrite firstn_length; lia|]. split; auto. congruence.
  Qed.

  Lemma const_list_sc Ms es : good n Ms es -> @constantCheck R R_num (T1 Ms) (E1 es) = @constantCheck R R_num Ms es.
  Proof.
    intros (L1 & L2 & HM). unfold constantCheck. apply (existsb_sc _ (fun _ => True)); auto; [|lia|apply Forall_forall; auto]. intros l M e Hl _. apply constOne_sc, pow2_pos; auto.
  Qed.
  Lemma quad_list_sc o Ms es : good n Ms es -> @quadCheck R R_num X o (T1 Ms) (E1 es) = @quadCheck R R_num X o Ms es.
  Proof.
    intros (L1 & L2 & HM). unfold quadCheck.
    assert (D : ndim (nth 0 (T1 Ms) (mkT [] [])) = ndim (nth 0 Ms (mkT [] []))).
    { destruct ls as [|l ls']; [cbn in Hls; lia|]. destruct Ms as [|M Ms]; [cbn in L1; lia|]. reflexivity. }
    rewrite D. f_equal. apply (existsb_sc _ (fun M => wf M /\ ndim M = n)); auto; [|lia]. intros l M e Hl [W Dm]. cbn [fst snd]. apply quad_sc; [apply pow2_pos; auto|auto|]. rewrite Dm. apply HX.
  Qed.

  (** ** zooming *)
  Definition zsc (r : list (tensor R) * list R * tint R * bool * bool) : list (tensor R) * list R * tint R * bool * bool :=
    let '(Ms, es, t, c, s) := r in (T1 Ms, E1 es, t, c, s).
  Lemma zoomIter_sc ex Ms es t : good n Ms es -> @zoomIter R R_num X ex (T1 Ms) (E1 es) t = bindR (@zoomIter R R_num X ex Ms es t) (fun r => Ok (zsc r)).
  Proof.
    intros G. pose proof G as (L1 & L2 & HM). unfold zoomIter. rewrite (bounding_sc n) by (auto; apply HX). cbv zeta.
    set (r := boundingInterval _ _ _ _). clearbody r. destruct (if _ && _ then false else blThrow r); [reflexivity|].
    destruct (negb _); [reflexivity|]. destruct (getLastTransform _) as [ab|]; [|reflexivity]. rewrite toInterval_sc. cbv zeta. destruct (transformChebToInterval Ms ab es ex) as [M1 e1]. reflexivity.
  Qed.
  Lemma zoomIter_good ex Ms es t M1 e1 t1 c s : good n Ms es -> @zoomIter R R_num X ex Ms es t = Ok (M1, e1, t1, c, s) -> good n M1 e1.
  Proof.
    intros G. unfold zoomIter. cbv zeta. set (r := boundingInterval _ _ _ _). clearbody r. destruct (if _ && _ then false else blThrow r); [intros E; inversion E; subst; auto|].
    destruct (negb _); [intros E; inversion E; subst; auto|]. destruct (getLastTransform _) as [ab|]; [|discriminate]. pose proof (toInterval_good Ms ab es ex G) as G1.
    destruct (transformChebToInterval Ms ab es ex) as [M2 e2]. intros E; inversion E; subst; auto.
  Qed.
  Definition lsc (r : option (list (tensor R) * list R * tint R * bool)) : option (list (tensor R) * list R * tint R * bool) :=
    match r with Some (Ms, es, t, s) => Some (T1 Ms, E1 es, t, s) | None => None end.
  Lemma zoomLoop_sc o k : forall Ms es t zc sz, good n Ms es -> @zoomLoop R R_num X k o (T1 Ms) (E1 es) t zc sz = bindR (@zoomLoop R R_num X k o Ms es t zc sz) (fun r => Ok (lsc r)).
  Proof.
    induction k as [|k IH]; intros Ms es t zc sz G; cbn [zoomLoop]; auto. rewrite zoomIter_sc by auto. pose proof (zoomIter_good (oexact o) Ms es t) as GG.
    destruct (zoomIter X (oexact o) Ms es t) as [[[[[M1 e1] t1] c] s]| |]; cbn [bindR zsc]; auto. specialize (GG _ _ _ _ _ G eq_refl).
    destruct (empt t1); [reflexivity|]. cbv zeta. destruct (c && _); [apply IH; auto|reflexivity].
  Qed.
  Lemma zoomLoop_good o k : forall Ms es t zc sz M1 e1 t1 s, good n Ms es -> @zoomLoop R R_num X k o Ms es t zc sz = Ok (Some (M1, e1, t1, s)) -> good n M1 e1.
  Proof.
    induction k as [|k IH]; intros Ms es t zc sz M1 e1 t1 s G; cbn [zoomLoop]; [discriminate|]. pose proof (zoomIter_good (oexact o) Ms es t) as GG.
    destruct (zoomIter X (oexact o) Ms es t) as [[[[[M2 e2] t2] c] s2]| |]; cbn [bindR]; try discriminate. specialize (GG _ _ _ _ _ G eq_refl).
    destruct (empt t2); [discriminate|]. cbv zeta. destruct (c && _); [apply IH; auto|]. intros E. inversion E; subst. auto.
  Qed.

  (** ** subdivision *)
  Lemma polyAt_sc ex npt l : 0 < l -> forall ord bs M e, @polyAt R R_num ex npt ord bs (tscale l M, l * e) = let r := @polyAt R R_num ex npt ord bs (M, e) in (tscale l (fst r), l * snd r).
  Proof.
    intros Hl. induction ord as [|d ord IH]; intros [|b bs] M e; cbn [polyAt]; auto. unfold sideP, chebTransform1D. cbn [fst snd]. rewrite transformND_sc, terr_sc by auto. rnum. rewrite <- Rmult_plus_distr_l. apply IH.
  Qed.
  Lemma polyAt_good ex npt ord : forall bs (M : tensor R) e, Forall (fun i => (i < n)%nat) ord -> wf M -> ndim M = n ->
    wf (fst (@polyAt R R_num ex npt ord bs (M, e))) /\ ndim (fst (@polyAt R R_num ex npt ord bs (M, e))) = n.
  Proof.
    induction ord as [|i ord IH]; intros [|b bs] M e Hf W D; cbn [polyAt fst]; auto. apply Forall_cons_iff in Hf. destruct Hf as [Hi Hf].
    unfold sideP. cbn [fst snd]. unfold chebTransform1D. destruct (transformND_wf ex i M (fst (@sidePair R R_num npt b i)) (snd (@sidePair R R_num npt b i)) W ltac:(lia)) as [W' D'].
    apply IH; auto. congruence.
  Qed.
  Lemma dims_sc Ms t lev : length Ms = n -> @subdivisionDims R R_num (T1 Ms) t lev = @subdivisionDims R R_num Ms t lev.
  Proof.
    intros L. unfold subdivisionDims. rewrite sT_length by lia. destruct (5 <? lev)%nat; auto. unfold dimsLarge. cbv zeta.
    assert (E : forall i, map (fun M : tensor R => nth i (shp M) 0%nat) (T1 Ms) = map (fun M => nth i (shp M) 0%nat) Ms) by (intros i; apply (sT_shp (fun s => nth i s 0%nat)); lia).
    destruct (1 <? _)%nat; auto.
    assert (ET : map (fun i => fold_right Nat.add 0%nat (map (fun M : tensor R => nth i (shp M) 0%nat) (T1 Ms))) (seq 0 (length Ms)) = map (fun i => fold_right Nat.add 0%nat (map (fun M : tensor R => nth i (shp M) 0%nat) Ms)) (seq 0 (length Ms))) by (apply map_ext; intros i; rewrite E; auto).
    rewrite ET. match goal with |- fold_left ?F ?l ?a = fold_left ?G _ _ => assert (H : forall u v, fold_left F u v = fold_left G u v); [|apply H] end.
    induction u as [|i u IH]; intros v; cbn [fold_left]; auto. rewrite E. apply IH.
  Qed.
  Definition csc (c : list (tensor R) * list R * tint R) : list (tensor R) * list R * tint R := let '(Ms, es, t) := c in (T1 Ms, E1 es, t).
  Lemma children_sc ex Ms es t lev : good n Ms es ->
    @getSubdivisionIntervals R R_num X ex (T1 Ms) (E1 es) t lev = bindR (@getSubdivisionIntervals R R_num X ex Ms es t lev) (fun ch => Ok (map csc ch)) /\
    forall ch, @getSubdivisionIntervals R R_num X ex Ms es t lev = Ok ch -> forall c, In c ch -> good n (fst (fst c)) (snd (fst c)).
  Proof.
    intros G. pose proof G as (L1 & L2 & HM). destruct HX as (_ & _ & Has & Hset).
    assert (HMd : Forall (fun M => ndim M = n) Ms) by (eapply Forall_impl; [|exact HM]; intros M [_ D]; auto).
    assert (HMd' : Forall (fun M => ndim M = n) (T1 Ms)).
    { unfold sT. rewrite Forall_map. apply Forall_forall. intros [l M] Hin. apply in_combine_r in Hin. rewrite Forall_forall in HMd. apply (HMd M Hin). }
    rewrite (children_spec X n Has Hset ex Ms es t lev Hn L1 L2 HMd), (children_spec X n Has Hset ex (T1 Ms) (E1 es) t lev Hn) by (auto; rewrite ?sT_length, ?sE_length by lia; auto).
    cbv zeta. rewrite dims_sc by auto. destruct (subdims_ok n Ms t lev L1) as [Hd1 Hd2]. set (dims := subdivisionDims Ms t lev) in *. clearbody dims.
    destruct (_ && _); [split; [reflexivity|discriminate]|]. split.
    - cbn [bindR]. f_equal. rewrite map_map. apply map_ext. intros bs. unfold childAt, csc. cbv zeta.
      match goal with |- (map fst (map ?F _), _, _) = _ => destruct (zip_sc F ls Hp) with (Ms := Ms) (es := es) as [A B] end.
      + intros l M e Hl. cbn [fst]. change (orderFor X dims (tscale l M)) with (orderFor X dims M). apply polyAt_sc, pow2_pos; auto.
      + rewrite A, B. reflexivity.
    - intros ch E. inversion E as [E']. clear E E' ch. intros c Hc. apply in_map_iff in Hc. destruct Hc as (bs & <- & Hb). unfold childAt. cbv zeta. cbn [fst snd].
      apply good_map; auto. intros M e W D. cbn [fst]. apply polyAt_good; auto. apply Forall_forall. intros i Hi. rewrite Forall_forall in Hd2. apply Hd2.
      eapply Permutation_in; [apply (orderFor_perm X Has)|exact Hi].
  Qed.

  (** ** the recursion *)
  Lemma runFlat_ext {A B} (h : A -> B) (f : A -> res (list (tint R) * list (tint R))) (g : B -> res (list (tint R) * list (tint R))) l :
    (forall a, In a l -> g (h a) = f a) -> @runFlat R B g (map h l) = @runFlat R A f l.
  Proof.
    induction l as [|a l IH]; intros H; cbn [runFlat map]; auto. rewrite H by (left; auto). rewrite IH by (intros; apply H; right; auto). reflexivity.
  Qed.
  Lemma runAll_ext {A B} (h : A -> B) (f : A -> res (list (tint R) * list (tint R))) (g : B -> res (list (tint R) * list (tint R))) l :
    (forall a, In a l -> g (h a) = f a) -> @runAll R B g (map h l) = @runAll R A f l.
  Proof.
    induction l as [|a l IH]; intros H; cbn [runAll map]; auto. rewrite H by (left; auto). rewrite IH by (intros; apply H; right; auto). reflexivity.
  Qed.
  Lemma rerun_ext f g (orig : tint R) l : (forall t, g t = f t) -> @rerun R R_num g orig l = @rerun R R_num f orig l.
  Proof. intros H. induction l as [|[b t] l IH]; cbn [rerun]; auto. rewrite H, IH. reflexivity. Qed.

  Theorem solvePoly_sc o : forall fuel level Ms t es, good n Ms es ->
    @solvePoly R R_num X fuel o level (T1 Ms) t (E1 es) = @solvePoly R R_num X fuel o level Ms t es.
  Proof.
    induction fuel as [|fuel IH]; intros level Ms t es G; cbn [solvePoly]; auto. destruct (isPoint t); auto.
    rewrite const_list_sc, quad_list_sc by auto. destruct (_ && _); auto. destruct (quadCheck _ _ _ _); auto. cbv zeta.
    rewrite trimMs_sc by auto. pose proof (trimMs_good Ms es G) as G1. cbv zeta. destruct (trimMs Ms es) as [M1 e1]. cbn [fst snd] in *.
    rewrite zoomLoop_sc by auto. pose proof (zoomLoop_good o fuel M1 e1 (copyT t) 0 (dimSize (copyT t))) as GZ.
    destruct (zoomLoop X fuel o M1 e1 (copyT t) 0 (dimSize (copyT t))) as [[[[[M2 e2] t2] s]|]| |]; cbn [bindR lsc]; auto. specialize (GZ _ _ _ _ G1 eq_refl).
    destruct s.
    { destruct (_ || _); auto. }
    destruct (fin t2).
    - destruct (children_sc (oexact o) M2 e2 (setCanThrow t2) (S level) GZ) as [-> GC]. destruct (getSubdivisionIntervals X (oexact o) M2 e2 (setCanThrow t2) (S level)) as [ch| |]; cbn [bindR]; auto.
      rewrite (runFlat_ext csc (fun c => let '(M, e, t) := c in solvePoly X fuel o (S level) M t e)); [reflexivity|]. intros [[M e] tt] Hin. cbn [csc]. apply IH. apply (GC ch eq_refl _ Hin).
    - destruct (children_sc (oexact o) M2 e2 t2 (S level) GZ) as [-> GC]. destruct (getSubdivisionIntervals X (oexact o) M2 e2 t2 (S level)) as [ch| |]; cbn [bindR]; auto.
      rewrite (runAll_ext csc (fun c => let '(M, e, t) := c in solvePoly X fuel o (S level) M t e)); [|intros [[M e] tt] Hin; cbn [csc]; apply IH; apply (GC ch eq_refl _ Hin)].
      destruct (runAll _ ch) as [[ri re]| |]; cbn [bindR]; auto. destruct (mergeExterior _ _) as [mg| |]; cbn [bindR]; auto.
      match goal with |- bindR (rerun ?g _ _) _ = bindR (rerun ?f _ _) _ => rewrite (rerun_ext f g); [reflexivity|] end.
      intros t3. destruct (getLastTransform t3) as [ab|]; auto. rewrite toInterval_sc. cbv zeta. assert (G3 : good n Ms e2) by (destruct G as (A & _ & B); destruct GZ as (_ & C & _); repeat split; auto).
      pose proof (toInterval_good Ms ab e2 (oexact o) G3) as G4. destruct (transformChebToInterval Ms ab e2 (oexact o)) as [M5 e5]. apply IH. exact G4.
  Qed.
End S.
