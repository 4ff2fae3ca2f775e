(** * Reordering the equations and changing their signs: the zoom loop, the subdivision and the recursion *)
From Coq Require Import List Arith Bool Lia ZArith Sorted Permutation Reals Lra.
From Verif Require Import Num RSum Cheb Tensor PolySpec SystemSpec PartProofs TransformModel TransformNDProofs TransformChebProofs IntervalModel IntervalProofs LinearModel LinearProofs
  QuadModel QuadNdFaces SolverModel OrderProofs SubdivProofs TrimProofs SolverProps ScaleTransform ScaleProofs ScaleSolve SymMatrix SymProofs.
From Coq Require Import List.
Import ListNotations.
Local Open Scope R_scope.

Lemma sum_perm l l' : Permutation l l' -> fold_right Nat.add 0%nat l = fold_right Nat.add 0%nat l'.
Proof. induction 1; cbn [fold_right]; lia. Qed.

Section S.
  Variables (X : ext R) (n : nat) (P : list nat) (e : nat -> R).
  Hypothesis Hn : (0 < n)%nat.
  Hypothesis HX : externalsOK n X.
  Hypothesis HP : Permutation P (seq 0 n).
  Hypothesis He : forall k, isSign (e k).
  Notation T1 := (yT n P e). Notation E1 := (yE n P).

  Lemma yT_in Ms (G : tensor R -> Prop) : length Ms = n -> Forall G Ms -> (forall s M, G M -> G (tscale s M)) -> Forall G (T1 Ms).
  Proof.
    intros L H HG. unfold yT. rewrite Forall_map. apply Forall_forall. intros k Hk. apply in_seq in Hk. apply HG. rewrite Forall_forall in H. apply H, nth_In. rewrite L. apply (pk_lt n P HP). lia.
  Qed.
  Lemma dim0 Ms es : good n Ms es -> ndim (nth 0 (T1 Ms) (mkT [] [])) = n /\ ndim (nth 0 Ms (mkT [] [])) = n.
  Proof.
    intros (L1 & L2 & HM). assert (HM' : Forall (fun M => ndim M = n) Ms) by (eapply Forall_impl; [|exact HM]; intros M [_ D]; auto). split.
    - pose proof (yT_in Ms _ L1 HM' ltac:(auto)) as H. rewrite Forall_forall in H. apply H, nth_In. rewrite yT_length. auto.
    - rewrite Forall_forall in HM'. apply HM', nth_In. lia.
  Qed.
  Lemma trimMs_sym Ms es : good n Ms es -> @trimMs R R_num (T1 Ms) (E1 es) = let r := @trimMs R R_num Ms es in (T1 (fst r), E1 (snd r)).
  Proof.
    intros G. pose proof G as (L1 & L2 & HM). unfold trimMs, trimMsTol. cbv zeta. cbn [fst snd]. destruct (dim0 Ms es G) as [-> ->].
    match goal with |- (map fst (map ?F _), _) = _ => destruct (zip_sym n P e HP He F Ms es L1 L2) as [A B] end.
    - intros s p Hs. apply trimM_sg; auto.
    - rewrite A, B. reflexivity.
  Qed.
  Lemma toInterval_sym Ms ab es ex : good n Ms es -> @transformChebToInterval R R_num (T1 Ms) ab (E1 es) ex = let r := @transformChebToInterval R R_num Ms ab es ex in (T1 (fst r), E1 (snd r)).
  Proof.
    intros (L1 & L2 & HM). unfold transformChebToInterval. cbv zeta. cbn [fst snd]. match goal with |- (map fst (map ?F _), _) = _ => destruct (zip_sym n P e HP He F Ms es L1 L2) as [A B] end.
    - intros s p Hs. apply transformCheb_sg; auto.
    - rewrite A, B. reflexivity.
  Qed.
  Lemma const_list_sym Ms es : good n Ms es -> @constantCheck R R_num (T1 Ms) (E1 es) = @constantCheck R R_num Ms es.
  Proof.
    intros (L1 & L2 & HM). unfold constantCheck. apply (existsb_sym n P e HP He _ (fun _ => True)); auto; [apply Forall_forall; auto|]. intros s M er Hs _. apply constOne_sg; auto.
  Qed.
  Lemma quad_list_sym o Ms es : good n Ms es -> @quadCheck R R_num X o (T1 Ms) (E1 es) = @quadCheck R R_num X o Ms es.
  Proof.
    intros G. pose proof G as (L1 & L2 & HM). unfold quadCheck. destruct (dim0 Ms es G) as [-> ->].
    f_equal. apply (existsb_sym n P e HP He _ (fun M => wf M /\ ndim M = n)); auto. intros s M er Hs [W Dm]. cbn [fst snd]. apply quad_sg; auto. rewrite Dm. apply HX.
  Qed.

  (** ** zooming *)
  Definition zsy (r : list (tensor R) * list R * tint R * bool * bool) : list (tensor R) * list R * tint R * bool * bool :=
    let '(Ms, es, t, c, s) := r in (T1 Ms, E1 es, t, c, s).
  Lemma zoomIter_sym ex Ms es t : good n Ms es -> @zoomIter R R_num X ex (T1 Ms) (E1 es) t = bindR (@zoomIter R R_num X ex Ms es t) (fun r => Ok (zsy r)).
  Proof.
    intros G. pose proof G as (L1 & L2 & HM). unfold zoomIter. rewrite (bounding_sym n P e HP He) by (auto; apply HX). cbv zeta.
    set (r := boundingInterval _ _ _ _). clearbody r. destruct (if _ && _ then false else blThrow r); [reflexivity|].
    destruct (negb _); [reflexivity|]. destruct (getLastTransform _) as [ab|]; [|reflexivity]. rewrite toInterval_sym by auto. cbv zeta. destruct (transformChebToInterval Ms ab es ex) as [M1 e1]. reflexivity.
  Qed.
  Definition lsy (r : option (list (tensor R) * list R * tint R * bool)) : option (list (tensor R) * list R * tint R * bool) :=
    match r with Some (Ms, es, t, s) => Some (T1 Ms, E1 es, t, s) | None => None end.
  Lemma zoomLoop_sym o k : forall Ms es t zc sz, good n Ms es -> @zoomLoop R R_num X k o (T1 Ms) (E1 es) t zc sz = bindR (@zoomLoop R R_num X k o Ms es t zc sz) (fun r => Ok (lsy r)).
  Proof.
    induction k as [|k IH]; intros Ms es t zc sz G; cbn [zoomLoop]; auto. rewrite zoomIter_sym by auto. pose proof (zoomIter_good X n _ Hn HX (repeat_length 1 n) (oexact o) Ms es t) as GG.
    destruct (zoomIter X (oexact o) Ms es t) as [[[[[M1 e1] t1] c] s]| |]; cbn [bindR zsy]; auto. specialize (GG _ _ _ _ _ G eq_refl).
    destruct (empt t1); [reflexivity|]. cbv zeta. destruct (c && _); [apply IH; auto|reflexivity].
  Qed.

  (** ** subdivision *)
  Lemma shapes_sym (f : list nat -> nat) Ms : length Ms = n -> Permutation (map (fun M : tensor R => f (shp M)) (T1 Ms)) (map (fun M => f (shp M)) Ms).
  Proof.
    intros L. unfold yT. rewrite map_map. cbn [tscale shp]. rewrite <- (map_map (fun k => nth (pk P k) Ms noT) (fun M => f (shp M))). apply Permutation_map. apply (pick_perm n P HP); auto.
  Qed.
  Lemma dims_sym Ms t lev : length Ms = n -> @subdivisionDims R R_num (T1 Ms) t lev = @subdivisionDims R R_num Ms t lev.
  Proof.
    intros L. unfold subdivisionDims. rewrite yT_length, L. destruct (5 <? lev)%nat; auto. unfold dimsLarge. cbv zeta.
    assert (E : forall i, fold_right Nat.add 0%nat (map (fun M : tensor R => nth i (shp M) 0%nat) (T1 Ms)) = fold_right Nat.add 0%nat (map (fun M => nth i (shp M) 0%nat) Ms)).
    { intros i. apply sum_perm. apply (shapes_sym (fun s => nth i s 0%nat)); auto. }
    destruct (1 <? _)%nat; auto.
    assert (ET : map (fun i => fold_right Nat.add 0%nat (map (fun M : tensor R => nth i (shp M) 0%nat) (T1 Ms))) (seq 0 n) = map (fun i => fold_right Nat.add 0%nat (map (fun M : tensor R => nth i (shp M) 0%nat) Ms)) (seq 0 n)) by (apply map_ext; intros i; rewrite E; auto).
    rewrite ET. match goal with |- fold_left ?F ?l ?a = fold_left ?G _ _ => assert (H : forall u v, fold_left F u v = fold_left G u v); [|apply H] end.
    induction u as [|i u IH]; intros v; cbn [fold_left]; auto. rewrite E. apply IH.
  Qed.
  Lemma ones_pow2 : Forall isPow2 (repeat 1 n).
  Proof. apply Forall_forall. intros x Hx. apply repeat_spec in Hx. subst. exists 0%Z. reflexivity. Qed.
  Definition csy (c : list (tensor R) * list R * tint R) : list (tensor R) * list R * tint R := let '(Ms, es, t) := c in (T1 Ms, E1 es, t).
  Lemma children_sym ex Ms es t lev : good n Ms es ->
    @getSubdivisionIntervals R R_num X ex (T1 Ms) (E1 es) t lev = bindR (@getSubdivisionIntervals R R_num X ex Ms es t lev) (fun ch => Ok (map csy ch)).
  Proof.
    intros G. pose proof G as (L1 & L2 & HM). destruct HX as (_ & _ & Has & Hset).
    assert (HMd : Forall (fun M => ndim M = n) Ms) by (eapply Forall_impl; [|exact HM]; intros M [_ D]; auto).
    assert (HMd' : Forall (fun M => ndim M = n) (T1 Ms)) by (apply yT_in; auto).
    rewrite (children_spec X n Has Hset ex Ms es t lev Hn L1 L2 HMd), (children_spec X n Has Hset ex (T1 Ms) (E1 es) t lev Hn) by (auto; rewrite ?yT_length, ?yE_length; auto).
    cbv zeta. rewrite dims_sym by auto. set (dims := subdivisionDims Ms t lev) in *. clearbody dims.
    destruct (_ && _); [reflexivity|]. cbn [bindR]. f_equal. rewrite map_map. apply map_ext. intros bs. unfold childAt, csy. cbv zeta.
    match goal with |- (map fst (map ?F _), _, _) = _ => destruct (zip_sym n P e HP He F Ms es L1 L2) as [A B] end.
    - intros s p Hs. change (orderFor X dims (fst (pS s p))) with (orderFor X dims (fst p)). apply polyAt_sg; auto.
    - rewrite A, B. reflexivity.
  Qed.

  (** ** the recursion *)
  Theorem solvePoly_sym o : forall fuel level Ms t es, good n Ms es ->
    @solvePoly R R_num X fuel o level (T1 Ms) t (E1 es) = @solvePoly R R_num X fuel o level Ms t es.
  Proof.
    assert (L1 : length (repeat 1 n) = n) by apply repeat_length.
    induction fuel as [|fuel IH]; intros level Ms t es G; cbn [solvePoly]; auto. destruct (isPoint t); auto.
    rewrite const_list_sym, quad_list_sym by auto. destruct (_ && _); auto. destruct (quadCheck _ _ _ _); auto. cbv zeta.
    rewrite trimMs_sym by auto. pose proof (trimMs_good n _ Hn L1 Ms es G) as G1. cbv zeta. destruct (trimMs Ms es) as [M1 e1]. cbn [fst snd] in *.
    rewrite zoomLoop_sym by auto. pose proof (zoomLoop_good X n _ Hn HX L1 o fuel M1 e1 (copyT t) 0 (dimSize (copyT t))) as GZ.
    destruct (zoomLoop X fuel o M1 e1 (copyT t) 0 (dimSize (copyT t))) as [[[[[M2 e2] t2] s]|]| |]; cbn [bindR lsy]; auto. specialize (GZ _ _ _ _ G1 eq_refl).
    destruct s.
    { destruct (_ || _); auto. }
    destruct (fin t2).
    - rewrite children_sym by auto. destruct (children_sc X n (repeat 1 n) Hn HX ones_pow2 L1 (oexact o) M2 e2 (setCanThrow t2) (S level) GZ) as [_ GC].
      destruct (getSubdivisionIntervals X (oexact o) M2 e2 (setCanThrow t2) (S level)) as [ch| |]; cbn [bindR]; auto.
      rewrite (runFlat_ext csy (fun c => let '(M, e, t) := c in solvePoly X fuel o (S level) M t e)); [reflexivity|]. intros [[M er] tt] Hin. cbn [csy]. apply IH. apply (GC ch eq_refl _ Hin).
    - rewrite children_sym by auto. destruct (children_sc X n (repeat 1 n) Hn HX ones_pow2 L1 (oexact o) M2 e2 t2 (S level) GZ) as [_ GC].
      destruct (getSubdivisionIntervals X (oexact o) M2 e2 t2 (S level)) as [ch| |]; cbn [bindR]; auto.
      rewrite (runAll_ext csy (fun c => let '(M, e, t) := c in solvePoly X fuel o (S level) M t e)); [|intros [[M er] tt] Hin; cbn [csy]; apply IH; apply (GC ch eq_refl _ Hin)].
      destruct (runAll _ ch) as [[ri re]| |]; cbn [bindR]; auto. destruct (mergeExterior _ _) as [mg| |]; cbn [bindR]; auto.
      match goal with |- bindR (rerun ?g _ _) _ = bindR (rerun ?f _ _) _ => rewrite (rerun_ext f g); [reflexivity|] end.
      intros t3. destruct (getLastTransform t3) as [ab|]; auto. assert (G3 : good n Ms e2) by (destruct G as (A & _ & B); destruct GZ as (_ & C & _); repeat split; auto). rewrite toInterval_sym by auto. cbv zeta.
      pose proof (toInterval_good n _ Hn L1 Ms ab e2 (oexact o) G3) as G4. destruct (transformChebToInterval Ms ab e2 (oexact o)) as [M5 e5]. apply IH. exact G4.
  Qed.
End S.
