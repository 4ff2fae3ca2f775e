(** * Systems that do not depend on one of the variables: the recursion of the subdivision solver has no end *)
From Coq Require Import List Arith Bool Lia ZArith Sorted Permutation Reals Lra.
From Verif Require Import Num RSum Cheb Tensor PolySpec SystemSpec PartProofs TransformModel TransformNDProofs TransformChebProofs IntervalModel IntervalProofs LinearModel LinearProofs
  QuadModel QuadNdFaces SolverModel OrderProofs SubdivProofs SplitProofs SubdivReal TrimProofs ZoomProofs MergeProofs SolverProofs SepProofs.
Import ListNotations.
Local Open Scope R_scope.

(** ** coefficient arrays that do not depend on variable d *)
Definition noDep (d : nat) (M : tensor R) : Prop := forall idx, inrange (shp M) idx -> nth d idx 0%nat <> 0%nat -> tget M idx = 0.

(** a constant is left alone by every version of the one-dimensional transform *)
Lemma upd_keep (l : list R) i v : v = g l i -> upd l i v = l.
Proof.
  intros ->. unfold g. change (@n0 R R_num) with 0. destruct (le_lt_dec (length l) i) as [L|L].
  - revert i L. induction l as [|a l IH]; intros [|i] L; cbn in *; auto; try lia. f_equal. apply IH. lia.
  - apply upd_nth.
Qed.
Lemma put_zero i v p : snd (@put R R_num 0 i v p) = snd p.
Proof. unfold put. cbn [snd]. apply upd_keep. rnum. ring. Qed.
Lemma fold_put_zero (v : nat -> R) l : forall p, snd (fold_left (fun p i => @put R R_num 0 i (v i) p) l p) = snd p.
Proof. induction l as [|i l IH]; intros p; cbn [fold_left]; auto. rewrite IH. apply put_zero. Qed.
Lemma tstep_zero alpha beta st : tc (@tstep R R_num alpha beta st 0) = tc st.
Proof.
  unfold tstep. cbn [tc]. cbv zeta. destruct (ngtb _ _); rewrite ?put_zero; rewrite (fold_put_zero (fun i => _)); destruct (2 <? mr st)%nat; rewrite ?put_zero; reflexivity.
Qed.
Lemma putE_zero i v e p : snd (@putE R R_num 0 i v e p) = snd p.
Proof. destruct p as [[a b] t]. unfold putE. cbn [snd]. apply upd_keep. rnum. ring. Qed.
Lemma fold_keep {A} (F : list R * list R * list R -> A -> list R * list R * list R) : (forall p i, snd (F p i) = snd p) -> forall l p, snd (fold_left F l p) = snd p.
Proof. intros H. induction l as [|i l IH]; intros p; cbn [fold_left]; auto. rewrite IH. apply H. Qed.
Lemma estep_zero alpha beta st : ec (@estep R R_num alpha beta st 0) = ec st.
Proof.
  unfold estep. destruct (Split alpha) as [a1 a2]. destruct (Split beta) as [b1 b2]. cbv zeta.
  repeat match goal with |- context [let '(x, y) := TwoProdWithSplit ?u ?v ?w ?z in @?F x y] => destruct (TwoProdWithSplit u v w z) as [? ?] | |- context [let '(x, y) := TwoSum ?u ?v in @?F x y] => destruct (TwoSum u v) as [? ?] end.
  match goal with |- context [putE 0 (er st) ?v ?e ?p] => pose proof (putE_zero (er st) v e p) as H; destruct (putE 0 (er st) v e p) as [[x y] t] end. cbn [ec snd] in *. rewrite H. rewrite putE_zero.
  rewrite fold_keep; [|intros p i; repeat match goal with |- context [let '(x, y) := ?q in _] => destruct q as [? ?] end; apply putE_zero].
  destruct (2 <? er st)%nat; rewrite ?putE_zero; reflexivity.
Qed.
Lemma sstep_zero bs st : ec (@sstep R R_num bs st 0) = ec st.
Proof.
  unfold sstep. cbv zeta.
  repeat match goal with |- context [let '(x, y) := TwoSum ?u ?v in @?F x y] => destruct (TwoSum u v) as [? ?] end.
  match goal with |- context [putE 0 (er st) ?v ?e ?p] => pose proof (putE_zero (er st) v e p) as H; destruct (putE 0 (er st) v e p) as [[x y] t] end. cbn [ec snd] in *. rewrite H. rewrite putE_zero.
  rewrite fold_keep; [|intros p i; repeat match goal with |- context [let '(x, y) := ?q in _] => destruct q as [? ?] end; apply putE_zero].
  destruct (2 <? er st)%nat; rewrite ?putE_zero; reflexivity.
Qed.
Lemma trun_zero alpha beta l : Forall (fun c => c = 0) l -> forall st, tc (fold_left (@tstep R R_num alpha beta) l st) = tc st.
Proof. induction 1 as [|c l -> H IH]; intros st; cbn [fold_left]; auto. rewrite IH. apply tstep_zero. Qed.
Lemma erun_zero (F : @est R -> R -> @est R) : (forall st, ec (F st 0) = ec st) -> forall l, Forall (fun c => c = 0) l -> forall st, ec (fold_left F l st) = ec st.
Proof. intros HF. induction 1 as [|c l -> H IH]; intros st; cbn [fold_left]; auto. rewrite IH. apply HF. Qed.
Lemma firstn_nth {A} k i (l : list A) x : nth i (firstn k l) x = if (i <? k)%nat then nth i l x else x.
Proof.
  revert i l. induction k as [|k IH]; intros i l; [cbn; destruct i; reflexivity|]. destruct l as [|a l]; [cbn [firstn]; destruct i; cbn [nth]; match goal with |- context [if ?c then _ else _] => destruct c end; reflexivity|]. destruct i as [|i]; cbn [firstn nth]; [reflexivity|]. rewrite IH. reflexivity.
Qed.
(** every entry but the first stays zero; all entries if the first is zero too *)
Lemma transform_const exact c alpha beta j : (forall k, (1 <= k)%nat -> g c k = 0) -> (j <> 0%nat \/ g c 0 = 0) -> g (@transform1Dx R R_num exact c alpha beta) j = 0.
Proof.
  intros Hc Hj.
  assert (Hs : Forall (fun v => v = 0) (skipn 2 c)).
  { apply (Forall_nth_iff _ _ 0). intros i Hi. rewrite skipn_length in Hi. specialize (Hc (2 + i)%nat ltac:(lia)). unfold g in Hc. destruct c as [|a [|b c]]; cbn [skipn]; try (cbn in Hi; lia). exact Hc. }
  pose proof (Hc 1%nat (le_n _)) as H1.
  assert (Z : forall k, nth k (repeat 0 (length c)) 0 = 0) by (intros k; apply nth_repeat).
  assert (U : forall l i v k, (nth k l 0 = 0 \/ k = i) -> (v = 0 \/ k <> i) -> nth k (upd l i v) 0 = 0).
  { intros l i v k A B. destruct (Nat.eq_dec i k) as [->|N]; [|rewrite nth_upd_neq by auto; destruct A; [auto|congruence]]. destruct B as [->|B]; [|congruence].
    destruct (le_lt_dec (length l) k) as [L|L]; [apply nth_overflow; rewrite upd_length; auto|rewrite nth_upd_eq by auto; auto]. }
  assert (K : forall q1 q2, g (upd (upd (upd (repeat 0 (length c)) 0 (g c 0)) 0 (g (upd (repeat 0 (length c)) 0 (g c 0)) 0 + q1 * 0)) 1 (g (upd (upd (repeat 0 (length c)) 0 (g c 0)) 0 (g (upd (repeat 0 (length c)) 0 (g c 0)) 0 + q1 * 0)) 1 + q2 * 0)) j = 0).
  { intros q1 q2. unfold g. change (@n0 R R_num) with 0. fold (@g R R_num c 0). apply U.
    - left. apply U; [|destruct Hj as [Hj|Hj]; [right; auto|left; unfold g in Hj; change (@n0 R R_num) with 0 in Hj; rewrite Hj, U by (auto; left; auto); ring]]. destruct Hj as [Hj|Hj]; [left; apply U; auto|].
      destruct (Nat.eq_dec j 0); [right; auto|left; apply U; auto].
    - left. rewrite U; [ring| |right; lia]. left. apply U; [left; auto|right; lia]. }
  unfold transform1Dx. destruct exact; [unfold transform1DErrorFree, transform1DErrorFreeSplit; destruct (neqb _ _ && neqb _ _)|unfold transform1D]; cbv zeta; unfold g at 1; rewrite firstn_nth; match goal with |- context [if ?c then _ else _] => destruct c; [|reflexivity] end; rewrite H1.
  - rewrite erun_zero by (auto; apply sstep_zero). cbn [ec]. specialize (K 0 0). rewrite n2_R. rnum. change (@n0 R R_num) with 0 in *. unfold g at 1 in K. change (@n0 R R_num) with 0 in *.
    match goal with |- nth j ?a 0 = 0 => match type of K with nth j ?b 0 = 0 => replace a with b; auto end end. rewrite !Rmult_0_r. unfold Rdiv. rewrite Rmult_0_l. reflexivity.
  - rewrite erun_zero by (auto; apply estep_zero). apply K.
  - rewrite trun_zero by auto. apply K.
Qed.
Lemma transformND_noDep d exact i (M : tensor R) alpha beta : wf M -> (i < ndim M)%nat -> noDep d M -> noDep d (@transformND R R_num M i alpha beta exact).
Proof.
  intros W Hi H. rewrite transformND_eq by auto. destruct (_ || _); auto. intros idx Hr Hd. unfold apply_axis in *. rewrite tget_tbuild by exact Hr. cbn [shp tbuild] in Hr.
  pose proof (transform1Dx_le exact (fibre M i (repeat 0%nat (ndim M))) alpha beta) as Hle. rewrite fibre_length in Hle.
  assert (In' : forall k, (k < nth i (shp M) 0)%nat -> inrange (shp M) (upd idx i k)).
  { intros k Hk. apply inrange_iff. apply inrange_iff in Hr. rewrite upd_length in Hr. destruct Hr as [L Hr]. rewrite upd_length. split; auto. intros j Hj. specialize (Hr j Hj).
    destruct (Nat.eq_dec i j) as [->|N]; [rewrite nth_upd_eq by lia; auto|rewrite nth_upd_neq by auto; rewrite nth_upd_neq in Hr by auto; auto]. }
  assert (G : forall k, (d <> i \/ k <> 0%nat) -> g (fibre M i idx) k = 0).
  { intros k Hk. unfold g. destruct (le_lt_dec (nth i (shp M) 0%nat) k) as [L|L]; [apply nth_overflow; rewrite fibre_length; auto|]. rewrite fibre_nth by auto. apply H; auto.
    apply inrange_iff in Hr. destruct Hr as [L' _]. rewrite upd_length in L'. destruct (Nat.eq_dec i d) as [->|N]; [rewrite nth_upd_eq by (unfold ndim in Hi; lia); lia|rewrite nth_upd_neq by auto; auto]. }
  apply transform_const; [intros k Hk; apply G; lia|]. destruct (Nat.eq_dec d i) as [->|N]; [left; auto|right; apply G; auto].
Qed.
Lemma transformCheb_noDep d exact ab : forall dim (M : tensor R) err, wf M -> (dim + length ab <= ndim M)%nat -> noDep d M -> noDep d (fst (@transformCheb_from R R_num dim M ab err exact)).
Proof.
  induction ab as [|[a b] ab IH]; intros dim M err W Hl H; cbn [transformCheb_from]; cbv zeta; auto. cbn [length] in Hl.
  destruct (transformND_shape exact dim M a b W ltac:(lia)) as (W' & k & Hk & Hs). apply IH; auto; [unfold ndim in *; rewrite Hs, upd_length; lia|]. apply transformND_noDep; auto. lia.
Qed.
Lemma dropLast_noDep d i (M : tensor R) : noDep d M -> noDep d (@dropLast R R_num M i).
Proof.
  intros H idx Hr Hd. unfold dropLast in *. rewrite tget_tbuild by exact Hr. cbn [shp tbuild] in Hr. apply H; auto. apply inrange_iff. apply inrange_iff in Hr. rewrite upd_length in Hr. destruct Hr as [L Hr]. split; auto. intros j Hj. specialize (Hr j Hj).
  destruct (Nat.eq_dec i j) as [->|N]; [rewrite nth_upd_eq in Hr by lia; lia|rewrite nth_upd_neq in Hr by auto; auto].
Qed.
Lemma trimAxis_noDep d i k : forall (M : tensor R) al e, noDep d M -> noDep d (fst (fst (@trimAxis R R_num k i M al e))).
Proof. induction k as [|k IH]; intros M al e H; cbn [trimAxis]; auto. cbv zeta. destruct (_ && _); auto. apply IH, dropLast_noDep; auto. Qed.
Lemma trimM_noDep d dim (M : tensor R) e rel abs : noDep d M -> noDep d (fst (@trimM R R_num dim M e rel abs)).
Proof.
  intros H. unfold trimM.
  assert (G : forall l st, noDep d (fst (fst st)) -> noDep d (fst (fst (fold_left (fun st d => let '(M, al, e) := st in @trimAxis R R_num (nth d (shp M) 0%nat) d M al e) l st)))).
  { induction l as [|i l IH]; intros [[N al] e'] HN; cbn [fold_left]; auto. apply IH. apply trimAxis_noDep; auto. }
  specialize (G (seq 0 dim) (M, @nadd R R_num abs (@nmul R R_num e rel), e) H). destruct (fold_left _ _ _) as [[M' al'] e']. auto.
Qed.

Section Endless.
  Variables (n d : nat) (X : ext R) (o : opts).
  Hypothesis Hd : (S d < n)%nat.
  Hypothesis Hsvd : svd_ok n (xsvd X).
  Hypothesis Hsym : sym_solver_ok n (xrank X) (xsolve X).
  Hypothesis Has : argsort_ok (xargsort X).
  Hypothesis Hset : set_ok n (xset X).

  (** no polynomial depends on variable d *)
  Definition flatAt (Ms : list (tensor R)) : Prop := Forall (noDep d) Ms.

  (** ** the linear reduction *)
  Definition colZero (r : lrow R) : Prop := length (lA r) = n /\ nth d (lA r) 0 = 0.
  Lemma mkLRow_col M e : wf M -> ndim M = n -> noDep d M -> colZero (@mkLRow R R_num (M, e)).
  Proof.
    intros [W1 W] D F. split; cbn [mkLRow lA]; [rewrite getLinearTerms_length; auto|]. change 0 with (@n0 R R_num). rewrite getLinearTerms_spec by lia. destruct (Nat.eqb_spec (nth d (shp M) 0%nat) 1) as [E|E]; auto. rewrite D.
    assert (Hpd : (1 <= nth d (shp M) 0)%nat) by (rewrite Forall_forall in W; apply W, nth_In; unfold ndim in D; lia).
    apply F; [|rewrite eidx_nth by lia; rewrite Nat.eqb_refl; lia]. unfold ndim in D. rewrite <- D. apply eidx_inrange; auto; lia.
  Qed.
  Lemma scaleRow_col r : colZero r -> colZero (@scaleRow R R_num r).
  Proof.
    intros [A B]. unfold scaleRow. destruct (ngtb _ _); [|split; auto]. split; cbn [lA]; [rewrite map_length; auto|].
    rewrite (nth_map_lt _ _ _ 0) by lia. rewrite B. rnum. unfold Rdiv. ring.
  Qed.
  Lemma scaleCol_col rows cs i : Forall colZero rows -> length rows = n -> let r := @scaleCol R R_num (rows, cs) i in Forall colZero (fst r) /\ length (fst r) = n.
  Proof.
    intros H L. unfold scaleCol. destruct (ngtb _ _); cbn [fst]; auto. split; [|rewrite map_length; auto]. rewrite Forall_map. eapply Forall_impl; [|exact H]. intros r [A B]. split; cbn [lA]; [rewrite upd_length; auto|].
    destruct (Nat.eq_dec i d) as [->|N]; [rewrite nth_upd_eq by lia|rewrite nth_upd_neq by auto; auto]. change (@n0 R R_num) with 0. rewrite B. rnum. ring.
  Qed.
  Lemma scaleCols_col l : forall rows cs, Forall colZero rows -> length rows = n -> let r := fold_left (@scaleCol R R_num) l (rows, cs) in Forall colZero (fst r) /\ length (fst r) = n.
  Proof.
    induction l as [|i l IH]; intros rows cs H L; cbn [fold_left]; auto. destruct (scaleCol_col rows cs i H L) as [A B]. destruct (scaleCol (rows, cs) i) as [r' c']. apply IH; auto.
  Qed.
  Lemma linCol_none rows : Forall colZero rows -> @linCol R R_num rows d = (None, None).
  Proof.
    unfold linCol. intros H. generalize (@None R, @None R). induction H as [|r rows [A B] H IH]; intros ab; cbn [fold_left]; auto.
    change (@n0 R R_num) with 0. rewrite B. assert (E : @neqb R R_num 0 0 = true) by (apply Reqb_true; auto). rewrite E. apply IH.
  Qed.
  Lemma bounding_flat Ms errs : length Ms = n -> length errs = n -> Forall (fun M => wf M /\ ndim M = n) Ms -> flatAt Ms ->
    let r := @boundingInterval R R_num (xsvd X) Ms errs false in
    blStop r = false /\ (blChanged r = true -> nth d (blBox r) (0, 0) = (-1, 1)).
  Proof.
    intros HMl Hel HM HF. unfold boundingInterval, boundingIntervalW. cbv zeta.
    assert (Dn : ndim (nth 0 Ms (mkT [] [])) = n) by (rewrite Forall_forall in HM; apply HM, nth_In; lia). rewrite Dn.
    assert (H0 : Forall colZero (map (@scaleRow R R_num) (map mkLRow (combine Ms errs)))).
    { rewrite !Forall_map. apply Forall_forall. intros [M e] Hin. apply in_combine_l in Hin. apply scaleRow_col, mkLRow_col.
      - rewrite Forall_forall in HM. apply HM; auto.
      - rewrite Forall_forall in HM. apply HM; auto.
      - unfold flatAt in HF. rewrite Forall_forall in HF. apply HF; auto. }
    pose proof (scaleCols_col (seq 0 n) _ (repeat (@n1 R R_num) n) H0 ltac:(rewrite !map_length, combine_length; lia)) as [H1 L1].
    destruct (fold_left scaleCol _ _) as [rows cs]. cbn [fst] in H1, L1.
    assert (Sq : square n (map lA rows)).
    { split; [rewrite map_length; auto|]. rewrite Forall_map. eapply Forall_impl; [|exact H1]. intros r [A _]; auto. }
    pose proof (Hsvd _ Sq) as HS. pose proof (fun H => svd_inverse n _ _ HS H d d) as Hinv. pose proof (svd_nonneg _ _ _ HS (n - 1)%nat ltac:(lia)) as Hnn. pose proof (svd_nonneg _ _ _ HS 0%nat ltac:(lia)) as Hnn0.
    destruct (xsvd X (map lA rows)) as [[U Sv] Vh]. cbn [fst snd] in *.
    assert (Z : nth (n - 1) Sv 0 = 0).
    { destruct (Rle_lt_dec (nth (n - 1) Sv 0) 0) as [|P]; [lra|]. specialize (Hinv P ltac:(lia) ltac:(lia)). unfold delta in Hinv. rewrite Nat.eqb_refl in Hinv.
      rewrite (sumn_ext n _ (fun _ => 0)) in Hinv; [rewrite sumn_0 in Hinv; lra|]. intros k Hk. cbv beta.
      assert (E : @mget R R_num (map lA rows) k d = 0).
      { unfold mget. rewrite (nth_map_lt _ _ _ (mkRow [] 0 0 0 0)) by lia. rewrite Forall_forall in H1. apply H1, nth_In. lia. }
      rewrite E. ring. }
    destruct (negb _) eqn:E0; [split; [reflexivity|discriminate]|].
    assert (W : @ngtb R R_num (@ndiv R R_num (nth (n - 1) Sv (@n0 R R_num)) (nth 0 Sv (@n0 R R_num))) (nlit 1 10000000000) = false).
    { unfold ngtb. apply Rltb_false. rnum. rewrite nlit_R. change (@n0 R R_num) with 0. rewrite Z. unfold Rdiv. lra. }
    rewrite W. cbn [andb negb].
    match goal with |- context [existsb rowOut ?p] => set (ab1 := p) end.
    assert (N1 : nth d (map clipRow ab1) (0, 0) = (-1, 1)).
    { assert (L : length (@linearCheck1 R R_num rows n) = n) by (unfold linearCheck1; rewrite map_length, seq_length; auto).
      assert (N0 : nth d (@linearCheck1 R R_num rows n) (None, None) = (None, None)).
      { unfold linearCheck1. rewrite (nth_map_lt _ _ _ 0%nat) by (rewrite seq_length; lia). rewrite seq_nth by lia. apply linCol_none; auto. }
      rewrite (nth_map_lt _ _ _ (None, None)) by (unfold ab1; rewrite passBounds_length; lia). unfold ab1, passBounds. rewrite (nth_map_combine_seq _ _ _ (None, None)) by lia. rewrite N0. reflexivity. }
    destruct (_ || _) eqn:E1; [split; [reflexivity|intros _; exact N1]|].
    cbv zeta. match goal with |- context [if ?c then mkBL _ _ _ _ _ else _] => destruct c end; split; try reflexivity; cbn [blChanged]; discriminate.
  Qed.

  (** ** the polynomials never start to depend on variable d *)
  Lemma trim_flat Ms errs : flatAt Ms -> flatAt (fst (@trimMs R R_num Ms errs)).
  Proof.
    intros HF. unfold trimMs, trimMsTol. cbv zeta. cbn [fst]. unfold flatAt in *. rewrite !Forall_map. apply Forall_forall. intros [M e] Hin. apply in_combine_l in Hin. rewrite Forall_forall in HF. cbn [fst snd]. apply trimM_noDep; auto.
  Qed.
  Lemma toInterval_flat exact Ms ab errs : sysOK n exact Ms errs -> tr_ok n ab -> flatAt Ms -> flatAt (fst (@transformChebToInterval R R_num Ms ab errs exact)).
  Proof.
    intros [(Hn & HMl & Hel & HM) _] Hab HF. unfold transformChebToInterval. cbv zeta. cbn [fst]. unfold flatAt in *. rewrite !Forall_map. apply Forall_forall. intros [M e] Hin. apply in_combine_l in Hin. cbn [fst snd]. rewrite Forall_forall in HF, HM.
    unfold transformCheb. apply transformCheb_noDep; auto; [apply HM; auto|]. rewrite firstn_length. lia.
  Qed.

  (** ** the zoom loop leaves dimension d alone and never asks to stop *)
  Definition wide (t : tint R) : Prop := / 1000000000 <= snd (nth d (ivl t) (0, 0)) - fst (nth d (ivl t) (0, 0)).
  Lemma unit_sane : @saneSplit R R_num n (repeat 0 n).
  Proof. apply saneR; [|apply repeat_length]. apply Forall_forall. intros v Hv. apply repeat_spec in Hv. subst. lra. Qed.
  Lemma zoomIter_flat exact Ms errs t Ms' errs' t' ch stop : okti n t -> sysOK n exact Ms errs -> fin t = false -> flatAt Ms ->
    @zoomIter R R_num X exact Ms errs t = Ok (Ms', errs', t', ch, stop) -> empt t' = false ->
    stop = false /\ flatAt Ms' /\ nth d (ivl t') (0, 0) = nth d (ivl t) (0, 0) /\ npts t' = npts t.
  Proof.
    intros Ht Hsys Hf HF. pose proof Hsys as [(Hn & HMl & Hel & HM) Hcov]. pose proof (ok_tok n t Ht) as Htok. pose proof (tok_ivl_length n t Htok) as Hil.
    unfold zoomIter. cbv zeta. rewrite Hf. pose proof (bounding_flat Ms errs HMl Hel HM HF) as [B1 B2]. cbv zeta in B1, B2.
    pose proof (bounding_sub n (xsvd X) Ms errs Hn HMl HM Hel false) as Hsub. pose proof (bounding_range n (xsvd X) Ms errs Hn HMl HM Hel false) as Hrange.
    set (r := boundingInterval (xsvd X) Ms errs false) in *.
    assert (Ect : canThrowOut t = true) by (unfold canThrowOut; rewrite Hf; auto). rewrite Ect. cbn [negb]. rewrite andb_false_r.
    destruct (blThrow r) eqn:Eth; [intros E; inversion E; subst; discriminate|].
    destruct (blChanged r) eqn:Ech; cbn [negb].
    2:{ intros E _. inversion E; subst Ms' errs' t' ch stop. auto. }
    destruct (Hrange eq_refl) as (Hl & Hin & Hnan). specialize (Hsub eq_refl eq_refl). specialize (B2 eq_refl).
    pose proof (keepPoints_sub n (ivl t) (blBox r) Hil Hsub) as Hk. pose proof (keepPoints_nth n (ivl t) (blBox r) d Hil Hl ltac:(lia)) as Hkd.
    set (sub := keepPoints (ivl t) (blBox r)) in *. assert (Ed : nth d sub (0, 0) = (-1, 1)) by (destruct Hkd as [E|E]; rewrite E; auto).
    destruct (addTransform_sub n t sub Hk) as [Heff Hx]. rewrite (addTransform_eq t sub Hx), Heff.
    set (ab := map alphaBeta sub) in *. assert (Hab : tr_ok n ab) by (apply sub_ok_tr; auto).
    unfold getLastTransform. cbn [trs]. rewrite rev_app_distr. cbn [rev app fin].
    pose proof (toInterval_flat exact Ms ab errs Hsys Hab HF) as T1. destruct (transformChebToInterval Ms ab errs exact) as [Ms1 errs1] eqn:E. cbn [fst snd] in *.
    rewrite Hf. cbn [andb]. intros E' _. inversion E'; subst Ms' errs' t' ch stop. split; auto. split; auto. cbn [ivl npts]. split; auto.
    rewrite (nth_map_lt _ _ _ ((0, 0), (0, 0))) by (rewrite combine_length; destruct Hk; lia). rewrite combine_nth by (destruct Hk; lia). cbn [fst snd]. rewrite Ed.
    apply (newRow_unit n (repeat 0 n) unit_sane).
  Qed.
  Lemma zoomLoop_flat k : forall Ms errs t zc ls Ms' errs' t' stop, okti n t -> sysOK n (oexact o) Ms errs -> fin t = false -> flatAt Ms ->
    @zoomLoop R R_num X k o Ms errs t zc ls = Ok (Some (Ms', errs', t', stop)) ->
    stop = false /\ flatAt Ms' /\ nth d (ivl t') (0, 0) = nth d (ivl t) (0, 0) /\ npts t' = npts t.
  Proof.
    induction k as [|k IH]; intros Ms errs t zc ls Ms' errs' t' stop Ht Hsys Hf HF; cbn [zoomLoop]; [discriminate|].
    destruct (zoomIter_spec X n Hsvd (oexact o) Ms errs t Ht Hsys) as (Ms1 & errs1 & t1 & ch & st & E & H). rewrite E. cbn [bindR].
    destruct H as [(He & _)|Hz]; [rewrite He; discriminate|].
    pose proof (ok_emp _ _ (zs_ti _ _ _ _ _ _ _ _ Hz)) as He. rewrite He.
    destruct (zoomIter_flat _ _ _ _ _ _ _ _ _ Ht Hsys Hf HF E He) as (Z1 & Z2 & Z3 & Z4).
    destruct (_ && _).
    - intros E2. destruct (zs_kin _ _ _ _ _ _ _ _ Hz) as [e K].
      destruct (IH _ _ _ _ _ _ _ _ _ (zs_ti _ _ _ _ _ _ _ _ Hz) (zs_sys _ _ _ _ _ _ _ _ Hz) ltac:(rewrite (kin_fin _ _ _ K); auto) Z2 E2) as (Y1 & Y2 & Y3 & Y4).
      repeat split; auto; congruence.
    - intros E2. inversion E2; subst Ms' errs' t' stop. auto.
  Qed.

  (** ** the dimensions that are split *)
  Lemma notClose_d (iv : box R) : In d (@dimsNotClose R R_num iv n) -> @isclose R R_num (fst (nth d iv (0, 0))) (snd (nth d iv (0, 0))) = false.
  Proof.
    intros H. destruct (isclose _ _) eqn:E; auto. exfalso. revert H. unfold dimsNotClose.
    assert (G : forall l dims, NoDup l -> (In d dims /\ In (n - 1)%nat dims /\ NoDup dims /\ In d l /\ (forall i, In i l -> In i dims) /\ (forall a b, l = a ++ (n - 1)%nat :: b -> In d a)) \/ ~ In d dims ->
      ~ In d (fold_left (fun dims i => let p := nth i iv (@n0 R R_num, @n0 R R_num) in
                 if isclose (fst p) (snd p) then (if (length dims =? 1)%nat then dims else delVal dims i) else dims) l dims)).
    { induction l as [|i l IH]; intros dims Hnd [(A & B & N & L & C & D)|A]; cbn [fold_left]; [destruct L|exact A| | ].
      - apply NoDup_cons_iff in Hnd. destruct Hnd as [Hi Hnd]. cbv zeta. destruct (Nat.eq_dec i d) as [->|Ne].
        + apply IH; auto. right. change (@n0 R R_num) with 0. rewrite E.
          destruct (Nat.eqb_spec (length dims) 1) as [E1|_]; [|unfold delVal; rewrite filter_In, Nat.eqb_refl; intros [_ ?]; discriminate].
          exfalso. destruct dims as [|x [|y r]]; cbn in E1; try lia. destruct A as [A|[]], B as [B|[]]. lia.
        + destruct L as [L|L]; [congruence|]. apply IH; auto. left.
          assert (Ni : i <> (n - 1)%nat) by (intros ->; specialize (D [] l eq_refl); destruct D).
          assert (K : forall x, In x dims -> x <> i -> In x (if isclose (fst (nth i iv (@n0 R R_num, @n0 R R_num))) (snd (nth i iv (@n0 R R_num, @n0 R R_num))) then (if (length dims =? 1)%nat then dims else delVal dims i) else dims)).
          { intros x Hx Hxi. destruct (isclose (fst (nth i iv _)) (snd (nth i iv _))); [|exact Hx]. destruct (length dims =? 1)%nat; [exact Hx|]. unfold delVal. apply filter_In. split; auto. destruct (Nat.eqb_spec x i); auto. }
          split; [apply K; auto|]. split; [apply K; auto|]. split; [destruct (isclose (fst (nth i iv _)) (snd (nth i iv _))); [|exact N]; destruct (length dims =? 1)%nat; [exact N|]; apply NoDup_filter; auto|].
          split; auto. split; [intros j Hj; apply K; [apply C; right; auto|intros ->; contradiction]|].
          intros a b Eab. specialize (D (i :: a) b). cbn in D. rewrite Eab in D. destruct (D eq_refl); [congruence|auto].
      - apply NoDup_cons_iff in Hnd. destruct Hnd as [Hi Hnd]. apply IH; auto. right. cbv zeta. destruct (isclose (fst (nth i iv _)) (snd (nth i iv _))); [|exact A]. destruct (length dims =? 1)%nat; [exact A|]. unfold delVal. rewrite filter_In. intros [? _]; auto. }
    apply G; [apply seq_NoDup|]. left. rewrite !in_seq. repeat split; try lia; [apply seq_NoDup|auto|].
    intros a b Eab. assert (Hin : In d (seq 0 n)) by (apply in_seq; lia). rewrite Eab in Hin. apply in_app_iff in Hin. destruct Hin as [|[Hin|Hin]]; auto; [lia|]. exfalso.
    destruct (in_split _ _ Hin) as (u & v & ->).
    assert (Len : length (a ++ (n - 1)%nat :: u ++ d :: v) = n) by (rewrite <- Eab; apply seq_length). rewrite app_length in Len. cbn [length] in Len. rewrite app_length in Len. cbn [length] in Len.
    assert (N1 : nth (length a) (seq 0 n) 0%nat = (n - 1)%nat) by (rewrite Eab, app_nth2, Nat.sub_diag by lia; reflexivity). rewrite seq_nth in N1 by lia. lia.
  Qed.
  Lemma subdims_d Ms (ti : tint R) level : length Ms = n -> In d (@subdivisionDims R R_num Ms ti level) -> @isclose R R_num (fst (nth d (ivl ti) (0, 0))) (snd (nth d (ivl ti) (0, 0))) = false.
  Proof.
    intros HMl. unfold subdivisionDims. rewrite HMl. cbv zeta. destruct (5 <? level)%nat; [apply notClose_d|]. intros H. apply notClose_d. revert H. unfold dimsLarge. cbv zeta.
    match goal with |- context [filter ?f ?l] => set (dims := filter f l) end. assert (I : In d dims -> In d (@dimsNotClose R R_num (ivl ti) n)) by (unfold dims; rewrite filter_In; tauto).
    destruct (1 <? length dims)%nat; auto. intros H. apply I. revert H.
    assert (G : forall f l ds, In d (fold_left (fun ds i => if (1 <? length ds)%nat && f i then delVal ds i else ds) l ds) -> In d ds).
    { intros f. induction l as [|i l IH]; intros ds; cbn [fold_left]; auto. intros H. apply IH in H. destruct (_ && _); auto. unfold delVal in H. apply filter_In in H. tauto. }
    apply (G (fun i => (fold_right Nat.add 0%nat (map (fun M : tensor R => nth i (shp M) 0%nat) Ms) <? fold_right Nat.add 0%nat (map (fun i0 => fold_right Nat.add 0%nat (map (fun M : tensor R => nth i0 (shp M) 0%nat) Ms)) (seq 0 n)) / (n + 1))%nat)).
  Qed.

  (** ** one child *)
  Lemma polyAt_flat exact npt ord : forall bs M e, Forall (fun i => (i < n)%nat) ord -> wf M -> ndim M = n -> noDep d M ->
    noDep d (fst (@polyAt R R_num exact npt ord bs (M, e))).
  Proof.
    induction ord as [|i ord IH]; intros [|b bs] M e Hf W D F; cbn [polyAt fst]; auto. apply Forall_cons_iff in Hf. destruct Hf as [Hi Hf].
    unfold sideP at 1. cbn [fst snd]. unfold chebTransform1D.
    destruct (transformND_shape exact i M (fst (@sidePair R R_num npt b i)) (snd (@sidePair R R_num npt b i)) W ltac:(lia)) as (W' & k & Hk & Hs).
    apply IH; auto; [unfold ndim in *; rewrite Hs, upd_length; auto|]. apply transformND_noDep; auto. lia.
  Qed.
  Lemma intAt_npts npt dims : forall bs (t : tint R), Rabs (nth d (npts t) 0) <= / 2 -> Rabs (nth d (npts (@intAt R R_num npt dims bs t)) 0) <= / 2.
  Proof.
    induction dims as [|i dims IH]; intros [|b bs] t H; cbn [intAt]; auto. apply IH. unfold sideI. cbv zeta. unfold setNext. cbn [npts]. unfold addTransform.
    assert (G : forall l, Rabs (nth d l 0) <= / 2 -> Rabs (nth d (upd l i (@n0 R R_num)) 0) <= / 2).
    { intros l Hl. destruct (Nat.eq_dec i d) as [->|N]; [|rewrite nth_upd_neq by auto; auto]. destruct (le_lt_dec (length l) d) as [L|L].
      - rewrite nth_overflow by (rewrite upd_length; auto). rewrite Rabs_R0. lra.
      - rewrite nth_upd_eq by auto. rnum. rewrite Rabs_R0. lra. }
    destruct (_ && _); cbn [npts copyT]; apply G; auto.
  Qed.

  (** ** the recursion *)
  Theorem solvePoly_endless : forall fuel level Ms ti errs fs y r, inOK n ti -> sysOK n (oexact o) Ms errs -> fin ti = false -> flatAt Ms -> wide ti ->
    Rabs (nth d (npts ti) 0) <= / 2 -> appr n (oexact o) (quadOn o n) fs (trs ti) Ms errs -> zeroAt n fs (trs ti) y ->
    @solvePoly R R_num X fuel o level Ms ti errs <> Ok r.
  Proof.
    induction fuel as [|fuel IH]; intros level Ms ti errs fs y r Hin Hsys Hf HF Hw Hp HA HZ; cbn [solvePoly]; [discriminate|].
    pose proof (io_ok n ti Hin) as Hok. pose proof (ok_tok n ti Hok) as Htok. pose proof (ok_fresh n ti Hok) as Hfr.
    destruct (isPoint ti) eqn:Ept.
    { exfalso. unfold isPoint in Ept. rewrite forallb_forall in Ept. specialize (Ept (nth d (ivl ti) (0, 0))). assert (I : In (nth d (ivl ti) (0, 0)) (ivl ti)) by (apply nth_In; rewrite (tok_ivl_length n ti Htok); lia).
      specialize (Ept I). apply Rltb_true in Ept. rewrite nlit_R in Ept. rnum. unfold wide in Hw. revert Ept. rewrite Rabs_minus_sym. unfold Rabs. destruct Rcase_abs; lra. }
    rewrite (entry_const n o Ms errs fs (trs ti) y), andb_false_r by (auto; apply Hsys). rewrite (entry_quad X n o Hsym Ms errs fs (trs ti) y) by (auto; apply Hsys).
    cbv zeta. pose proof (trim_ok n (oexact o) Ms errs Hsys) as Htrim. pose proof (trim_flat Ms errs HF) as HF1. cbv zeta in Htrim. destruct (trimMs Ms errs) as [Ms1 errs1]. cbn [fst snd] in Htrim, HF1. destruct Htrim as (S1 & M1 & A1).
    specialize (A1 (quadOn o n) fs (trs ti) (tok_trs n ti Htok) HA).
    pose proof (kin_copy ti Hfr) as Kc. set (ti1 := copyT ti) in *. assert (Htok1 : tok n ti1) by (apply copy_tok; auto).
    assert (Hin1 : inOK n ti1) by (apply (kin_inOK n ti ti1 []); auto).
    pose proof (zoomLoop_spec X n Hsvd o fuel Ms1 errs1 ti1 0 (dimSize ti1) (io_ok n ti1 Hin1) S1) as Hzoom.
    destruct (zoomLoop X fuel o Ms1 errs1 ti1 0 (dimSize ti1)) as [[[[[Ms2 errs2] ti2] stop]|] | |] eqn:Ez; cbn [bindR]; try discriminate.
    2:{ exfalso. destruct Hzoom as [_ Hno]. apply (Hno Hf (quadOn o n) fs y); auto. }
    destruct (zoomLoop_flat fuel _ _ _ _ _ _ _ _ _ (io_ok n ti1 Hin1) S1 Hf HF1 Ez) as (-> & HF2 & Ei & En). change (ivl ti1) with (ivl ti) in Ei. change (npts ti1) with (npts ti) in En.
    destruct (zs_kin _ _ _ _ _ _ _ _ Hzoom) as [e2 K2]. pose proof (kin_trans _ _ _ _ _ Kc K2) as K. cbn [app] in K.
    pose proof (zs_ti _ _ _ _ _ _ _ _ Hzoom) as Hok2. pose proof (ok_tok n ti2 Hok2) as Htok2.
    pose proof (kin_inOK n ti ti2 e2 Hin Htok2 K) as Hin2. pose proof (zs_sys _ _ _ _ _ _ _ _ Hzoom) as S2.
    pose proof (zs_appr _ _ _ _ _ _ _ _ Hzoom (quadOn o n) fs A1) as A2.
    destruct (zs_root _ _ _ _ _ _ _ _ Hzoom Hf (quadOn o n) fs y A1 HZ) as (y2 & Hy2 & Ey2). change (trs ti1) with (trs ti) in Ey2.
    rewrite (kin_fin _ _ _ K), Hf.
    destruct (getSubdivisionIntervals X (oexact o) Ms2 errs2 ti2 (S level)) as [ch| |] eqn:Ech; cbn [bindR]; try discriminate.
    destruct (children_good X n o Has Hset Ms2 errs2 ti2 (S level) Hin2 S2 ch Ech) as [Hch Hcov].
    destruct (runAll _ ch) as [[ri re]| |] eqn:Er; cbn [bindR]; try discriminate. exfalso.
    destruct (runAll_spec _ ch ri re Er) as (Ra & _ & _).
    destruct (Hcov y2 Hy2) as (c & y3 & Hc & Hy3 & Ey3). destruct (Hch c Hc) as (C1 & (ec & C2) & C3 & C4). specialize (C4 fs A2).
    destruct (Ra c Hc) as (i1 & e1 & Ec & _). 
    (* the child *)
    pose proof (proj1 S2) as (Hn & HMl & Hel & HM).
    assert (HMd : Forall (fun M => ndim M = n) Ms2) by (eapply Forall_impl; [|exact HM]; intros M [_ D]; auto).
    pose proof (children_spec X n Has Hset (oexact o) Ms2 errs2 ti2 (S level) Hn HMl Hel HMd) as Hs. cbv zeta in Hs.
    destruct (subdims_ok n Ms2 ti2 (S level) HMl) as [Hd1 Hd2]. pose proof (subdims_d Ms2 ti2 (S level) HMl) as Hsd. set (dims := subdivisionDims Ms2 ti2 (S level)) in *.
    rewrite Hs in Ech. destruct (_ && _) in Ech; [discriminate|]. inversion Ech as [Ech']. rewrite <- Ech' in Hc. apply in_map_iff in Hc. destruct Hc as (bs & Ebs & Hb). apply in_bitLists in Hb.
    destruct c as [[Mc ec'] tc]. cbn [fst snd] in *. unfold childAt in Ebs. inversion Ebs as [[EM Ee Et]].
    apply (IH (S level) Mc tc ec' fs y3 (i1, e1)); auto.
    - rewrite (kin_fin _ _ _ C2), (kin_fin _ _ _ K). auto.
    - rewrite <- EM. unfold flatAt in *. rewrite map_map, Forall_map. apply Forall_forall. intros [M e] Hin'. apply in_combine_l in Hin'. rewrite Forall_forall in HF2, HM. destruct (HM M Hin') as [W D].
      apply polyAt_flat; auto. cbn [fst]. apply Forall_forall. intros i Hi. rewrite Forall_forall in Hd2. apply Hd2. eapply Permutation_in; [apply (orderFor_perm X Has)|exact Hi].
    - (* the width of the child *)
      pose proof (saneR n (npts ti2) (tok_npt n ti2 Htok2) (tok_pts n ti2 Htok2)) as Hsane. pose proof (tok_ivl_length n ti2 Htok2) as Hil.
      destruct (intAt_ivl n (npts ti2) Hsane dims bs ti2 Hil (sorted_lt_NoDup dims Hd1) Hd2 (proj1 Hb)) as [_ P]. specialize (P d ltac:(lia)).
      unfold wide in *. rewrite <- Et. change (0, 0) with (@n0 R R_num, @n0 R R_num). rewrite P. change (@n0 R R_num) with 0. rewrite Ei.
      destruct (existsb (Nat.eqb d) dims) eqn:Ex; auto. apply existsb_exists in Ex. destruct Ex as (d' & Hd' & Ed'). apply Nat.eqb_eq in Ed'. subst d'. specialize (Hsd Hd'). rewrite Ei in Hsd.
      unfold isclose in Hsd. apply Rleb_false in Hsd. rewrite !nlit_R in Hsd. rnum.
      set (a := fst (nth d (ivl ti) (0, 0))) in *. set (b := snd (nth d (ivl ti) (0, 0))) in *.
      assert (W8 : / 100000000 < b - a). { pose proof (Rabs_pos b). revert Hsd. rewrite Rabs_minus_sym. rewrite (Rabs_pos_eq (b - a)) by lra. lra. }
      unfold halfRow, splitAt. fold a b. rewrite n2_R. rnum. change (@n0 R R_num) with 0. rewrite En.
      set (m := nth d (npts ti) 0) in *. assert (Hm : -/2 <= m <= /2) by (revert Hp; unfold Rabs; destruct Rcase_abs; lra).
      assert (Q : - ((b - a) / 4) <= (b - a) / 2 * m <= (b - a) / 4) by nra.
      destruct (bitOf dims bs d =? 0)%nat; cbn [fst snd]; lra.
    - rewrite <- Et. apply intAt_npts. rewrite En. auto.
    - split; auto. intros k Hk. rewrite <- Ey3, <- Ey2. apply HZ; auto.
  Qed.
End Endless.
