(** * Multiplying the polynomials and their errors by powers of two does not change what the subdivision solver does *)
From Coq Require Import List Arith Bool Lia ZArith Sorted Permutation Reals Lra.
From Flocq Require Import Core.
From Verif Require Import Num RSum Cheb Tensor PolySpec SystemSpec PartProofs TransformModel TransformNDProofs TransformChebProofs IntervalModel IntervalProofs LinearModel LinearProofs
  QuadModel QuadSharpSpec QuadNdFaces SharpProps SolverModel OrderProofs SubdivProofs TrimProofs ScaleTransform.
From Coq Require Import List.
Import ListNotations.
Local Open Scope R_scope.

Definition isPow2 (l : R) : Prop := exists k, l = bpow radix2 k.
Lemma pow2_pos l : isPow2 l -> 0 < l.
Proof. intros [k ->]. apply bpow_gt_0. Qed.

(** ** comparisons *)
Lemma Rltb_sc l x y : 0 < l -> Rltb (l * x) (l * y) = Rltb x y.
Proof.
  intros H. destruct (Rltb x y) eqn:E; [apply Rltb_true in E; apply Rltb_true; apply Rmult_lt_compat_l; auto|].
  apply Rltb_false in E. apply Rltb_false. apply Rnot_lt_le in E || idtac. try (apply Rmult_le_compat_l; lra). 
Qed.
Lemma pow2fl_sc l m : isPow2 l -> 0 < m -> Rpow2fl (l * m) = l * Rpow2fl m.
Proof.
  intros [k ->] H. unfold Rpow2fl. rewrite Rmult_comm, mag_mult_bpow by lra. rewrite <- bpow_plus. f_equal. lia.
Qed.

(** ** the linear part *)
Lemma linTerms_sc l d s : forall k, @linTerms R R_num (map (Rmult l) d) s k = map (Rmult l) (@linTerms R R_num d s k).
Proof.
  induction s as [|i s IH]; intros k; cbn [linTerms map]; auto. rewrite IH. f_equal. destruct (i =? 1)%nat; rnum; [ring|apply nth_sc].
Qed.
Lemma linear_sc l M : @getLinearTerms R R_num (tscale l M) = map (Rmult l) (@getLinearTerms R R_num M).
Proof. unfold getLinearTerms, tscale. cbn [shp dat]. rewrite linTerms_sc, map_rev. reflexivity. Qed.
Lemma const_sc l M : @tconst R R_num (tscale l M) = l * @tconst R R_num M.
Proof. unfold tconst, tscale. cbn [dat]. apply nth_sc. Qed.
Lemma constOne_sc l M e : 0 < l ->
  (let c := @tconst R R_num (tscale l M) in ngtb (nabs c) (tsumabs (tscale l M) - nabs c + l * e)%num) =
  (let c := @tconst R R_num M in ngtb (nabs c) (tsumabs M - nabs c + e)%num).
Proof.
  intros Hl. cbv zeta. rewrite const_sc, tsumabs_sc by auto. unfold ngtb. rnum. rewrite Rabs_mult, (Rabs_pos_eq l) by lra.
  rewrite <- (Rltb_sc l (tsumabs M - Rabs (tconst M) + e)) by auto. f_equal. ring.
Qed.

Lemma nmaxl_sc l r : 0 < l -> forall x, @nmaxl R R_num (l * x) (map (Rmult l) r) = l * @nmaxl R R_num x r.
Proof.
  intros Hl. unfold nmaxl. induction r as [|y r IH]; intros x; cbn [fold_left map]; auto. rewrite !nmax_R, RmaxRmult by lra. apply IH.
Qed.
Lemma maxAbs_sc l A : 0 < l -> @maxAbs R R_num (map (Rmult l) A) = l * @maxAbs R R_num A.
Proof.
  intros Hl. unfold maxAbs. rnum. destruct A as [|x A]; cbn [map]; [ring|]. rewrite Rabs_mult, (Rabs_pos_eq l) by lra.
  rewrite <- nmaxl_sc by auto. f_equal. rewrite !map_map. apply map_ext. intros y. rewrite Rabs_mult, (Rabs_pos_eq l) by lra. reflexivity.
Qed.

(** two rows of the linear system that the rest of the code cannot tell apart, unless the matrix is invertible *)
Definition rr (r r' : lrow R) : Prop := r' = r \/ (lA r' = lA r /\ forall i, nth i (lA r) 0 = 0).
Lemma mkLRow_sc l M e : 0 < l -> @mkLRow R R_num (tscale l M, l * e) =
  let r := @mkLRow R R_num (M, e) in mkRow (map (Rmult l) (lA r)) (l * lc r) (l * ltot r) (l * lerr r) (l * le r).
Proof.
  intros Hl. unfold mkLRow. cbn [lA lc ltot lerr le]. rewrite linear_sc, const_sc, tsumabs_sc, nsumabs_sc by auto. rnum. rewrite Rabs_mult, (Rabs_pos_eq l) by lra. f_equal; ring.
Qed.
Lemma row_sc l M e : isPow2 l -> rr (@scaleRow R R_num (@mkLRow R R_num (M, e))) (@scaleRow R R_num (@mkLRow R R_num (tscale l M, l * e))).
Proof.
  intros Hp. pose proof (pow2_pos l Hp) as Hl. rewrite mkLRow_sc by auto. cbv zeta. set (r := mkLRow (M, e)). clearbody r. unfold scaleRow. cbn [lA lc ltot lerr le]. rewrite maxAbs_sc by auto.
  unfold ngtb. rnum. replace (Rltb 0 (l * maxAbs (lA r))) with (Rltb 0 (maxAbs (lA r))) by (rewrite <- (Rltb_sc l) by auto; rewrite Rmult_0_r; reflexivity).
  destruct (Rltb 0 (@maxAbs R R_num (lA r))) eqn:E.
  - apply Rltb_true in E. left. rewrite !Rabs_pos_eq by nra. rewrite pow2fl_sc by auto. pose proof (Rpow2fl_pos (@maxAbs R R_num (lA r))) as Hs. set (s := Rpow2fl _) in *. clearbody s.
    assert (D : forall x, l * x / (l * s) = x / s) by (intros; field; lra). rewrite map_map, !D. f_equal. apply map_ext. auto.
  - apply Rltb_false in E. right. cbn [lA].
    assert (Z : forall x, In x (lA r) -> x = 0).
    { intros x Hx. pose proof (maxAbs_ge _ _ Hx). pose proof (Rabs_pos x). destruct (Req_dec x 0); auto. pose proof (Rabs_pos_lt x ltac:(auto)). lra. }
    split.
    + rewrite <- (map_id (lA r)) at 2. apply map_ext_in. intros x Hx. rewrite (Z x Hx). ring.
    + intros i. destruct (le_lt_dec (length (lA r)) i); [apply nth_overflow; auto|]. apply Z, nth_In; auto.
Qed.
Lemma rr_lA rows rows' : Forall2 rr rows rows' -> map lA rows' = map lA rows.
Proof. induction 1 as [|r r' rows rows' H HF IH]; cbn; auto. rewrite IH. f_equal. destruct H as [->|[H _]]; auto. Qed.
Lemma scaleCol_rr rows rows' cs i : Forall2 rr rows rows' ->
  Forall2 rr (fst (@scaleCol R R_num (rows, cs) i)) (fst (@scaleCol R R_num (rows', cs) i)) /\ snd (@scaleCol R R_num (rows', cs) i) = snd (@scaleCol R R_num (rows, cs) i).
Proof.
  intros H. unfold scaleCol. replace (map (fun r => nth i (lA r) n0) rows') with (map (fun r => nth i (lA r) (@n0 R R_num)) rows).
  2:{ rewrite <- (map_map (@lA R) (fun v => nth i v (@n0 R R_num)) rows'), (rr_lA _ _ H), map_map. reflexivity. }
  destruct (ngtb _ _); cbn [fst snd]; auto. split; auto. set (s := ndiv _ _). clearbody s.
  induction H as [|r r' rows rows' H HF IH]; cbn [map]; constructor; auto. destruct H as [->|[H Z]]; [left; auto|]. right. cbn [lA]. rewrite H. split; auto. intros j.
  destruct (Nat.eq_dec i j) as [->|N]; [|rewrite nth_upd_neq by auto; auto]. rnum. rewrite Z. destruct (le_lt_dec (length (lA r)) j); [apply nth_overflow; rewrite upd_length; auto|]. rewrite nth_upd_eq by auto. ring.
Qed.
Lemma scaleCols_rr c : forall rows rows' cs, Forall2 rr rows rows' ->
  Forall2 rr (fst (fold_left (@scaleCol R R_num) c (rows, cs))) (fst (fold_left (@scaleCol R R_num) c (rows', cs))) /\
  snd (fold_left (@scaleCol R R_num) c (rows', cs)) = snd (fold_left (@scaleCol R R_num) c (rows, cs)).
Proof.
  induction c as [|i c IH]; intros rows rows' cs H; cbn [fold_left]; auto. destruct (scaleCol_rr rows rows' cs i H) as [A B].
  destruct (scaleCol (rows, cs) i) as [r1 c1]. destruct (scaleCol (rows', cs) i) as [r1' c1']. cbn [fst snd] in *. subst c1'. apply IH; auto.
Qed.
Lemma linCol_rr rows rows' col : Forall2 rr rows rows' -> @linCol R R_num rows' col = @linCol R R_num rows col.
Proof.
  intros H. unfold linCol. generalize (@None R, @None R). induction H as [|r r' rows rows' H HF IH]; intros ab; cbn [fold_left]; auto.
  destruct H as [->|[H Z]]; [apply IH|]. rewrite H. change (@n0 R R_num) with 0. rewrite Z. assert (E : @neqb R R_num 0 0 = true) by (apply Reqb_true; auto). rewrite E. apply IH.
Qed.
Lemma rr_cases rows rows' : Forall2 rr rows rows' -> rows' = rows \/ exists k, (k < length rows)%nat /\ forall i, nth i (lA (nth k rows noRow)) 0 = 0.
Proof.
  induction 1 as [|r r' rows rows' H HF IH]; auto. destruct H as [->|[H Z]]; [|right; exists 0%nat; cbn; split; [lia|auto]].
  destruct IH as [->|(k & Hk & IH)]; auto. right. exists (S k). cbn. split; [lia|auto].
Qed.

(** ** a zero row: the smallest singular value is 0 *)
Lemma zero_row n A usv k : is_svd n A usv -> (k < n)%nat -> (forall j, (j < n)%nat -> @mget R R_num A k j = 0) -> nth (n - 1) (snd (fst usv)) 0 = 0.
Proof.
  intros [HA HU HV HV2 H0 HS] Hk HZ. destruct (Rle_lt_dec (nth (n - 1) (snd (fst usv)) 0) 0) as [|P]; [pose proof (H0 (n - 1)%nat ltac:(lia)); lra|]. exfalso.
  set (U := fun i j => @mget R R_num (fst (fst usv)) i j). set (V := fun i j => @mget R R_num (snd usv) i j) in *. set (S := fun j => nth j (snd (fst usv)) 0).
  (* row k of U is zero *)
  assert (ZU : forall p, (p < n)%nat -> U k p = 0).
  { intros p Hp. assert (E : U k p * S p = 0).
    - transitivity (sumn n (fun j => @mget R R_num A k j * V p j)); [|apply sumn_zero; intros j Hj; rewrite HZ by auto; ring].
      symmetry. transitivity (sumn n (fun j => sumn n (fun m => U k m * S m * (V p j * V m j)))).
      { apply sumn_ext. intros j Hj. rewrite HA by auto. rewrite Rmult_comm, <- sumn_scal. apply sumn_ext. intros m Hm. fold (U k m) (S m) (V m j). ring. }
      rewrite sumn_swap. transitivity (sumn n (fun m => delta p m * (U k m * S m))); [|apply (sumn_delta n p (fun m => U k m * S m)); auto].
      apply sumn_ext. intros m Hm. rewrite sumn_scal. unfold V. rewrite HV2 by auto. ring.
    - pose proof (HS p (n - 1)%nat ltac:(lia) ltac:(lia)) as Hs. fold (S p) in Hs. assert (S p <> 0) by lra. apply Rmult_integral in E. destruct E; auto; contradiction. }
  (* the squared length of every row is at most 1, and they add up to n *)
  set (q := fun i => sumn n (fun p => U i p * U i p)).
  assert (Q1 : forall i, (i < n)%nat -> q i <= 1).
  { intros i Hi. set (w := fun j => sumn n (fun p => U i p * U j p)).
    assert (W : sumn n (fun j => w j * w j) = q i).
    { unfold w. transitivity (sumn n (fun j => sumn n (fun p => U i p * sumn n (fun p' => U i p' * (U j p * U j p'))))).
      - apply sumn_ext. intros j Hj. rewrite <- sumn_scal_r. apply sumn_ext. intros p Hp. rewrite Rmult_assoc. f_equal. rewrite <- sumn_scal. apply sumn_ext. intros; ring.
      - rewrite sumn_swap. apply sumn_ext. intros p Hp. rewrite sumn_scal. f_equal. rewrite sumn_swap.
        transitivity (sumn n (fun p' => delta p p' * U i p')); [|apply (sumn_delta n p (fun m => U i m)); auto]. apply sumn_ext. intros p' Hp'. rewrite sumn_scal. unfold U at 2 3. rewrite HU by auto. ring. }
    assert (N : 0 <= sumn n (fun j => (delta i j - w j) * (delta i j - w j))) by (apply sumn_nonneg; intros; apply Rle_0_sqr).
    assert (E : sumn n (fun j => (delta i j - w j) * (delta i j - w j)) = 1 - q i).
    { transitivity (sumn n (fun j => delta i j * (delta i j - 2 * w j)) + sumn n (fun j => w j * w j)); [rewrite <- sumn_plus; apply sumn_ext; intros; ring|].
      rewrite W, (sumn_delta n i (fun j => delta i j - 2 * w j)) by auto. unfold delta. rewrite Nat.eqb_refl. unfold w. fold (q i). ring. }
    lra. }
  assert (T : sumn n q = INR n).
  { unfold q. rewrite sumn_swap. rewrite (sumn_ext n _ (fun _ => 1)); [rewrite sumn_const; ring|].
    intros p Hp. unfold U. rewrite HU by auto. unfold delta. rewrite Nat.eqb_refl. reflexivity. }
  assert (B : sumn n q <= INR n - 1); [|lra].
  assert (K : sumn n q <= sumn n (fun i => 1 - delta k i)).
  { apply sumn_le. intros i Hi. unfold delta. destruct (Nat.eqb_spec k i) as [<-|N]; [|specialize (Q1 i Hi); lra]. unfold q. rewrite sumn_zero; [lra|]. intros p Hp. rewrite ZU by auto. ring. }
  rewrite sumn_minus in K. assert (D : sumn n (fun i => delta k i) = 1) by (rewrite (sumn_ext n _ (fun i => delta k i * 1)) by (intros; ring); apply (sumn_delta n k (fun _ => 1)); auto).
  assert (C : sumn n (fun _ => 1) = INR n) by (rewrite sumn_const; ring). assert (D' : sumn n (delta k) = 1) by exact D. rewrite C in K. lra.
Qed.

(** ** lists *)
Definition sT (ls : list R) (Ms : list (tensor R)) : list (tensor R) := map (fun p => tscale (fst p) (snd p)) (combine ls Ms).
Definition sE (ls : list R) (es : list R) : list R := map (fun p => fst p * snd p) (combine ls es).
Lemma sT_length ls Ms : length ls = length Ms -> length (sT ls Ms) = length Ms.
Proof. intros H. unfold sT. rewrite map_length, combine_length. lia. Qed.
Lemma sE_length ls es : length ls = length es -> length (sE ls es) = length es.
Proof. intros H. unfold sE. rewrite map_length, combine_length. lia. Qed.
Lemma sT_shp {B} (f : list nat -> B) ls : forall Ms, length ls = length Ms -> map (fun M => f (shp M)) (sT ls Ms) = map (fun M => f (shp M)) Ms.
Proof. induction ls as [|l ls IH]; intros [|M Ms] H; try discriminate; auto. cbn. f_equal. apply IH. cbn in H. lia. Qed.
Lemma sE_zero ls : forall es, sE ls (map (fun _ => 0) es) = map (fun _ => 0) (sE ls es).
Proof. induction ls as [|l ls IH]; intros [|e es]; auto. cbn. rewrite Rmult_0_r. f_equal. apply IH. Qed.
Lemma zip_sc (F : tensor R * R -> tensor R * R) ls : Forall isPow2 ls ->
  (forall l M e, isPow2 l -> F (tscale l M, l * e) = (tscale l (fst (F (M, e))), l * snd (F (M, e)))) ->
  forall Ms es, map fst (map F (combine (sT ls Ms) (sE ls es))) = sT ls (map fst (map F (combine Ms es))) /\
                map snd (map F (combine (sT ls Ms) (sE ls es))) = sE ls (map snd (map F (combine Ms es))).
Proof.
  intros Hp HF. induction Hp as [|l ls Hl Hp IH]; intros [|M Ms] [|e es]; auto. destruct (IH Ms es) as [A B]. unfold sT, sE in *. cbn [combine map fst snd]. rewrite A, B, HF by auto. split; reflexivity.
Qed.
Lemma existsb_sc (P : tensor R * R -> bool) (G : tensor R -> Prop) ls : Forall isPow2 ls ->
  (forall l M e, isPow2 l -> G M -> P (tscale l M, l * e) = P (M, e)) ->
  forall Ms es, length ls = length Ms -> Forall G Ms -> existsb P (combine (sT ls Ms) (sE ls es)) = existsb P (combine Ms es).
Proof.
  intros Hp HP. induction Hp as [|l ls Hl Hp IH]; intros [|M Ms] [|e es] Hlen HG; try discriminate; auto. apply Forall_cons_iff in HG. destruct HG as [HG1 HG]. unfold sT, sE in *. cbn [combine map fst snd existsb]. rewrite HP by auto. f_equal. apply IH; auto.
Qed.
Lemma rows_rr ls : Forall isPow2 ls -> forall Ms es, length ls = length Ms ->
  Forall2 rr (map (@scaleRow R R_num) (map mkLRow (combine Ms es))) (map (@scaleRow R R_num) (map mkLRow (combine (sT ls Ms) (sE ls es)))).
Proof.
  induction 1 as [|l ls Hl Hp IH]; intros [|M Ms] [|e es] Hlen; try discriminate; cbn; try constructor; [apply row_sc; auto|]. apply IH. cbn in Hlen. lia.
Qed.

(** ** the linear bound *)
Lemma bounding_sc n svd ls Ms es fs : (0 < n)%nat -> Forall isPow2 ls -> length ls = n -> length Ms = n -> length es = n -> Forall (fun M => wf M /\ ndim M = n) Ms -> svd_ok n svd ->
  @boundingInterval R R_num svd (sT ls Ms) (sE ls es) fs = @boundingInterval R R_num svd Ms es fs.
Proof.
  intros Hn Hp Hls HM He HMs Hsvd. unfold boundingInterval, boundingIntervalW. cbv zeta.
  assert (Dn : ndim (nth 0 Ms (mkT [] [])) = n) by (rewrite Forall_forall in HMs; apply HMs, nth_In; lia).
  assert (Dn' : ndim (nth 0 (sT ls Ms) (mkT [] [])) = n).
  { destruct ls as [|l ls]; [cbn in Hls; lia|]. destruct Ms as [|M Ms]; [cbn in HM; lia|]. exact Dn. }
  rewrite Dn, Dn'. clear Dn Dn'. set (er := if fs then map (fun _ => n0) es else es).
  replace (if fs then map (fun _ => n0) (sE ls es) else sE ls es) with (sE ls er) by (unfold er; destruct fs; auto; apply sE_zero).
  assert (Her : length er = n) by (unfold er; destruct fs; rewrite ?map_length; auto). clearbody er.
  pose proof (rows_rr ls Hp Ms er ltac:(lia)) as HR. pose proof (scaled_square n Ms er HM HMs Her) as Hsq. unfold rows0 in Hsq. change (repeat 1 n) with (repeat (@n1 R R_num) n) in Hsq.
  destruct (scaleCols_rr (seq 0 n) _ _ (repeat (@n1 R R_num) n) HR) as [H1 H2].
  destruct (fold_left scaleCol (seq 0 n) (map scaleRow (map mkLRow (combine Ms er)), repeat n1 n)) as [rows cs].
  destruct (fold_left scaleCol (seq 0 n) (map scaleRow (map mkLRow (combine (sT ls Ms) (sE ls er))), repeat n1 n)) as [rows' cs']. cbn [fst snd] in *. subst cs'.
  rewrite (rr_lA _ _ H1). destruct (rr_cases _ _ H1) as [->|(k & Hk & HZ)]; [reflexivity|].
  assert (EL : @linearCheck1 R R_num rows' n = linearCheck1 rows n) by (apply map_ext; intros; apply linCol_rr; auto). rewrite EL.
  assert (Lr : length rows = n) by (destruct Hsq as [L _]; rewrite map_length in L; auto).
  pose proof (Hsvd _ Hsq) as HS. pose proof (zero_row n _ _ k HS ltac:(lia)) as Z.
  destruct (svd (map lA rows)) as [[U Sv] Vh]. cbn [fst snd] in Z.
  assert (Z' : nth (n - 1) Sv 0 = 0).
  { apply Z. intros j Hj. unfold mget. rewrite (nth_map_lt _ _ _ noRow) by lia. apply HZ. }
  destruct (negb _); [reflexivity|].
  assert (W : @ngtb R R_num (@ndiv R R_num (nth (n - 1) Sv (@n0 R R_num)) (nth 0 Sv (@n0 R R_num))) (nlit 1 10000000000) = false).
  { unfold ngtb. apply Rltb_false. rnum. rewrite nlit_R. change (@n0 R R_num) with 0. rewrite Z'. unfold Rdiv. lra. }
  rewrite W. reflexivity.
Qed.

(** ** the quadratic checks *)
Lemma Rsum_sc {A} l (f g : A -> R) s : (forall i, f i = l * g i) -> Rsum (map f s) = l * Rsum (map g s).
Proof. intros H. induction s as [|a s IH]; cbn; [ring|]. unfold Rsum in IH. rewrite H, IH. ring. Qed.
Lemma clears_sc P l M e : 0 < l -> clears P (tscale l M) (l * e) <-> clears P M e.
Proof.
  intros Hl. unfold clears.
  assert (HS : highSum (tscale l M) = l * highSum M) by (apply Rsum_sc; intros i; rewrite tget_sc, Rabs_mult, (Rabs_pos_eq l) by lra; reflexivity).
  assert (LS : forall x, lowPart (tscale l M) x = l * lowPart M x) by (intros x; apply Rsum_sc; intros i; rewrite tget_sc; ring).
  assert (Q : forall a b, l * a <= l * b <-> a <= b) by (intros a b; split; [apply Rmult_le_reg_l; auto|apply Rmult_le_compat_l; lra]).
  rewrite HS. split; (intros [H|H]; [left|right]; intros x Hx; specialize (H x Hx)).
  - rewrite LS in H. apply Q. lra.
  - rewrite LS in H. apply Q. lra.
  - rewrite LS. apply Q in H. lra.
  - rewrite LS. apply Q in H. lra.
Qed.
Lemma wf_sc l M : wf M -> wf (tscale l M).
Proof. unfold wf, tscale. cbn [shp dat]. rewrite map_length. auto. Qed.
Lemma quad_sc rk sv l M e nd : 0 < l -> wf M -> sym_solver_ok (ndim M) rk sv ->
  @QuadModel.quadratic_check R R_num rk sv (tscale l M) (l * e) nd = @QuadModel.quadratic_check R R_num rk sv M e nd.
Proof.
  intros Hl W S. apply eq_true_iff_eq. rewrite (C94_quadratic_check_is_exact rk sv M e nd W S), (C94_quadratic_check_is_exact rk sv (tscale l M) (l * e) nd (wf_sc l M W) S). apply clears_sc; auto.
Qed.

(** ** trimming *)
Lemma lastSlice_sc l M d : @lastSlice R R_num (tscale l M) d = map (Rmult l) (@lastSlice R R_num M d).
Proof. unfold lastSlice. rewrite map_map. apply map_ext. intros i. apply tget_sc. Qed.
Lemma dropLast_sc l M d : @dropLast R R_num (tscale l M) d = tscale l (@dropLast R R_num M d).
Proof. unfold dropLast. rewrite tbuild_sc. apply tbuild_ext. intros i. apply tget_sc. Qed.
Lemma trimAxis_sc l k d : 0 < l -> forall M al e, @trimAxis R R_num k d (tscale l M) (l * al) (l * e) =
  let r := @trimAxis R R_num k d M al e in (tscale l (fst (fst r)), l * snd (fst r), l * snd r).
Proof.
  intros Hl. induction k as [|k IH]; intros M al e; cbn [trimAxis]; cbv zeta; auto. rewrite lastSlice_sc, nsumabs_sc, dropLast_sc by auto. change (shp (tscale l M)) with (shp M). rnum. rewrite Rltb_sc by auto.
  destruct (_ && _); auto. rewrite <- Rmult_minus_distr_l, <- Rmult_plus_distr_l. apply IH.
Qed.
Lemma trimM_sc l dim M e rel : 0 < l -> @trimM R R_num dim (tscale l M) (l * e) rel 0 = let r := @trimM R R_num dim M e rel 0 in (tscale l (fst r), l * snd r).
Proof.
  intros Hl. unfold trimM. rnum. replace (0 + l * e * rel) with (l * (0 + e * rel)) by ring. generalize (0 + e * rel). intros al. cbv zeta.
  assert (H : forall c M al e, fold_left (fun st d => let '(M, al, e) := st in @trimAxis R R_num (nth d (shp M) 0%nat) d M al e) c (tscale l M, l * al, l * e) =
    let r := fold_left (fun st d => let '(M, al, e) := st in @trimAxis R R_num (nth d (shp M) 0%nat) d M al e) c (M, al, e) in (tscale l (fst (fst r)), l * snd (fst r), l * snd r)).
  { induction c as [|d c IH]; intros M1 al1 e1; cbn [fold_left]; cbv zeta; auto. change (shp (tscale l M1)) with (shp M1). rewrite trimAxis_sc by auto. cbv zeta.
    destruct (trimAxis (nth d (shp M1) 0%nat) d M1 al1 e1) as [[M2 al2] e2]. cbn [fst snd]. apply IH. }
  rewrite H. cbv zeta. destruct (fold_left _ _ _) as [[M2 al2] e2]. reflexivity.
Qed.
