(** * Reordering the equations and changing their signs: the parts of the subdivision solver *)
From Coq Require Import List Arith Bool Lia ZArith Sorted Permutation Reals Lra.
From Verif Require Import Num RSum Cheb Tensor PolySpec SystemSpec PartProofs TransformModel TransformNDProofs TransformChebProofs IntervalModel IntervalProofs LinearModel LinearProofs
  QuadModel QuadSharpSpec QuadNdFaces SharpProps SolverModel OrderProofs SubdivProofs TrimProofs ScaleTransform ScaleProofs SymMatrix.
From Verif Require DepProps.
From Coq Require Import List.
Import ListNotations.
Local Open Scope R_scope.

Definition isSign (s : R) : Prop := s = 1 \/ s = -1.
Lemma sign_sq s : isSign s -> s * s = 1.
Proof. intros [-> | ->]; ring. Qed.
Lemma sign_abs s x : isSign s -> Rabs (s * x) = Rabs x.
Proof. intros [-> | ->]; [rewrite Rmult_1_l; auto|]. replace (-1 * x) with (- x) by ring. apply Rabs_Ropp. Qed.

Lemma map_upd_mul s : forall (l : list R) i v, map (Rmult s) (upd l i v) = upd (map (Rmult s) l) i (s * v).
Proof. induction l as [|x l IH]; intros [|i] v; cbn [upd map]; auto. rewrite IH. auto. Qed.

(** ** one equation with the sign changed *)
Section Sign.
  Variable s : R.
  Hypothesis Hs : isSign s.
  Lemma absmap_sg c : map Rabs (map (Rmult s) c) = map Rabs c.
  Proof. rewrite map_map. apply map_ext. intros; apply sign_abs; auto. Qed.
  Lemma nsumabs_sg c : @nsumabs R R_num (map (Rmult s) c) = @nsumabs R R_num c.
  Proof. unfold nsumabs. change (@nabs R R_num) with Rabs. rewrite absmap_sg. reflexivity. Qed.
  Lemma maxAbs_sg c : @maxAbs R R_num (map (Rmult s) c) = @maxAbs R R_num c.
  Proof. unfold maxAbs. change (@nabs R R_num) with Rabs. rewrite absmap_sg. reflexivity. Qed.
  Lemma tsumabs_sg M : @tsumabs R R_num (tscale s M) = @tsumabs R R_num M.
  Proof. apply nsumabs_sg. Qed.
  Lemma terr_sg t d : @getTransformationError R R_num (tscale s t) d = @getTransformationError R R_num t d.
  Proof. unfold getTransformationError. rewrite tsumabs_sg. reflexivity. Qed.
  Definition pS (p : tensor R * R) : tensor R * R := (tscale s (fst p), snd p).
  Lemma transformCheb_from_sg ex ab : forall d t e, @transformCheb_from R R_num d (tscale s t) ab e ex = pS (@transformCheb_from R R_num d t ab e ex).
  Proof. induction ab as [|[a b] ab IH]; intros d t e; cbn [transformCheb_from]; auto. rewrite terr_sg, transformND_sc. apply IH. Qed.
  Lemma transformCheb_sg ex ab t e : @transformCheb R R_num (tscale s t) ab e ex = pS (@transformCheb R R_num t ab e ex).
  Proof. apply transformCheb_from_sg. Qed.
  Lemma constOne_sg M e :
    (let c := @tconst R R_num (tscale s M) in ngtb (nabs c) (tsumabs (tscale s M) - nabs c + e)%num) =
    (let c := @tconst R R_num M in ngtb (nabs c) (tsumabs M - nabs c + e)%num).
  Proof. cbv zeta. rewrite const_sc, tsumabs_sg. rnum. rewrite sign_abs by auto. reflexivity. Qed.
  Lemma trimAxis_sg k d : forall M al e, @trimAxis R R_num k d (tscale s M) al e = let r := @trimAxis R R_num k d M al e in (tscale s (fst (fst r)), snd (fst r), snd r).
  Proof.
    induction k as [|k IH]; intros M al e; cbn [trimAxis]; cbv zeta; auto. rewrite lastSlice_sc, nsumabs_sg, dropLast_sc. change (shp (tscale s M)) with (shp M). destruct (_ && _); [apply IH|reflexivity].
  Qed.
  Lemma trimM_sg dim M e rel ab : @trimM R R_num dim (tscale s M) e rel ab = pS (@trimM R R_num dim M e rel ab).
  Proof.
    unfold trimM. generalize (ab + e * rel)%num. intros al.
    assert (H : forall c M al e, fold_left (fun st d => let '(M, al, e) := st in @trimAxis R R_num (nth d (shp M) 0%nat) d M al e) c (tscale s M, al, e) =
      let r := fold_left (fun st d => let '(M, al, e) := st in @trimAxis R R_num (nth d (shp M) 0%nat) d M al e) c (M, al, e) in (tscale s (fst (fst r)), snd (fst r), snd r)).
    { induction c as [|d c IH]; intros M1 al1 e1; cbn [fold_left]; cbv zeta; auto. change (shp (tscale s M1)) with (shp M1). rewrite trimAxis_sg. cbv zeta.
      destruct (trimAxis (nth d (shp M1) 0%nat) d M1 al1 e1) as [[M2 al2] e2]. cbn [fst snd]. apply IH. }
    rewrite H. cbv zeta. destruct (fold_left _ _ _) as [[M2 al2] e2]. reflexivity.
  Qed.
  Lemma clears_sg P M e : clears P (tscale s M) e <-> clears P M e.
  Proof.
    unfold clears. assert (HS : highSum (tscale s M) = highSum M).
    { unfold highSum. f_equal. apply map_ext. intros i. rewrite tget_sc. apply sign_abs; auto. }
    assert (LS : forall x, lowPart (tscale s M) x = s * lowPart M x) by (intros x; apply Rsum_sc; intros i; rewrite tget_sc; ring).
    rewrite HS. destruct Hs as [-> | ->].
    - split; (intros [H|H]; [left|right]; intros x Hx; specialize (H x Hx); rewrite LS in *; lra).
    - split; (intros [H|H]; [right|left]; intros x Hx; specialize (H x Hx); rewrite LS in *; lra).
  Qed.
  Lemma quad_sg rk sv M e nd : wf M -> sym_solver_ok (ndim M) rk sv ->
    @QuadModel.quadratic_check R R_num rk sv (tscale s M) e nd = @QuadModel.quadratic_check R R_num rk sv M e nd.
  Proof.
    intros W S. apply eq_true_iff_eq. rewrite (C94_quadratic_check_is_exact rk sv M e nd W S), (C94_quadratic_check_is_exact rk sv (tscale s M) e nd (wf_sc s M W) S). apply clears_sg.
  Qed.
  Lemma polyAt_sg ex npt : forall ord bs p, @polyAt R R_num ex npt ord bs (pS p) = pS (@polyAt R R_num ex npt ord bs p).
  Proof.
    induction ord as [|d ord IH]; intros [|b bs] p; cbn [polyAt]; auto. rewrite <- IH. f_equal. unfold sideP, chebTransform1D, pS. cbn [fst snd]. rewrite transformND_sc, terr_sg. reflexivity.
  Qed.
  (** a row of the linear system *)
  Definition rsg (r : lrow R) : lrow R := mkRow (map (Rmult s) (lA r)) (s * lc r) (ltot r) (lerr r) (le r).
  Lemma mkLRow_sg M e : @mkLRow R R_num (tscale s M, e) = rsg (@mkLRow R R_num (M, e)).
  Proof. unfold mkLRow, rsg. cbn [lA lc ltot lerr le]. rewrite linear_sc, const_sc, tsumabs_sg, nsumabs_sg. rnum. rewrite sign_abs by auto. reflexivity. Qed.
  Lemma scaleRow_sg r : @scaleRow R R_num (rsg r) = rsg (@scaleRow R R_num r).
  Proof.
    unfold scaleRow. cbn [lA rsg]. rewrite maxAbs_sg. destruct (ngtb _ _); [|reflexivity]. unfold rsg. cbn [lA lc ltot lerr le]. rnum. rewrite !map_map. f_equal.
    - apply map_ext. intros x. unfold Rdiv. ring.
    - unfold Rdiv. ring.
  Qed.
End Sign.

(** ** all equations: the i-th becomes s_i times the one at position P_i *)
Section Sym.
  Variables (n : nat) (P : list nat) (e : nat -> R).
  Hypothesis HP : Permutation P (seq 0 n).
  Hypothesis He : forall k, isSign (e k).
  Definition pk (k : nat) : nat := nth k P 0%nat.
  Lemma pk_lt k : (k < n)%nat -> (pk k < n)%nat.
  Proof.
    intros Hk. assert (L : length P = n) by (rewrite (Permutation_length HP), seq_length; auto). assert (I : In (pk k) P) by (apply nth_In; lia).
    apply (Permutation_in _ HP) in I. apply in_seq in I. lia.
  Qed.
  Lemma pk_onto j : (j < n)%nat -> exists k, (k < n)%nat /\ pk k = j.
  Proof.
    intros Hj. assert (L : length P = n) by (rewrite (Permutation_length HP), seq_length; auto). assert (I : In j P) by (apply (Permutation_in _ (Permutation_sym HP)), in_seq; lia).
    destruct (In_nth P j 0%nat I) as (k & Hk & E). exists k. split; [lia|exact E].
  Qed.
  Definition yT (Ms : list (tensor R)) : list (tensor R) := map (fun k => tscale (e k) (nth (pk k) Ms noT)) (seq 0 n).
  Definition yE (es : list R) : list R := map (fun k => nth (pk k) es 0) (seq 0 n).
  Definition yR (rows : list (lrow R)) : list (lrow R) := map (fun k => rsg (e k) (nth (pk k) rows noRow)) (seq 0 n).
  Lemma yT_length Ms : length (yT Ms) = n.
  Proof. unfold yT. rewrite map_length, seq_length. auto. Qed.
  Lemma yE_length es : length (yE es) = n.
  Proof. unfold yE. rewrite map_length, seq_length. auto. Qed.
  Lemma combine_maps {A B C} (f : C -> A) (h : C -> B) l : combine (map f l) (map h l) = map (fun k => (f k, h k)) l.
  Proof. induction l; cbn; auto. rewrite IHl. reflexivity. Qed.
  Lemma y_combine Ms es : combine (yT Ms) (yE es) = map (fun k => pS (e k) (nth (pk k) Ms noT, nth (pk k) es 0)) (seq 0 n).
  Proof. unfold yT, yE. rewrite combine_maps. reflexivity. Qed.
  Lemma zip_sym (F : tensor R * R -> tensor R * R) Ms es : length Ms = n -> length es = n -> (forall s p, isSign s -> F (pS s p) = pS s (F p)) ->
    map fst (map F (combine (yT Ms) (yE es))) = yT (map fst (map F (combine Ms es))) /\
    map snd (map F (combine (yT Ms) (yE es))) = yE (map snd (map F (combine Ms es))).
  Proof.
    intros L1 L2 HF. rewrite y_combine, !map_map. unfold yT, yE. split; apply map_ext_in; intros k Hk; apply in_seq in Hk; rewrite HF by auto; unfold pS; cbn [fst snd].
    - f_equal. rewrite (nth_map_lt _ _ _ (noT, 0)) by (rewrite combine_length; pose proof (pk_lt k ltac:(lia)); lia). rewrite combine_nth by lia. reflexivity.
    - rewrite (nth_map_lt _ _ _ (noT, 0)) by (rewrite combine_length; pose proof (pk_lt k ltac:(lia)); lia). rewrite combine_nth by lia. reflexivity.
  Qed.
  Lemma existsb_sym (f : tensor R * R -> bool) (G : tensor R -> Prop) Ms es : length Ms = n -> length es = n -> Forall G Ms ->
    (forall s M e, isSign s -> G M -> f (tscale s M, e) = f (M, e)) -> existsb f (combine (yT Ms) (yE es)) = existsb f (combine Ms es).
  Proof.
    intros L1 L2 HG HF. rewrite y_combine. apply eq_true_iff_eq. rewrite !existsb_exists. rewrite Forall_forall in HG. split.
    - intros (p & Ip & Hp). apply in_map_iff in Ip. destruct Ip as (k & <- & Hk). apply in_seq in Hk. pose proof (pk_lt k ltac:(lia)) as Hk'. unfold pS in Hp. cbn [fst snd] in Hp.
      rewrite HF in Hp by (auto; apply HG, nth_In; lia). exists (nth (pk k) Ms noT, nth (pk k) es 0). split; auto. rewrite <- combine_nth by lia. apply nth_In. rewrite combine_length. lia.
    - intros (p & Ip & Hp). destruct (In_nth _ _ (noT, 0) Ip) as (j & Hj & E). rewrite combine_length in Hj. destruct (pk_onto j ltac:(lia)) as (k & Hk & <-).
      rewrite combine_nth in E by lia. exists (pS (e k) (nth (pk k) Ms noT, nth (pk k) es 0)). split; [apply in_map_iff; exists k; split; [reflexivity|apply in_seq; lia]|].
      unfold pS. cbn [fst snd]. rewrite HF by (auto; apply HG, nth_In; lia). rewrite E. exact Hp.
  Qed.

  (** *** the linear bound *)
  Lemma rows_sym Ms es : length Ms = n -> length es = n ->
    map (@scaleRow R R_num) (map mkLRow (combine (yT Ms) (yE es))) = yR (map (@scaleRow R R_num) (map mkLRow (combine Ms es))).
  Proof.
    intros L1 L2. rewrite y_combine, !map_map. unfold yR. apply map_ext_in. intros k Hk. apply in_seq in Hk. unfold pS. cbn [fst snd]. rewrite mkLRow_sg, scaleRow_sg by auto. f_equal.
    rewrite (nth_map_lt _ _ _ (noT, 0)) by (rewrite combine_length; pose proof (pk_lt k ltac:(lia)); lia). rewrite combine_nth by lia. reflexivity.
  Qed.
  Lemma maxAbs_le l l' : (forall x, In x l -> exists y, In y l' /\ Rabs y = Rabs x) -> @maxAbs R R_num l <= @maxAbs R R_num l'.
  Proof.
    intros H. destruct (Rle_lt_dec (@maxAbs R R_num l) 0) as [Q|Q]; [pose proof (maxAbs_nonneg l'); lra|]. destruct (maxAbs_attained l Q) as (x & Ix & <-). destruct (H x Ix) as (y & Iy & <-). apply maxAbs_ge; auto.
  Qed.
  Lemma nth_sg c k i : nth i (map (Rmult (e k)) c) 0 = e k * nth i c 0.
  Proof. apply nth_sc. Qed.
  Lemma scaleCol_sym rows cs i : length rows = n ->
    @scaleCol R R_num (yR rows, cs) i = (yR (fst (@scaleCol R R_num (rows, cs) i)), snd (@scaleCol R R_num (rows, cs) i)) /\ length (fst (@scaleCol R R_num (rows, cs) i)) = n.
  Proof.
    intros L. unfold scaleCol. change (@n0 R R_num) with 0.
    assert (E : @maxAbs R R_num (map (fun r => nth i (lA r) 0) (yR rows)) = maxAbs (map (fun r => nth i (lA r) 0) rows)).
    { unfold yR. rewrite map_map. apply Rle_antisym; apply maxAbs_le; intros x Hx; apply in_map_iff in Hx; destruct Hx as (u & <- & Hu).
      - apply in_seq in Hu. exists (nth i (lA (nth (pk u) rows noRow)) 0). split; [apply in_map_iff; eexists; split; [reflexivity|apply nth_In; pose proof (pk_lt u ltac:(lia)); lia]|].
        unfold rsg. cbn [lA]. rewrite nth_sg, sign_abs by auto. reflexivity.
      - destruct (In_nth _ _ noRow Hu) as (j & Hj & <-). destruct (pk_onto j ltac:(lia)) as (k & Hk & <-). eexists. split; [apply in_map_iff; exists k; split; [reflexivity|apply in_seq; lia]|].
        unfold rsg. cbn [lA]. rewrite nth_sg, sign_abs by auto. reflexivity. }
    rewrite E. destruct (ngtb _ _); cbn [fst snd]; [|split; auto]. rewrite map_length. split; auto. f_equal. unfold yR. rewrite map_map. apply map_ext_in. intros k Hk. apply in_seq in Hk.
    rewrite (nth_map_lt _ _ _ noRow) by (pose proof (pk_lt k ltac:(lia)); lia). set (r := nth (pk k) rows noRow). unfold rsg. cbn [lA lc ltot lerr le]. rewrite nth_sg. rnum. rewrite sign_abs by auto. f_equal.
    rewrite map_upd_mul. f_equal. ring.
  Qed.
  Lemma scaleCols_sym c : forall rows cs, length rows = n ->
    fold_left (@scaleCol R R_num) c (yR rows, cs) = (yR (fst (fold_left (@scaleCol R R_num) c (rows, cs))), snd (fold_left (@scaleCol R R_num) c (rows, cs))) /\
    length (fst (fold_left (@scaleCol R R_num) c (rows, cs))) = n.
  Proof.
    induction c as [|i c IH]; intros rows cs L; cbn [fold_left fst snd]; auto. destruct (scaleCol_sym rows cs i L) as [A B]. rewrite A. destruct (scaleCol (rows, cs) i) as [r1 c1]. cbn [fst snd] in *. apply IH; auto.
  Qed.
  Lemma omax_comm a v w : @omax R R_num (omax a v) w = omax (omax a w) v.
  Proof. destruct a; cbn; rewrite !nmax_R; f_equal; [rewrite !Rmax_assoc, (Rmax_comm v w) || (rewrite <- !Rmax_assoc, (Rmax_comm v w)); reflexivity|apply Rmax_comm]. Qed.
  Lemma omin_comm a v w : @omin R R_num (omin a v) w = omin (omin a w) v.
  Proof. destruct a; cbn; rewrite !nmin_R; f_equal; [rewrite <- !Rmin_assoc, (Rmin_comm v w); reflexivity|apply Rmin_comm]. Qed.
  Lemma fold_perm {A B} (f : A -> B -> A) : (forall a x y, f (f a x) y = f (f a y) x) -> forall l l', Permutation l l' -> forall a, fold_left f l a = fold_left f l' a.
  Proof. intros H l l' HPm. induction HPm; intros a; cbn [fold_left]; auto; [rewrite H; auto|rewrite IHHPm1; auto]. Qed.
  Lemma pick_perm {A} (l : list A) d : length l = n -> Permutation (map (fun k => nth (pk k) l d) (seq 0 n)) l.
  Proof.
    intros L. assert (E : l = map (fun k => nth k l d) (seq 0 n)).
    { apply (nth_ext _ _ d d); [rewrite map_length, seq_length; auto|]. intros i Hi. rewrite nth_map_seq by lia. reflexivity. }
    assert (E2 : map (fun k => nth (pk k) l d) (seq 0 n) = map (fun k => nth k l d) P).
    { rewrite <- (map_map pk (fun k => nth k l d)). f_equal. assert (LP : length P = n) by (rewrite (Permutation_length HP), seq_length; auto).
      apply (nth_ext _ _ 0%nat 0%nat); [rewrite map_length, seq_length; auto|]. intros i Hi. rewrite map_length, seq_length in Hi. rewrite nth_map_seq by lia. reflexivity. }
    rewrite E2. eapply Permutation_trans; [apply Permutation_map; exact HP|]. rewrite <- E. apply Permutation_refl.
  Qed.
  Lemma linCol_sym rows col : length rows = n -> @linCol R R_num (yR rows) col = @linCol R R_num rows col.
  Proof.
    intros L. unfold linCol. set (f := fun (ab : option R * option R) (r : lrow R) => _).
    assert (S : forall k r ab, f ab (rsg (e k) r) = f ab r).
    { intros k r ab. unfold f, rsg. cbn [lA lc ltot]. change (@n0 R R_num) with 0. rewrite nth_sg. set (x := nth col (lA r) 0). cbv zeta.
      assert (Z : @neqb R R_num (e k * x) 0 = @neqb R R_num x 0).
      { rnum. apply eq_true_iff_eq. rewrite !Reqb_true. destruct (He k) as [-> | ->]; lra. }
      rewrite Z. destruct (@neqb R R_num x 0) eqn:Ex; auto. assert (X0 : x <> 0) by (rnum; apply Reqb_false in Ex; auto).
      assert (B : @lcBounds R R_num (ltot r) (e k * x) (e k * lc r) = lcBounds (ltot r) x (lc r)).
      { unfold lcBounds. rnum. rewrite sign_abs by auto. rewrite n2_R. replace (2 * (e k * lc r) / (e k * x)) with (2 * lc r / x); auto. destruct (He k) as [-> | ->]; field; auto. }
      rewrite B. reflexivity. }
    assert (E : forall l ab, fold_left f (map (fun k => rsg (e k) (nth (pk k) rows noRow)) l) ab = fold_left f (map (fun k => nth (pk k) rows noRow) l) ab).
    { induction l as [|k l IH]; intros ab; cbn [map fold_left]; auto. rewrite S. apply IH. }
    unfold yR. rewrite E. apply fold_perm; [|apply pick_perm; auto].
    intros ab x y. unfold f. cbv zeta. destruct (neqb (nth col (lA x) n0) n0), (neqb (nth col (lA y) n0) n0); auto. destruct (lcBounds (ltot x) _ _) as [a1 b1], (lcBounds (ltot y) _ _) as [a2 b2]. cbn [fst snd].
    rewrite omax_comm, omin_comm. reflexivity.
  Qed.
  Lemma passBounds_ill c1 c2 w1 w2 cs w ab : @passBounds R R_num false c1 w1 cs w ab = @passBounds R R_num false c2 w2 cs w ab.
  Proof. reflexivity. Qed.

  Lemma bounding_sym svd Ms es fs : (0 < n)%nat -> length Ms = n -> length es = n -> Forall (fun M => wf M /\ ndim M = n) Ms -> svd_ok n svd ->
    @boundingInterval R R_num svd (yT Ms) (yE es) fs = @boundingInterval R R_num svd Ms es fs.
  Proof.
    intros Hn HM Hes HMs Hsvd. unfold boundingInterval, boundingIntervalW. cbv zeta.
    assert (Dn : ndim (nth 0 Ms (mkT [] [])) = n) by (rewrite Forall_forall in HMs; apply HMs, nth_In; lia).
    assert (Dn' : ndim (nth 0 (yT Ms) (mkT [] [])) = n).
    { unfold yT. rewrite nth_map_seq by auto. change (ndim (tscale (e 0) (nth (pk 0) Ms noT))) with (ndim (nth (pk 0) Ms noT)). rewrite Forall_forall in HMs. apply HMs, nth_In. rewrite HM. apply pk_lt; auto. }
    rewrite Dn, Dn'. clear Dn Dn'. set (er := if fs then map (fun _ => n0) es else es).
    replace (if fs then map (fun _ => n0) (yE es) else yE es) with (yE er).
    2:{ unfold er; destruct fs; auto. unfold yE. rewrite map_map. apply map_ext_in. intros k Hk. apply in_seq in Hk. rewrite (nth_map_lt _ _ _ 0) by (pose proof (pk_lt k ltac:(lia)); lia). reflexivity. }
    assert (Her : length er = n) by (unfold er; destruct fs; rewrite ?map_length; auto). clearbody er.
    rewrite rows_sym by auto. pose proof (scaled_square n Ms er HM HMs Her) as Hsq. unfold rows0 in Hsq. change (repeat 1 n) with (repeat (@n1 R R_num) n) in Hsq.
    destruct (scaleCols_sym (seq 0 n) (map (@scaleRow R R_num) (map mkLRow (combine Ms er))) (repeat (@n1 R R_num) n)) as [E Lr]; [rewrite !map_length, combine_length; lia|]. rewrite E. clear E.
    destruct (fold_left scaleCol (seq 0 n) (map scaleRow (map mkLRow (combine Ms er)), repeat n1 n)) as [rows cs]. cbn [fst snd] in *.
    assert (EL : @linearCheck1 R R_num (yR rows) n = linearCheck1 rows n) by (apply map_ext; intros; apply linCol_sym; auto). rewrite EL. clear EL.
    assert (Hsq' : square n (map lA (yR rows))).
    { destruct Hsq as [S1 S2]. unfold yR. split; [rewrite !map_length, seq_length; auto|]. rewrite map_map, Forall_map. apply Forall_forall. intros k Hk. apply in_seq in Hk. cbn [rsg lA]. rewrite map_length.
      rewrite Forall_map, Forall_forall in S2. apply S2, nth_In. rewrite Lr. apply pk_lt. lia. }
    pose proof (Hsvd _ Hsq) as HS. pose proof (Hsvd _ Hsq') as HS'.
    assert (HAB : forall k j, (k < n)%nat -> (j < n)%nat -> mg (map lA (yR rows)) k j = e k * mg (map lA rows) (pk k) j).
    { intros k j Hk Hj. unfold mget. unfold yR. rewrite map_map, nth_map_seq by auto. cbn [rsg lA]. rewrite (nth_map_lt _ _ _ noRow) by (rewrite Lr; apply pk_lt; auto). apply nth_sg. }
    set (A := map lA rows) in *. set (B := map lA (yR rows)) in *.
    pose proof (perm_first n A B (svd A) (svd B) P e Hn HS HS' HP (fun k => sign_sq _ (He k)) HAB) as F0.
    pose proof (perm_last n A B (svd A) (svd B) P e Hn HS HS' HP (fun k => sign_sq _ (He k)) HAB) as F1.
    pose proof (perm_inv n A B (svd A) (svd B) P e Hn HS HS' HP (fun k => sign_sq _ (He k)) HAB) as F2.
    destruct (svd A) as [[U Sv] Vh]. destruct (svd B) as [[U' Sv'] Vh']. cbn [fst snd] in *. change (@n0 R R_num) with 0. rewrite F0, F1.
    destruct (negb (ngtb (nth 0 Sv 0) 0)) eqn:EN; [reflexivity|].
    set (cond := ndiv (nth (n - 1) Sv 0) (nth 0 Sv 0)). destruct (@ngtb R R_num cond (nlit 1 10000000000)) eqn:EW.
    - assert (P1 : 0 < nth (n - 1) Sv 0).
      { unfold ngtb in EW. apply Rltb_true in EW. rewrite nlit_R in EW. unfold cond in EW. change (@ndiv R R_num (nth (n - 1) Sv 0) (nth 0 Sv 0)) with (nth (n - 1) Sv 0 / nth 0 Sv 0) in EW.
        apply negb_false_iff in EN. unfold ngtb in EN. rnum. apply Rltb_true in EN.
        destruct (Rle_lt_dec (nth (n - 1) Sv 0) 0) as [Q|Q]; auto. exfalso. assert (nth (n - 1) Sv 0 / nth 0 Sv 0 <= 0); [|lra].
        unfold Rdiv. pose proof (Rinv_0_lt_compat _ EN). nra. }
      specialize (F2 P1).
      assert (EC : map (fun i => nsum (map (fun k => nmul (nopp (mget (invMat n U' Sv' Vh') i k)) (nth k (map lc (yR rows)) 0)) (seq 0 n))) (seq 0 n) =
                   map (fun i => nsum (map (fun k => nmul (nopp (mget (invMat n U Sv Vh) i k)) (nth k (map lc rows) 0)) (seq 0 n))) (seq 0 n)).
      { apply map_ext_in. intros i Hi. apply in_seq in Hi. rewrite !nsum_seq. rewrite <- (DepProps.sumn_perm n P (fun k => nmul (nopp (mget (invMat n U Sv Vh) i k)) (nth k (map lc rows) 0)) HP).
        apply sumn_ext. intros k Hk. rewrite F2 by lia. fold (pk k). unfold yR. rewrite map_map, nth_map_seq by auto. cbn [rsg lc]. rewrite (nth_map_lt _ _ _ noRow) by (rewrite Lr; apply pk_lt; auto). rnum.
        pose proof (sign_sq _ (He k)) as Q. set (z := mget _ _ _). set (y := lc _). replace (- (e k * z) * (e k * y)) with (- (e k * e k * (z * y))) by ring. rewrite Q. ring. }
      assert (EV : forall (h : lrow R -> R), (forall s r, h (rsg s r) = h r) ->
                   map (fun i => nsum (map (fun k => nabs (nmul (mget (invMat n U' Sv' Vh') i k) (nth k (map h (yR rows)) 0))) (seq 0 n))) (seq 0 n) =
                   map (fun i => nsum (map (fun k => nabs (nmul (mget (invMat n U Sv Vh) i k) (nth k (map h rows) 0))) (seq 0 n))) (seq 0 n)).
      { intros h Hh. apply map_ext_in. intros i Hi. apply in_seq in Hi. rewrite !nsum_seq. rewrite <- (DepProps.sumn_perm n P (fun k => nabs (nmul (mget (invMat n U Sv Vh) i k) (nth k (map h rows) 0))) HP).
        apply sumn_ext. intros k Hk. rewrite F2 by lia. fold (pk k). unfold yR. rewrite map_map, nth_map_seq by auto. rewrite Hh. rewrite (nth_map_lt _ _ _ noRow) by (rewrite Lr; apply pk_lt; auto). rnum.
        rewrite Rmult_assoc. apply sign_abs; auto. }
      pose proof (EV lerr (fun _ _ => eq_refl)) as E1. pose proof (EV le (fun _ _ => eq_refl)) as E2. clear EV.
      change (@n0 R R_num) with 0 in *. rewrite EC, E1, E2. reflexivity.
    - reflexivity.
  Qed.
End Sym.
