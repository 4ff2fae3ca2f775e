(** * Properties of M_maker (C88) *)
From Coq Require Import Reals List Lia Lra Arith ZArith Bool.
From Verif Require Import Num Tensor RSum Cheb PolySpec LinearModel LinearProofs CombinedModel CombinedSpec ApproxModel ApproxDct ApproxInterp ApproxDegree MakerModel MakerProofs MakerRun.
From Verif Require PolyModel PolyArith.
Import ListNotations.
Local Open Scope R_scope.

(** ** Specification *)
(** the Chebyshev grid with degrees D: the points (cos(j_d pi / D_d))_d, 0 <= j_d <= D_d *)
Definition gridNode (D : list nat) (y : list R) : Prop :=
  exists j, Forall2 (fun j d => (j <= d)%nat) j D /\ y = map (fun p => cos (INR (fst p) * PI / INR (snd p))) (combine j D).
(** N is an array of Chebyshev coefficients with degrees D whose series takes the values of g at the grid of the box *)
Definition interpolant (g : list R -> R) (a b : list R) (D : list nat) (N : tensor R) : Prop :=
  wf N /\ shp N = map S D /\ forall y, gridNode D y -> cheb_eval N y = g (boxPoint a b y).
(** coefficient of a series, 0 outside the array *)
Definition coefAt (t : tensor R) (idx : list nat) : R := if forallb (fun p => (fst p <? snd p)%nat) (combine idx (shp t)) then tget t idx else 0.
(** sum of the absolute differences of all coefficients of M2 and M, over the shape of M2 *)
Definition difference (M2 M : tensor R) : R := sumidx (shp M2) (fun idx => Rabs (coefAt M2 idx - coefAt M idx)).
(** the size up to which a difference is put down to rounding: 10 (entries M2 has more than M) 2^-52 norm, or rel *)
Definition insignificant (rel norm : R) (M2 M : tensor R) : R :=
  Rmax rel (10 * INR (prodn (shp M2) - prodn (shp M)) * / 2 ^ 52 * norm).

(** ** from the model to the specification *)
Lemma gridNode_nodes D y : gridNode D y <-> exists j, inrange (map S D) j /\ y = nodes D j.
Proof.
  unfold gridNode. split; intros (j & H & ->); exists j; (split; [|reflexivity]).
  - clear -H. induction H; cbn [map]; constructor; auto. lia.
  - clear -H. revert j H. induction D; intros j H; inversion H; subst; constructor; auto. lia.
Qed.
Notation pos := (Forall (fun d => (1 <= d)%nat)).
Lemma indepZero_pos D : pos D -> forall F, indepZero D F.
Proof. induction 1; intros F; cbn [indepZero]; auto. split; [intros; lia|]. intros. apply IHForall. Qed.
(** interpolants are unique *)
Lemma interpolant_coeffs g a b D N K : pos D -> interpolant g a b D N -> inrange (map S D) K ->
  tget N K = allOps imat D (fun J => g (boxPoint a b (nodes D J))) K.
Proof.
  intros HD (W & Hs & HI) HK.
  rewrite (allOps_ext imat D _ (fun J => sumidx (shp N) (fun L => tget N L * basis chebT L (nodes D J)))); auto.
  2:{ intros J HJ. rewrite <- HI by (apply gridNode_nodes; eauto). apply cheb_eval_sumidx. }
  rewrite allOps_sumidx by auto.
  rewrite (sumidx_ext _ _ (fun L => tget N L * deltaL D K L)).
  2:{ intros L HL. rewrite allOps_scal by auto. f_equal. apply allOps_basis; auto. apply inrange_length in HL. rewrite HL, Hs, map_length. reflexivity. }
  rewrite Hs. clear - HD HK. revert K HK. generalize (tget N). clear N. induction HD as [|d D Hd HD IH]; intros F K HK; inversion HK as [|k ? K' ? Hk HK']; subst; [simpl; ring|].
  cbn [map sumidx]. rewrite (sumn_single (S d) k); [|lia|].
  - rewrite (sumidx_ext _ _ (fun r => F (k :: r) * deltaL D K' r)); [apply (IH (fun r => F (k :: r))); auto|].
    intros r Hr. cbn [deltaL]. rewrite alias_small by lia. rewrite Nat.eqb_refl. ring.
  - intros i Hi Hne. rewrite (sumidx_ext _ _ (fun _ => 0)); [apply sumidx_0|]. intros r Hr. cbn [deltaL]. rewrite alias_small by lia. destruct (Nat.eqb_spec k i); [lia|ring].
Qed.
Lemma interpolant_unique g a b D N N' : pos D -> interpolant g a b D N -> interpolant g a b D N' -> N = N'.
Proof.
  intros HD H H'. destruct H as (W & Hs & HI) eqn:EH. destruct H' as (W' & Hs' & HI') eqn:EH'. apply tget_ext; auto; [congruence|].
  intros K HK. rewrite Hs in HK. rewrite (interpolant_coeffs g a b D N) by auto. rewrite (interpolant_coeffs g a b D N') by auto. reflexivity.
Qed.
Lemma fresh_interpolant junk f a b D : pos D -> interpolant (callAt f) a b D (freshCoeffs cosR junk f a b D).
Proof.
  intros HD. rewrite fresh_is_interpolant by auto. pose proof (interval_coeffs f D a b) as H. destruct (intervalApproximate cosR f D a b) as [[c sn] dg]. cbn [fst].
  destruct H as (_ & Hs & W & HK). split; auto. split; auto. intros y Hy. apply gridNode_nodes in Hy. destruct Hy as (j & Hj & ->).
  rewrite cheb_eval_sumidx, Hs.
  rewrite (sumidx_ext _ _ (fun K => allOps imat (fixDegs D) (fun J => callAt f (boxPoint a b (nodes D J))) K * basis chebT K (nodes (fixDegs D) j))).
  - rewrite interp_nodes; auto; [apply indepZero_pos; auto|rewrite fixDegs_id; auto].
  - intros K HKr. rewrite HK by auto. rewrite fixDegs_id by auto. f_equal. apply allOps_ext; auto. intros J HJ. rewrite gridPoint_box. reflexivity.
Qed.
Lemma coefAt_in t idx : inrange (shp t) idx -> coefAt t idx = tget t idx.
Proof.
  intros H. unfold coefAt. assert (E : forallb (fun p => (fst p <? snd p)%nat) (combine idx (shp t)) = true); [|rewrite E; auto].
  induction H; simpl; auto. rewrite IHForall2. rewrite (proj2 (Nat.ltb_lt x y)) by auto. reflexivity.
Qed.
Lemma inrangeb_forallb s idx : length idx = length s -> PolyModel.inrangeb s idx = forallb (fun p => (fst p <? snd p)%nat) (combine idx s).
Proof.
  intros HL. destruct (PolyModel.inrangeb s idx) eqn:E; symmetry.
  - apply PolyArith.inrangeb_spec in E. induction E; simpl in *; auto. rewrite IHE by lia. rewrite (proj2 (Nat.ltb_lt x y)) by auto. reflexivity.
  - apply not_true_is_false. intros F. apply not_true_iff_false in E. apply E, PolyArith.inrangeb_spec. clear E. revert idx HL F.
    induction s; intros [|i idx] HL F; simpl in *; try lia; constructor; apply andb_prop in F; destruct F as [F1 F2]; [apply Nat.ltb_lt; auto|apply IHs; auto; lia].
Qed.
Lemma get_err_difference (M M2 : tensor R) : length (shp M) = length (shp M2) -> Forall (fun n => (1 <= n)%nat) (shp M2) -> @get_err R R_num M M2 = difference M2 M.
Proof.
  intros HL HP. unfold get_err. rewrite tsumabs_R by (apply wf_tbuild; auto). rewrite sumabs_sumidx. cbn [shp tbuild]. unfold difference. apply sumidx_ext. intros idx Hi.
  rewrite tget_tbuild by auto. f_equal. rewrite coefAt_in by auto. unfold coefAt. rewrite inrangeb_forallb by (apply inrange_length in Hi; lia). rnum.
  destruct (forallb _ _); ring.
Qed.
Lemma threshold_R (rel norm : R) (M M2 : tensor R) : @threshold R R_num rel M M2 norm = insignificant rel norm M2 M.
Proof.
  unfold threshold, insignificant. rewrite nmax_R. f_equal. rewrite !nofnat_R, macheps_R. rnum.
  replace (/ 2 ^ 52) with (/ 4503599627370496) by (f_equal; simpl; lra). replace (INR 10) with 10 by (simpl; lra). reflexivity.
Qed.
(** the norm is the largest absolute value on the grid *)
Definition gridMax (g : list R -> R) (a b : list R) (D : list nat) (m : R) : Prop :=
  (forall y, gridNode D y -> Rabs (g (boxPoint a b y)) <= m) /\ exists y, gridNode D y /\ Rabs (g (boxPoint a b y)) = m.
Lemma fresh_norm junk f a b D : pos D -> gridMax (callAt f) a b D (freshNorm cosR junk f a b D).
Proof.
  intros HD. unfold freshNorm. set (vb := freshBlock cosR f a b D).
  assert (Hs : shp vb = map S D) by reflexivity.
  assert (HV : forall J, inrange (map S D) J -> tget vb J = callAt f (boxPoint a b (nodes D J))).
  { intros J HJ. unfold vb, freshBlock, gridValues. rewrite tget_tbuild by auto. rewrite gridPoint_box. reflexivity. }
  assert (W2 : wf (blockCopy junk vb)).
  { unfold blockCopy. rewrite Hs, map_map. cbn [pred]. rewrite map_id.
    assert (P2 : Forall (fun n => (1 <= n)%nat) (map (fun d => 2 * d)%nat D)) by (clear -HD; induction HD; simpl; constructor; auto; lia).
    assert (G : forall l acc, wf acc -> wf (fold_left (copyStep D vb) l acc)).
    { induction l; intros acc H; cbn [fold_left]; auto. apply IHl. unfold copyStep. apply wf_tbuild; auto. }
    apply G, wf_tbuild; auto. }
  pose proof (blockCopy_shape junk D vb Hs) as S2.
  assert (HD2 : dat (blockCopy junk vb) = map (fun e => tget vb (foldIdx D e)) (indices (map (fun d => 2 * d)%nat D))).
  { rewrite dat_tget by auto. rewrite S2. apply map_ext_in. intros e He. apply in_indices in He. apply blockCopy_get; auto. }
  assert (HU : forall y, gridNode D y -> Rabs (callAt f (boxPoint a b y)) <= @maxAbs R R_num (dat (blockCopy junk vb))).
  { intros y Hy. apply gridNode_nodes in Hy. destruct Hy as (j & Hj & ->). rewrite <- HV by auto. apply ApproxDegree.maxAbs_ge. rewrite HD2. apply in_map_iff. exists j.
    rewrite foldIdx_id by auto. split; auto. apply in_indices, inrange_wide; auto. }
  split; auto.
  destruct (Rle_lt_or_eq_dec 0 _ (maxAbs_nonneg (dat (blockCopy junk vb)))) as [Hp|Hz].
  - destruct (maxAbs_attained _ Hp) as (x & Hx & E). rewrite HD2 in Hx. apply in_map_iff in Hx. destruct Hx as (e & <- & He). apply in_indices in He.
    exists (nodes D (foldIdx D e)). pose proof (foldIdx_inrange D e HD He) as HF. split; [apply gridNode_nodes; eauto|]. rewrite <- HV by auto. exact E.
  - exists (nodes D (repeat 0%nat (length D))).
    assert (HR : inrange (map S D) (repeat 0%nat (length D))) by (clear; induction D; simpl; constructor; auto; lia).
    assert (HN : gridNode D (nodes D (repeat 0%nat (length D)))) by (apply gridNode_nodes; eauto).
    split; auto. specialize (HU _ HN). rewrite <- Hz in *. pose proof (Rabs_pos (callAt f (boxPoint a b (nodes D (repeat 0%nat (length D)))))). lra.
Qed.

(** ** C88: the constructor on a function *)
(** What the finished object holds, for the degrees D it ended with *)
Definition describes (g : list R -> R) (a b : list R) (D : list nat) (r : @maker R) : Prop :=
  interpolant g a b D (mM r) /\ interpolant g a b (map (fun d => 2 * d)%nat D) (mM2 r) /\
  mErr r = difference (mM2 r) (mM r) /\ gridMax g a b D (mNorm r) /\
  match mRescaled r with
  | Some N => mNorm r <> 0 /\ shp N = shp (mM r) /\ forall idx, inrange (shp N) idx -> tget N idx = tget (mM r) idx / mNorm r
  | None => mNorm r = 0
  end.
(** why the search ended: every degree is at the limit; or the two approximations agree; or, in every variable whose degree
    is below the limit, doubling that degree as well changes nothing significant *)
Definition finished (g : list R -> R) (a b : list R) (rel : R) (maxdeg : nat) (D : list nat) (r : @maker R) : Prop :=
  (forall i, (i < length D)%nat -> (maxdeg <= nth i D 0)%nat) \/
  mErr r < insignificant rel (mNorm r) (mM2 r) (mM r) \/
  (forall i N, (i < length D)%nat -> (nth i D 0 < maxdeg)%nat ->
     interpolant g a b (upd (map (fun d => 2 * d)%nat D) i (nth i D 0%nat)) N -> difference (mM2 r) N <= insignificant rel (mNorm r) (mM2 r) N).
(** the largest degree: the caller's, or the table's *)
Definition limit (n : nat) (edit : option nat) : nat :=
  match edit with Some e => e | None => nth (n - 1) [2 ^ 18; 2 ^ 9; 2 ^ 6; 2 ^ 5; 2 ^ 4; 2 ^ 3; 2 ^ 3; 2 ^ 2; 2 ^ 2; 2 ^ 2]%nat 0%nat end.
Lemma maxDegOf_limit n edit : (1 <= n <= 10)%nat -> exists m, maxDegOf n = Some m /\ (match edit with Some e => e | None => m end) = limit n edit.
Proof.
  intros H. unfold limit. destruct n as [|n]; [lia|]. do 10 (destruct n as [|n]; [eexists; split; [reflexivity|destruct edit; reflexivity]|]). lia.
Qed.
Lemma shapes_of g a b D M : interpolant g a b D M -> length (shp M) = length D /\ Forall (fun n => (1 <= n)%nat) (shp M).
Proof.
  intros (W & -> & _). rewrite map_length. split; auto. apply Forall_forall. intros x Hx. apply in_map_iff in Hx. destruct Hx as (d & <- & _). lia.
Qed.
Lemma run_full junk g a b guess edit rel : (1 <= length a <= 10)%nat -> length b = length a -> (1 <= guess)%nat ->
  exists fuel0 r D st, (forall fuel, (fuel0 < fuel)%nat -> m_maker cosR junk fuel (Plain g) a b guess edit rel = MOk r) /\
    length D = length a /\ (forall i, (i < length a)%nat -> (guess <= nth i D 0 <= Nat.max guess (limit (length a) edit))%nat) /\ pos D /\
    describes g a b D r /\ mDegs r = map (Nat.min (limit (length a) edit)) D /\
    (finished g a b rel (limit (length a) edit) D r \/ (limit (length a) edit < guess)%nat) /\
    mM r = freshCoeffs cosR junk (Plain g) a b D /\
    (forall fuel, (fuel0 < fuel)%nat -> exists A, find_good_approx cosR junk fuel (Plain g) a b rel (limit (length a) edit) (repeat guess (length a)) = MOk (A, st)) /\
    mValues r = nth_error (map snd (memo st)) (length (map snd (memo st)) - 2).
Proof.
  intros Hn Hb Hg. destruct (maxDegOf_limit (length a) edit Hn) as (m & Em & EL).
  destruct (find_plain junk g a b rel (limit (length a) edit) guess Hg) as (D & k & st & HF & HLD & HB & HP & HG & HS).
  cbn zeta in HF.
  set (A := apprAt junk g a b D) in *.
  set (A' := mkA (aM A) (aNorm A) (aM2 A) (aErr A) (map (fun d => if (limit (length a) edit <? d)%nat then limit (length a) edit else d) D)) in *.
  exists k.
  set (r := mkM (aM A') (aNorm A') (aM2 A') (aErr A') (aDegs A') (if @neqb R R_num (aNorm A') (@n0 R R_num) then None else Some (tbuild (shp (aM A')) (fun idx => ndiv (tget (aM A') idx) (aNorm A'))))
          (nth_error (map snd (memo st)) (length (map snd (memo st)) - 2))).
  exists r, D, st.
  assert (I1 : interpolant g a b D (aM A)) by (apply (fresh_interpolant junk (Plain g)); auto).
  assert (I2 : interpolant g a b (double D) (aM2 A)) by (apply (fresh_interpolant junk (Plain g)), double_pos; auto).
  assert (HE : aErr A = difference (aM2 A) (aM A)).
  { apply get_err_difference; [|apply (shapes_of g a b (double D)); auto].
    rewrite (proj1 (shapes_of g a b D _ I1)), (proj1 (shapes_of g a b (double D) _ I2)), double_length. reflexivity. }
  split; [|split; [auto|split; [auto|split; [auto|split; [|split; [|split; [|split; [|split]]]]]]]].
  - intros fuel Hf. unfold m_maker. rewrite Hb, Nat.eqb_refl. cbn [negb]. rewrite Em, EL, HF by auto. cbn [mbind]. reflexivity.
  - split; [exact I1|]. split; [exact I2|]. split; [exact HE|]. split; [apply (fresh_norm junk (Plain g)); auto|]. unfold r. cbn [mRescaled mNorm mM].
    destruct (@neqb R R_num (aNorm A') (@n0 R R_num)) eqn:EN.
    + apply Reqb_true in EN. exact EN.
    + apply Reqb_false in EN. split; [exact EN|]. split; [reflexivity|]. intros idx Hi. cbn [shp tbuild] in Hi. rewrite tget_tbuild by auto. reflexivity.
  - unfold r, A'. cbn [mDegs aDegs]. apply map_ext. intros d. destruct (Nat.ltb_spec (limit (length a) edit) d); lia.
  - destruct HS as [HS|HS]; [left|right; auto]. destruct HS as [HS|[HS|HS]]; [left; auto|right; left|right; right].
    + rewrite threshold_R in HS. exact HS.
    + intros i N Hi Hlt HN. specialize (HS i Hi Hlt). rewrite threshold_R in HS.
      assert (HPT : pos (testDegs D i)) by (apply test_pos; auto).
      assert (IT : interpolant g a b (testDegs D i) (freshCoeffs cosR junk (Plain g) a b (testDegs D i))) by (apply (fresh_interpolant junk (Plain g)); auto).
      rewrite (interpolant_unique g a b (testDegs D i) N _ HPT HN IT).
      rewrite get_err_difference in HS; [exact HS| |apply (shapes_of g a b (double D)); auto].
      transitivity (length D); [rewrite (proj1 (shapes_of g a b _ _ IT)); unfold testDegs; rewrite upd_length; apply double_length|].
      symmetry. etransitivity; [exact (proj1 (shapes_of g a b _ _ I2))|apply double_length].
  - reflexivity.
  - intros fuel Hf. exists A'. apply HF. auto.
  - reflexivity.
Qed.

Theorem C88_returns_the_interpolant : forall junk g a b guess edit rel,
  (1 <= length a <= 10)%nat -> length b = length a -> (1 <= guess)%nat ->
  exists fuel0 r D, (forall fuel, (fuel0 < fuel)%nat -> m_maker cosR junk fuel (Plain g) a b guess edit rel = MOk r) /\
    length D = length a /\ (forall i, (i < length a)%nat -> (guess <= nth i D 0 <= Nat.max guess (limit (length a) edit))%nat) /\
    describes g a b D r /\ (forall N, interpolant g a b D N -> N = mM r) /\
    ((guess <= limit (length a) edit)%nat -> mDegs r = D /\ finished g a b rel (limit (length a) edit) D r).
Proof.
  intros junk g a b guess edit rel Hn Hb Hg. destruct (run_full junk g a b guess edit rel Hn Hb Hg) as (k & r & D & st & HF & HL & HB & HP & HDs & HDeg & HFin & _).
  exists k, r, D. split; [auto|]. split; [auto|]. split; [auto|]. split; [auto|]. split.
  - intros N HN. apply (interpolant_unique g a b D); auto. apply HDs.
  - intros Hlim. split; [|destruct HFin; auto; lia]. rewrite HDeg. rewrite <- (map_id D) at 2. apply map_ext_in. intros x Hx.
    apply (In_nth _ _ 0%nat) in Hx. destruct Hx as (i & Hi & <-). specialize (HB i ltac:(lia)). lia.
Qed.
Print Assumptions C88_returns_the_interpolant.
Example C88_case : (1 <= length [0; 0] <= 10)%nat /\ (5 <= limit 2 None)%nat /\ (limit 2 None = 512)%nat /\
  interpolant (fun x => nth 0 x 0) [0] [2] [1%nat] (mkT [2%nat] [1; 1]).
Proof.
  split; [simpl; lia|]. split; [apply Nat.leb_le; reflexivity|]. split; [reflexivity|].
  split; [split; [reflexivity|repeat constructor]|]. split; [reflexivity|]. intros y (j & Hj & ->). inversion Hj as [|j0 d r s H1 H2]; subst. inversion H2; subst.
  cbn [combine map fst snd boxPoint nth]. unfold cheb_eval. cbn. field.
Qed.
