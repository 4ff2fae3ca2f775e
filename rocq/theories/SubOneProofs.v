(** * Proofs about the one-variable solver of subdivision.py *)
From Coq Require Import Reals List Lia Lra Arith Bool.
From Coquelicot Require Import Complex.
From Coq Require Import List.
From Verif Require Import Num Tensor RSum Cheb PolySpec LinearModel CombinedModel CombinedSpec ApproxModel ApproxDct ApproxInterp MakerModel MakerProofs MakerProps MakerMore.
From Verif Require Import SubApproxModel SubApproxMore TrackerModel SubOneSpec SubOneModel.
From Verif Require OneDSpec OneDModel OneDLink OneDProps.
Import ListNotations.
Local Open Scope R_scope.

(** ** Chebyshev series as lists *)
Lemma chebSum_snoc l c y : chebSum (l ++ [c]) y = chebSum l y + c * chebT (length l) y.
Proof.
  unfold chebSum. rewrite app_length. cbn [length]. rewrite Nat.add_1_r. cbn [sumn]. f_equal.
  - apply sumn_ext. intros i Hi. rewrite app_nth1 by auto. reflexivity.
  - rewrite app_nth2, Nat.sub_diag by lia. reflexivity.
Qed.
Lemma chebSum_pad l k y : chebSum (l ++ repeat 0 k) y = chebSum l y.
Proof.
  induction k as [|k IH]; [cbn [repeat]; rewrite app_nil_r; reflexivity|].
  replace (repeat 0 (S k)) with (repeat 0 k ++ [0]) by (clear; induction k; cbn; [reflexivity|f_equal; auto]).
  rewrite app_assoc, chebSum_snoc, IH. ring.
Qed.
Definition tens (c : list R) : tensor R := mkT [length c] c.
Lemma tens_eval c y : cheb_eval (tens c) [y] = chebSum c y.
Proof.
  rewrite cheb_eval_sumidx. cbn [shp tens sumidx]. unfold chebSum. apply sumn_ext. intros k Hk. unfold tget, basis. cbn [shp dat tens ravel_index combine map fold_right fst snd].
  unfold prodn. cbn [fold_right]. rewrite Nat.mul_1_r, Nat.add_0_r, Rmult_1_r. reflexivity.
Qed.
Lemma tens_get c k : tget (tens c) [k] = nth k c 0.
Proof. unfold tget. cbn [shp dat tens ravel_index]. unfold prodn. cbn [fold_right]. rewrite Nat.mul_1_r, Nat.add_0_r. reflexivity. Qed.
Lemma tens_wf c : (1 <= length c)%nat -> wf (tens c).
Proof. intros H. split; [cbn [dat shp tens]; unfold prodn; cbn [fold_right]; lia|cbn [shp tens]; constructor; auto]. Qed.
Lemma tens_interpolant (g : R -> R) d c : length c = S d -> (forall j, (j <= d)%nat -> chebSum c (cosR j d) = g (cosR j d)) ->
  interpolant (fun x => g (nth 0 x 0)) [-1] [1] [d] (tens c).
Proof.
  intros L H. split; [apply tens_wf; lia|]. split; [cbn [shp tens map]; rewrite L; reflexivity|]. intros y Hy. apply gridNode_nodes in Hy. destruct Hy as (j & Hj & ->).
  inversion Hj as [|i ? j' ? Hi Hj']; subst. inversion Hj'; subst. cbn [nodes combine map fst snd]. rewrite tens_eval, H by lia. unfold boxPoint. cbn [combine map fst snd nth]. f_equal. field.
Qed.
Lemma series_unique (g : R -> R) d c c' : (1 <= d)%nat -> length c = S d -> length c' = S d -> (forall j, (j <= d)%nat -> chebSum c (cosR j d) = g (cosR j d)) ->
  (forall j, (j <= d)%nat -> chebSum c' (cosR j d) = g (cosR j d)) -> c = c'.
Proof.
  intros Hd L L' H H'. assert (E : tens c = tens c').
  { apply (interpolant_unique (fun x => g (nth 0 x 0)) [-1] [1] [d]); [constructor; auto|apply tens_interpolant; auto|apply tens_interpolant; auto]. }
  injection E as _ E. exact E.
Qed.

(** ** polynomials as Chebyshev series *)
Definition hasSeries (n : nat) (g : R -> R) : Prop := exists c, length c = n /\ forall y, g y = chebSum c y.
Lemma hs_ext n g h : (forall y, g y = h y) -> hasSeries n g -> hasSeries n h.
Proof. intros E (c & L & H). exists c. split; auto. intros y. rewrite <- E. auto. Qed.
Lemma hs_mono n m g : (n <= m)%nat -> hasSeries n g -> hasSeries m g.
Proof. intros Hn (c & L & H). exists (c ++ repeat 0 (m - n)). split; [rewrite app_length, repeat_length; lia|]. intros y. rewrite chebSum_pad. auto. Qed.
Lemma hs_lin n g h k : hasSeries n g -> hasSeries n h -> hasSeries n (fun y => g y + k * h y).
Proof.
  intros (c & L & H) (c' & L' & H'). exists (map (fun i => nth i c 0 + k * nth i c' 0) (seq 0 n)). split; [rewrite map_length, seq_length; auto|].
  intros y. rewrite H, H'. unfold chebSum. rewrite map_length, seq_length, L, L'. rewrite <- sumn_scal, <- sumn_plus. apply sumn_ext. intros i Hi.
  set (F := fun i0 : nat => _). rewrite (nth_indep (map F (seq 0 n)) 0 (F 0%nat)) by (rewrite map_length, seq_length; auto). rewrite map_nth, seq_nth by auto. unfold F. cbn [Nat.add]. ring.
Qed.
Lemma hs_zero n : hasSeries n (fun _ => 0).
Proof. exists (repeat 0 n). split; [apply repeat_length|]. intros y. pose proof (chebSum_pad [] n y) as X. cbn [List.app] in X. rewrite X. reflexivity. Qed.
Lemma hs_T k : hasSeries (S k) (chebT k).
Proof.
  exists (repeat 0 k ++ [1]). split; [rewrite app_length, repeat_length; cbn [length]; lia|]. intros y. rewrite chebSum_snoc, repeat_length.
  pose proof (chebSum_pad [] k y) as X. cbn [List.app] in X. rewrite X. unfold chebSum. cbn [length sumn]. ring.
Qed.
Lemma hs_yT k : hasSeries (S (S k)) (fun y => y * chebT k y).
Proof.
  destruct k as [|k].
  - eapply hs_ext; [|apply (hs_T 1)]. intros y. rewrite chebT_0, chebT_1. ring.
  - eapply hs_ext; [|apply (hs_lin _ _ _ (/ 2) (hs_zero _) (hs_lin _ _ _ 1 (hs_T (S (S k))) (hs_mono (S k) (S (S (S k))) _ ltac:(lia) (hs_T k))))].
    intros y. cbv beta. rewrite chebT_SS. field.
Qed.
Lemma hs_mulx n g : hasSeries n g -> hasSeries (S n) (fun y => y * g y).
Proof.
  intros (c & L & H). revert n g L H. induction c as [|x c IH] using rev_ind; intros n g L H.
  - eapply hs_ext; [|apply hs_zero]. intros y. rewrite H. unfold chebSum. cbn [length sumn]. ring.
  - rewrite app_length in L. cbn [length] in L.
    eapply hs_ext; [|apply (hs_lin (S n) (fun y => y * chebSum c y) (fun y => y * chebT (length c) y) x)].
    + intros y. cbv beta. rewrite H, chebSum_snoc. ring.
    + apply (hs_mono (S (length c))); [lia|]. apply (IH (length c)); auto.
    + apply (hs_mono (S (S (length c)))); [lia|]. apply hs_yT.
Qed.
Lemma hs_affine_pow a b k : hasSeries (S k) (fun y => (a * y + b) ^ k).
Proof.
  induction k as [|k IH].
  - eapply hs_ext; [|apply (hs_T 0)]. intros y. rewrite chebT_0. reflexivity.
  - eapply hs_ext; [|apply (hs_lin _ _ _ b (hs_lin _ _ _ a (hs_zero _) (hs_mulx _ _ IH)) (hs_mono (S k) (S (S k)) _ ltac:(lia) IH))].
    intros y. cbv beta. cbn [pow]. ring.
Qed.
Lemma hs_polynomial f d u v : isPolynomial f d -> hasSeries (S d) (fun y => f (pointOf u v y)).
Proof.
  intros (p & L & H).
  assert (G : forall m, (m <= S d)%nat -> hasSeries (S d) (fun y => sumn m (fun k => nth k p 0 * pointOf u v y ^ k))).
  { induction m as [|m IH]; intros Hm; [apply hs_zero|]. cbn [sumn].
    apply (hs_lin (S d) (fun y => sumn m (fun k => nth k p 0 * pointOf u v y ^ k)) (fun y => pointOf u v y ^ m) (nth m p 0)); [apply IH; lia|].
    apply (hs_mono (S m)); [lia|]. eapply hs_ext; [|apply (hs_affine_pow ((v - u) / 2) ((v + u) / 2) m)]. intros y. cbv beta. f_equal. unfold pointOf. field. }
  eapply hs_ext; [|apply (G (length p) L)]. intros y. cbv beta. symmetry. apply H.
Qed.

(** ** one approximation *)
Definition coeffs1 (f : R -> R) (a b : R) (deg : nat) : list R := fst (fst (interval_approximate_1d cosR f a b deg)).
Definition norm1 (f : R -> R) (a b : R) (deg : nat) : R := snd (interval_approximate_1d cosR f a b deg).
Lemma one_facts f a b deg : (1 <= deg)%nat -> length (coeffs1 f a b deg) = S deg /\
  (forall j, (j <= deg)%nat -> chebSum (coeffs1 f a b deg) (cosR j deg) = f (pointOf a b (cosR j deg))) /\ largestAt f a b deg (norm1 f a b deg).
Proof.
  intros Hd. pose proof (C107_one_variable f a b deg Hd) as X. unfold coeffs1, norm1. destruct (interval_approximate_1d cosR f a b deg) as [[c sc] m]. cbn [fst snd].
  destruct X as (L & H & _ & U & A). split; [lia|]. split; [|split; auto].
  intros j Hj. specialize (H j Hj). rewrite Rsum_map_seq in H. unfold chebSum. rewrite L. exact H.
Qed.
Lemma coeffs1_unique f a b deg c : (1 <= deg)%nat -> length c = S deg -> (forall j, (j <= deg)%nat -> chebSum c (cosR j deg) = f (pointOf a b (cosR j deg))) -> coeffs1 f a b deg = c.
Proof. intros Hd L H. destruct (one_facts f a b deg Hd) as (L1 & H1 & _). apply (series_unique (fun y => f (pointOf a b y)) deg); auto. Qed.

Lemma error1_sum c c2 : (length c <= length c2)%nat -> error1 c c2 = sumn (length c2) (fun i => Rabs (nth i c2 0 - nth i c 0)).
Proof.
  intros L. unfold error1. rewrite <- Rsum_map_seq. unfold Rsum. induction (seq 0 (length c2)) as [|i l IH]; [reflexivity|]. cbn [fold_right map]. rewrite IH. f_equal. f_equal.
  destruct (Nat.ltb_spec i (length c)); auto. rewrite (nth_overflow c) by auto. ring.
Qed.
Lemma error1_distance c c2 y : (length c <= length c2)%nat -> -1 <= y <= 1 -> Rabs (chebSum c2 y - chebSum c y) <= error1 c c2.
Proof.
  intros L Hy. rewrite error1_sum by auto. rewrite <- (chebSum_pad c (length c2 - length c) y). unfold chebSum. rewrite app_length, repeat_length. replace (length c + (length c2 - length c))%nat with (length c2) by lia.
  rewrite <- sumn_minus. eapply Rle_trans; [apply sumn_abs|]. apply sumn_le. intros i Hi.
  replace (nth i (c ++ repeat 0 (length c2 - length c)) 0) with (nth i c 0).
  - rewrite <- Rmult_minus_distr_r, Rabs_mult. rewrite <- (Rmult_1_r (Rabs (nth i c2 0 - nth i c 0))) at 2. apply Rmult_le_compat_l; [apply Rabs_pos|]. apply chebT_bound. auto.
  - destruct (Nat.lt_ge_cases i (length c)); [rewrite app_nth1; auto|]. rewrite app_nth2, nth_repeat, nth_overflow by auto. reflexivity.
Qed.

(** ** trimming *)
Definition sumAbs (l : list R) : R := Rsum (map Rabs l).
Lemma trim1_spec : forall rc e al rc' e', trim1 rc e al = (rc', e') -> rc <> [] ->
  exists dropped, rc = dropped ++ rc' /\ e' = e + sumAbs dropped /\ (dropped = [] \/ e' < al) /\ rc' <> [] /\ ((2 <= length rc')%nat -> al <= e' + Rabs (hd 0 rc')).
Proof.
  induction rc as [|c rest IH]; intros e al rc' e' E N; [congruence|]. cbn [trim1] in E. destruct (Rlt_dec (e + Rabs c) al) as [H|H].
  - destruct rest as [|c2 rest].
    + injection E as <- <-. exists []. unfold sumAbs, Rsum. cbn [map fold_right List.app length]. split; [reflexivity|]. split; [ring|]. split; [auto|]. split; [discriminate|]. lia.
    + destruct (IH _ _ _ _ E ltac:(congruence)) as (dr & E1 & E2 & E3 & E4 & E5). exists (c :: dr). cbn [List.app]. rewrite E1. split; auto. split; [rewrite E2; unfold sumAbs, Rsum; cbn [map fold_right]; ring|].
      split; auto. right. destruct E3 as [->|E3]; auto. rewrite E2. unfold sumAbs, Rsum. cbn [map fold_right]. lra.
  - injection E as <- <-. exists []. unfold sumAbs, Rsum. cbn [map fold_right List.app hd]. split; [reflexivity|]. split; [ring|]. split; [auto|]. split; [discriminate|]. intros _. lra.
Qed.
Lemma trim_distance dr rc y : -1 <= y <= 1 -> Rabs (chebSum (rev (dr ++ rc)) y - chebSum (rev rc) y) <= sumAbs dr.
Proof.
  intros Hy. induction dr as [|c dr IH]; cbn [List.app rev]; [unfold sumAbs, Rsum; cbn [map fold_right]; rewrite Rminus_diag_eq, Rabs_R0; [lra|auto]|].
  rewrite chebSum_snoc. unfold sumAbs, Rsum in *. cbn [map fold_right]. set (k := length _) in *.
  replace (chebSum (rev (dr ++ rc)) y + c * chebT k y - chebSum (rev rc) y) with (c * chebT k y + (chebSum (rev (dr ++ rc)) y - chebSum (rev rc) y)) by ring.
  eapply Rle_trans; [apply Rabs_triang|]. apply Rplus_le_compat; auto. rewrite Rabs_mult. rewrite <- (Rmult_1_r (Rabs c)) at 2. apply Rmult_le_compat_l; [apply Rabs_pos|]. apply chebT_bound. auto.
Qed.

(** ** complex zeros *)
Lemma complex_chebT y : forall k, OneDSpec.chebT (RtoC y) k = RtoC (chebT k y).
Proof.
  intros k. assert (G : OneDSpec.chebT2 (RtoC y) k = (RtoC (chebT k y), RtoC (chebT (S k) y))).
  { induction k as [|k IH]; [reflexivity|]. cbn [OneDSpec.chebT2]. rewrite IH. rewrite chebT_SS. f_equal. unfold RtoC, Cminus, Cplus, Cmult, Copp. cbn [fst snd]. f_equal; ring. }
  unfold OneDSpec.chebT. rewrite G. reflexivity.
Qed.
Lemma complex_chebSum c y : OneDSpec.chebValue c (RtoC y) = RtoC (chebSum c y).
Proof.
  unfold OneDSpec.chebValue, chebSum. induction (length c) as [|n IH]; [reflexivity|]. cbn [OneDSpec.csum sumn]. rewrite IH, complex_chebT. unfold RtoC, Cplus, Cmult. cbn [fst snd]. f_equal; ring.
Qed.
Definition exactEig (eigvals : nat -> (nat -> nat -> R) -> list C) : Prop := forall n M, OneDSpec.spectrum n M (eigvals n M).
Lemma multCheb_list eigvals c : exactEig eigvals -> last c 0 <> 0 ->
  exists l, OneDModel.multCheb eigvals (fun _ _ => []) OneDModel.Floats c true = OneDModel.Zeros l /\ forall o, In o l <-> exists z, o = Some z /\ OneDSpec.chebValue c z = RtoC 0.
Proof.
  intros HE HL. destruct OneDProps.exact_eigenvalue_routines_exist as (e & le & _ & Hle).
  destruct (OneDLink.multCheb_exact eigvals le c true HL HE Hle) as (l & E & H). exists l. split; [|exact H]. rewrite <- E. unfold OneDModel.multCheb. destruct c as [|c0 [|c1 [|c2 cs]]]; reflexivity.
Qed.
Lemma good_zeros_in l it rt x : In x (good_zeros_1d l it rt) <-> exists z, In (Some z) l /\ Cmod z <= 1 + rt /\ Rabs (Im z) < it /\ x = Re z.
Proof.
  unfold good_zeros_1d. rewrite in_flat_map. split.
  - intros ([z|] & H & Hx); [|destruct Hx]. destruct (Rle_dec (Cmod z) (1 + rt)); [|destruct Hx]. destruct (Rlt_dec (Rabs (Im z)) it); [|destruct Hx]. destruct Hx as [<-|[]]. exists z. auto.
  - intros (z & H & H1 & H2 & ->). exists (Some z). split; auto. destruct (Rle_dec (Cmod z) (1 + rt)); [|contradiction]. destruct (Rlt_dec (Rabs (Im z)) it); [|contradiction]. left. reflexivity.
Qed.

Lemma RAND_facts : 1 / 2 < RAND < 1.
Proof. unfold RAND. assert (E : 10 ^ 16 = 10000000000000000) by ring. rewrite E. lra. Qed.
Lemma chain_app a m b l1 : forall l2, chain a m l1 -> chain m b l2 -> chain a b (l1 ++ l2).
Proof. revert a. induction l1 as [|[u v] l1 IH]; intros a l2 H1 H2; cbn [chain List.app] in *; [subst; auto|]. destruct H1 as (-> & H & H1). split; [reflexivity|]. split; [exact H|]. apply IH; auto. Qed.
Lemma transform_point x a b : transformPt x a b = pointOf a b x.
Proof. unfold transformPt, pointOf. rnum. rewrite n2_R. reflexivity. Qed.
Lemma rev_last (l : list R) : last (rev l) 0 = hd 0 l.
Proof. destruct l as [|x l]; [reflexivity|]. cbn [rev hd]. rewrite last_last. reflexivity. Qed.
Lemma trim_length dr rc (l : list R) : rev l = dr ++ rc -> length l = (length dr + length rc)%nat.
Proof. intros E. rewrite <- (rev_length l), E, app_length. reflexivity. Qed.

Lemma exists_last_or {A} (l : list A) : l = [] \/ exists l' x, l = l' ++ [x].
Proof. destruct l using rev_ind; [left; reflexivity|right; eauto]. Qed.

Section One.
  Variable eigvals : nat -> (nat -> nat -> R) -> list C.
  Hypothesis HE : exactEig eigvals.
  Variable f : R -> R.
  Variable tols : tolset.
  Variable deg : nat.
  Hypothesis Hdeg : (1 <= deg)%nat.
  Lemma poly_series a b : isPolynomial f (2 * deg) -> forall y, f (pointOf a b y) = chebSum (coeffs1 f a b (deg * 2)) y.
  Proof.
    intros HP y. destruct (hs_polynomial f (2 * deg) a b HP) as (c & L & H). rewrite (coeffs1_unique f a b (deg * 2) c); auto; lia.
  Qed.
  Lemma approx_pairs a b d : interval_approximate_1d cosR f a b d = (coeffs1 f a b d, snd (fst (interval_approximate_1d cosR f a b d)), norm1 f a b d).
  Proof. unfold coeffs1, norm1. destruct (interval_approximate_1d cosR f a b d) as [[? ?] ?]. reflexivity. Qed.
  Lemma leaf_solved a b (trust : bool) q rc error (l : list (option C)) :
    let al := abs_approx_tol tols + rel_approx_tol tols * norm1 f a b (deg * 2) in
    let c1 := coeffs1 f a b deg in let c2 := coeffs1 f a b (deg * 2) in
    ~ al < error1 c1 c2 -> trim1 (rev c1) (error1 c1 c2) al = (rc, error) -> q = rev rc ->
    let error' := if trust then error else Rmax error macheps in
    let tol := Rmax (min_good_zeros_tol tols) (error' * good_zeros_factor tols) in
    OneDModel.multCheb eigvals (fun _ _ => []) OneDModel.Floats q true = OneDModel.Zeros l ->
    solvedOK f tols deg trust a b (map (fun x => transformPt x a b) (good_zeros_1d l tol tol)).
  Proof.
    intros al c1 c2 HN HT Eq error' tol HM.
    destruct (one_facts f a b deg Hdeg) as (L1 & V1 & _). destruct (one_facts f a b (deg * 2) ltac:(lia)) as (L2 & V2 & G2). fold c1 in L1, V1. fold c2 in L2, V2.
    assert (NE : rev c1 <> []) by (intros E; apply (f_equal (@length R)) in E; rewrite rev_length in E; cbn [length] in E; lia).
    destruct (trim1_spec _ _ _ _ _ HT NE) as (dr & E1 & E2 & E3 & E4 & E5). pose proof (trim_length _ _ _ E1) as TL.
    assert (LQ : length q = length rc) by (rewrite Eq, rev_length; reflexivity).
    assert (LR : (1 <= length rc)%nat) by (destruct rc; [congruence|cbn [length]; lia]).
    assert (D3 : forall y, -1 <= y <= 1 -> Rabs (chebSum c2 y - chebSum q y) <= error').
    { intros y Hy. assert (D1 : Rabs (chebSum c2 y - chebSum c1 y) <= error1 c1 c2) by (apply error1_distance; auto; lia).
      assert (D2 : Rabs (chebSum c1 y - chebSum q y) <= sumAbs dr) by (rewrite Eq; rewrite <- (rev_involutive c1), E1; apply trim_distance; auto).
      assert (D3 : Rabs (chebSum c2 y - chebSum q y) <= error).
      { rewrite E2. replace (chebSum c2 y - chebSum q y) with ((chebSum c2 y - chebSum c1 y) + (chebSum c1 y - chebSum q y)) by ring. eapply Rle_trans; [apply Rabs_triang|]. lra. }
      unfold error'. destruct trust; [auto|]. eapply Rle_trans; [exact D3|apply Rmax_l]. }
    exists q, error', (norm1 f a b (deg * 2)). split; [lia|]. split; [rewrite Nat.mul_comm; exact G2|]. split; [|split; [|split]].
    - cbv zeta. fold al. assert (EA : error <= al) by (destruct E3 as [->|E3]; [rewrite E2; unfold sumAbs, Rsum; cbn [map fold_right]; lra|lra]).
      unfold error'. destruct trust; [auto|]. apply Rle_max_compat_r. auto.
    - intros j Hj y. unfold y. fold (cosR j (2 * deg)). rewrite Nat.mul_comm in Hj |- *. rewrite <- V2 by auto. apply D3. unfold cosR. apply COS_bound.
    - intros HP y Hy. rewrite (poly_series a b HP). apply D3. auto.
    - cbv zeta. fold tol. destruct (Nat.leb_spec (length q) 1) as [Q1|Q1].
      + destruct q as [|q0 [|q1 q]]; cbn [length] in Q1; try lia; cbn in HM; injection HM as <-; reflexivity.
      + destruct (Req_EM_T (last q 0) 0) as [Z|Z].
        * destruct q as [|q0 [|q1 [|q2 q]]]; cbn [length] in Q1; try lia.
          { cbn [last] in Z. cbn in HM. injection HM as <-. unfold good_zeros_1d. cbn [flat_map]. unfold OneDModel.cdiv. cbn [fst snd RtoC]. rewrite Z. destruct (Req_EM_T 0 0); [reflexivity|congruence]. }
          { exfalso. unfold OneDModel.multCheb, OneDModel.inFloats, OneDModel.divided in HM.
            assert (ZZ : nth (length (q0 :: q1 :: q2 :: q) - 1) (q0 :: q1 :: q2 :: q) 0 = 0).
            { rewrite <- Z. clear. generalize (q0 :: q1 :: q2 :: q). intros l. destruct (exists_last_or l) as [->|(l' & x & ->)]; [reflexivity|]. rewrite last_last, app_length. cbn [length]. rewrite Nat.add_sub, app_nth2, Nat.sub_diag by lia. reflexivity. }
            rewrite ZZ in HM. destruct (Req_EM_T 0 0); [discriminate|congruence]. }
        * destruct (multCheb_list eigvals q HE Z) as (l' & EL & HL). rewrite EL in HM. injection HM as ->.
          intros x. rewrite in_map_iff. split.
          -- intros (r & <- & Hr). apply good_zeros_in in Hr. destruct Hr as (z & Hz & H1 & H2 & ->). apply HL in Hz. destruct Hz as (z' & Ez & Hz). injection Ez as <-. exists z. rewrite transform_point. auto.
          -- intros (w & H1 & H2 & H3 & ->). exists (Re w). rewrite transform_point. split; auto. apply good_zeros_in. exists w. split; [apply HL; eauto|auto].
  Qed.
  Lemma search_leaves : forall levels a b trust s s', a < b -> polishing s = false -> subdivision_solve_1d eigvals f tols levels a b deg trust s = Some s' ->
    exists leaves, results s' = results s ++ map stored leaves /\ tracked s' = fold_left step (flat_map calls leaves) (tracked s) /\ polishing s' = false /\
      chain a b (map span leaves) /\ Forall (leafOK f tols deg (trust && (length leaves =? 1)) ((b - a) * RAND ^ levels)) leaves.
  Proof.
    induction levels as [|levels IH]; intros a b trust s s' Hab HP E; cbn [subdivision_solve_1d] in E.
    - injection E as <-. exists [Deep a b]. unfold track. rewrite HP. cbn [results tracked polishing map stored span calls flat_map List.app fold_left chain]. repeat split; auto. constructor; [|constructor]. cbn [leafOK pow]. lra.
    - rewrite (approx_pairs a b deg), (approx_pairs a b (deg * 2)) in E. cbn [fst snd] in E. set (al := abs_approx_tol tols + _) in E. set (err := error1 _ _) in E.
      destruct (Rlt_dec al err) as [H|H].
      + set (m := a + (b - a) * RAND) in E. pose proof RAND_facts as RF.
        assert (M1 : a < m) by (unfold m; nra). assert (M2 : m < b) by (unfold m; nra).
        destruct (subdivision_solve_1d eigvals f tols levels a m deg false s) as [s1|] eqn:E1; [|discriminate].
        destruct (IH a m false s s1 M1 HP E1) as (l1 & R1 & T1 & P1 & C1 & F1). destruct (IH m b false s1 s' M2 P1 E) as (l2 & R2 & T2 & P2 & C2 & F2).
        exists (l1 ++ l2). rewrite !map_app, flat_map_app, fold_left_app, R2, R1, T2, T1, app_assoc. split; auto. split; auto. split; auto. split; [eapply chain_app; eauto|].
        assert (N1 : (1 <= length l1)%nat) by (destruct l1; cbn [map chain length] in *; [lra|lia]). assert (N2 : (1 <= length l2)%nat) by (destruct l2; cbn [map chain length] in *; [lra|lia]).
        rewrite app_length. replace (length l1 + length l2 =? 1)%nat with false by (symmetry; apply Nat.eqb_neq; lia). rewrite andb_false_r. cbn [andb] in F1, F2.
        assert (PW : 0 <= RAND ^ levels) by (apply pow_le; lra).
        apply Forall_app. split; [eapply Forall_impl; [|exact F1]|eapply Forall_impl; [|exact F2]]; intros lf; destruct lf as [u v|u v zs]; cbn [leafOK]; auto; intros W; (eapply Rle_trans; [exact W|]); cbn [pow]; rewrite <- Rmult_assoc; apply Rmult_le_compat_r; auto; unfold m; nra.
      + destruct (trim1 (rev (coeffs1 f a b deg)) err al) as [rc error] eqn:ET.
        set (error' := if trust then error else Rmax error macheps) in E. set (tol := Rmax (min_good_zeros_tol tols) (error' * good_zeros_factor tols)) in E.
        destruct (OneDModel.multCheb eigvals (fun _ _ => []) OneDModel.Floats (rev rc) true) as [| | |l] eqn:EM; try discriminate. injection E as <-.
        exists [Solved a b (map (fun x => transformPt x a b) (good_zeros_1d l tol tol))]. unfold track. rewrite HP. cbn [results tracked polishing map stored span calls flat_map List.app fold_left chain step length Nat.eqb]. rewrite andb_true_r.
        repeat split; auto. constructor; [|constructor]. cbn [leafOK]. eapply leaf_solved; eauto.
  Qed.
End One.
