(** * The doubling loop ends for every polynomial that is not 0 at the upper corner, never for 0 (over R) *)
From Coq Require Import Reals List Lia Lra Arith ZArith Bool.
From Verif Require Import Num Tensor RSum Cheb PolySpec LinearModel SolverModel CombinedModel CombinedSpec ApproxModel ApproxDct ApproxInterp ApproxError ApproxDegree.
From Verif Require PolyModel.
Import ListNotations.
Local Open Scope R_scope.

Lemma deltaL_zero degs : Forall (fun n => (1 <= n)%nat) degs -> forall K L cur, (cur < length degs)%nat -> length K = length degs -> length L = length degs ->
  (nth cur L 0 <= nth cur degs 0)%nat -> nth cur K 0%nat <> nth cur L 0%nat -> deltaL degs K L = 0.
Proof.
  induction 1 as [|n degs Hn Hd IH]; intros [|k K] [|l L] cur Hc HK HL H1 H2; simpl in Hc, HK, HL; try lia.
  cbn [deltaL]. destruct cur as [|cur]; simpl in H1, H2.
  - rewrite alias_small by lia. destruct (Nat.eqb_spec k l); [contradiction|ring].
  - rewrite (IH K L cur) by (auto; lia). ring.
Qed.
Lemma deltaL_upd degs : forall K L cur x y, (1 <= x)%nat -> (1 <= y)%nat -> (nth cur L 0 <= x)%nat -> (nth cur L 0 <= y)%nat ->
  deltaL (upd degs cur x) K L = deltaL (upd degs cur y) K L.
Proof.
  induction degs as [|n degs IH]; intros K L cur x y Hx Hy H1 H2; [reflexivity|].
  destruct cur as [|cur]; cbn [upd]; destruct K as [|k K], L as [|l L]; try reflexivity; cbn [deltaL]; simpl in H1, H2.
  - rewrite !alias_small by lia. reflexivity.
  - f_equal. apply IH; auto.
Qed.
Lemma fixDegs_upd degs cur g : (1 <= g)%nat -> fixDegs (upd degs cur g) = upd (fixDegs degs) cur g.
Proof.
  intros Hg. unfold fixDegs. revert cur; induction degs as [|d degs IH]; intros [|cur]; auto; cbn [upd map].
  - destruct (Nat.eqb_spec g 0); [lia|reflexivity].
  - f_equal. apply IH.
Qed.
Lemma nth_fixDegs degs cur : (1 <= nth cur degs 0)%nat -> nth cur (fixDegs degs) 0%nat = nth cur degs 0%nat.
Proof.
  unfold fixDegs. revert cur; induction degs as [|d degs IH]; intros [|cur]; simpl; try lia; auto.
  destruct (Nat.eqb_spec d 0); lia.
Qed.
Lemma fixDegs_id degs : Forall (fun n => (1 <= n)%nat) degs -> fixDegs degs = degs.
Proof. unfold fixDegs. induction 1; simpl; auto. destruct (Nat.eqb_spec x 0); [lia|]. f_equal; auto. Qed.
Lemma coeffChunk_length cur (t : tensor R) : length (coeffChunk cur t) = nth cur (shp t) 0%nat.
Proof. unfold coeffChunk. rewrite map_length, seq_length. reflexivity. Qed.
Lemma coeffChunk_zero cur (t : tensor R) k : (k < nth cur (shp t) 0)%nat -> (cur < length (shp t))%nat ->
  (forall K, inrange (shp t) K -> nth cur K 0%nat = k -> tget t K = 0) -> nth k (coeffChunk cur t) 0 = 0.
Proof.
  intros Hk Hc H. unfold coeffChunk.
  match goal with |- nth k (map ?F _) 0 = 0 => rewrite (nth_indep (map F (seq 0 (nth cur (shp t) 0%nat))) 0 (F 0%nat)) by (rewrite map_length, seq_length; lia);
    rewrite (map_nth F), seq_nth by lia end.
  rewrite Nat.add_0_l. rewrite nsum_map_R.
  rewrite (Rsum_map_ext _ (fun _ => 0 * 0)).
  - rewrite Rsum_map_scal. rnum. unfold Rdiv. ring.
  - intros idx Hi. apply in_indices in Hi. rewrite H.
    + rnum. rewrite Rabs_R0. ring.
    + pose proof (inrange_upd _ _ cur k (nth cur (shp t) 0%nat) Hi Hk) as U. rewrite upd_upd, upd_nth in U. exact U.
    + rewrite nth_upd_eq; auto. apply inrange_length in Hi. rewrite upd_length in Hi. lia.
Qed.

Section Loop.
  Variables (f : fobj R) (a b : list R) (P : tensor R) (rel : R).
  Let n := length a.
  Hypothesis Hab : length b = length a.
  Hypothesis HP : ndim P = n.
  Hypothesis Hf : forall y, in_cube n y -> callAt f (boxPoint a b y) = cheb_eval P y.
  Hypothesis Hb : callAt f b <> 0.
  Hypothesis Hrel : 0 < rel.

  Lemma corner_point degs : length degs = n -> gridPoint cosR degs a b (repeat 0%nat n) = b.
  Proof.
    intros Hd. unfold gridPoint, n in *. clear - Hab Hd. revert b degs Hab Hd. induction a as [|u a' IH]; intros [|v b] [|d degs] Hb Hd; simpl in *; try lia; auto.
    unfold zip3 in *. cbn [repeat combine map fst snd]. f_equal; [|apply IH; lia].
    unfold transformPt. rewrite cosR_0. rnum. rewrite n2_R. field.
  Qed.
  Lemma sup_pos degs : length degs = n -> 0 < maxAbs (dat (gridValues cosR f degs a b)).
  Proof.
    intros Hd. apply Rlt_le_trans with (Rabs (callAt f b)); [apply Rabs_pos_lt; auto|].
    apply maxAbs_ge. unfold gridValues. cbn [dat tbuild]. apply in_map_iff. exists (repeat 0%nat n). split.
    - rewrite corner_point; auto.
    - apply in_indices. rewrite <- Hd, <- (map_length S degs). apply inrange_zeros. apply Forall_forall. intros x Hx.
      apply in_map_iff in Hx. destruct Hx as (d & <- & _). lia.
  Qed.

  Let coefs (degs : list nat) : tensor R := fst (fst (intervalApproximate cosR f degs a b)).
  Lemma coefs_shp degs : shp (coefs degs) = map S degs. Proof. reflexivity. Qed.
  Lemma coefs_get degs K : length degs = n -> inrange (map S degs) K -> tget (coefs degs) K = sumidx (shp P) (fun L => tget P L * deltaL (fixDegs degs) K L).
  Proof.
    intros Hd HK. unfold coefs. pose proof (series_coeffs f degs a b P) as H.
    destruct (intervalApproximate cosR f degs a b) as [[c s] d]. cbn [fst]. apply H; auto; [lia|]. rewrite Hd. auto.
  Qed.
  (** the coefficients beyond the degree of the polynomial vanish *)
  Lemma coefs_beyond degs cur K : length degs = n -> (cur < n)%nat -> (nth cur (shp P) 0 <= S (nth cur degs 0))%nat -> (1 <= nth cur degs 0)%nat ->
    inrange (map S degs) K -> (nth cur (shp P) 0 <= nth cur K 0)%nat -> tget (coefs degs) K = 0.
  Proof.
    intros Hd Hc Hs H1 HK Hk. rewrite coefs_get by auto.
    rewrite (sumidx_ext _ _ (fun _ => 0)); [apply sumidx_0|]. intros L HL.
    pose proof (inrange_nth _ _ cur HL ltac:(unfold ndim in HP; lia)) as HLc.
    rewrite (deltaL_zero (fixDegs degs) (fixDegs_pos degs) K L cur); [ring| | | | |].
    - rewrite fixDegs_length; lia.
    - apply inrange_length in HK. rewrite map_length in HK. rewrite fixDegs_length. auto.
    - apply inrange_length in HL. rewrite fixDegs_length. unfold ndim in HP. lia.
    - rewrite nth_fixDegs by lia. lia.
    - lia.
  Qed.

  (** one round with degrees at least 1 and a large enough guess ends the loop *)
  Lemma round_ends fuel cur degs g : length degs = n -> (cur < n)%nat -> Forall (fun d => (1 <= d)%nat) degs ->
    (1 <= g)%nat -> (nth cur (shp P) 0 + 4 <= g)%nat -> guessLoop cosR rootR (S fuel) f a b rel 0 cur degs g <> None.
  Proof.
    intros Hd Hc Hpos Hg1 Hg. cbn [guessLoop].
    assert (HdU : forall x, length (upd degs cur x) = n) by (intros; rewrite upd_length; auto).
    assert (HcU : forall x, nth cur (upd degs cur x) 0%nat = x) by (intros; apply nth_upd_eq; lia).
    destruct (intervalApproximate cosR f (upd degs cur g) a b) as [[c s] d1] eqn:E1.
    assert (Hd1 : d1 = upd degs cur g).
    { change d1 with (snd (c, s, d1)). rewrite <- E1. cbn [intervalApproximate snd]. apply fixDegs_id. apply Forall_upd; auto. }
    assert (Hs1 : s = maxAbs (dat (gridValues cosR f (upd degs cur g) a b))).
    { change s with (snd (fst (c, s, d1))). rewrite <- E1. unfold intervalApproximate. cbn [fst snd]. rewrite (fixDegs_id (upd degs cur g)) by (apply Forall_upd; auto). reflexivity. }
    assert (Hc1 : c = coefs (upd degs cur g)) by (unfold coefs; rewrite E1; reflexivity).
    assert (Hs1p : 0 < s) by (rewrite Hs1; apply sup_pos; auto).
    assert (C1 : startedConverging (coeffChunk cur c) (nadd 0 (nmul s rel)) = true).
    { apply started_iff. rewrite coeffChunk_length, Hc1, coefs_shp, nth_map_S, HcU by (rewrite HdU; auto).
      intros i Hi. rewrite coeffChunk_zero.
      - rnum. nra.
      - rewrite coefs_shp, nth_map_S, HcU by (rewrite HdU; auto). lia.
      - rewrite coefs_shp, map_length, HdU. auto.
      - intros K HK HKi. rewrite coefs_shp in HK. apply (coefs_beyond _ cur); auto; rewrite ?HcU; lia. }
    rnum. rewrite C1. cbn [negb].
    destruct (intervalApproximate cosR f (upd d1 cur (2 * g + 1)%nat) a b) as [[c2 s2] d2] eqn:E2.
    rewrite Hd1, upd_upd in E2.
    assert (Hc2 : c2 = coefs (upd degs cur (2 * g + 1)%nat)) by (unfold coefs; rewrite E2; reflexivity).
    set (tol := 0 + nmax s s2 * rel).
    assert (Htol : 0 < tol). { unfold tol. rewrite nmax_Rmax. pose proof (Rmax_l s s2). nra. }
    assert (C2 : hasConverged c c2 tol = true).
    { apply converged_iff.
      { rewrite Hc2, coefs_shp. apply Forall_forall. intros x Hx. apply in_map_iff in Hx. destruct Hx as (q & <- & _). lia. }
      intros K HK. rewrite Hc2, coefs_shp in HK.
      assert (EQ : tget c2 K - coefOr0 c K = 0); [|rewrite EQ, Rabs_R0; auto].
      unfold coefOr0. rewrite Hc1, Hc2, coefs_shp.
      destruct (PolyModel.inrangeb (map S (upd degs cur g)) K) eqn:E.
      - apply inrangeb_iff in E. rewrite !coefs_get by auto. apply Rminus_diag_eq. apply sumidx_ext. intros L HL. f_equal.
        rewrite !fixDegs_upd by lia.
        pose proof (inrange_nth _ _ cur HL ltac:(unfold ndim in HP; lia)) as HLc. apply deltaL_upd; lia.
      - rewrite (coefs_beyond _ cur); auto; rewrite ?HcU; try lia; try lra.
        (* K is out of range for g, so its entry exceeds g *)
        destruct (Nat.le_gt_cases (nth cur (shp P) 0%nat) (nth cur K 0%nat)); auto. exfalso.
        assert (inrange (map S (upd degs cur g)) K); [|apply inrangeb_iff in H0; congruence].
        pose proof (inrange_upd _ _ cur (nth cur K 0%nat) (S g) HK ltac:(lia)) as U.
        rewrite upd_nth in U.
        assert (M : upd (map S (upd degs cur (2 * g + 1)%nat)) cur (S g) = map S (upd degs cur g)).
        { clear. revert cur; induction degs as [|x degs IH]; intros [|cur]; cbn [upd map]; auto. f_equal. apply IH. }
        rewrite M in U. exact U. }
    fold tol. rewrite C2. cbn [negb]. discriminate.
  Qed.
  (** after one round all the degrees are at least 1 *)
  Lemma round_step fuel cur degs g : length degs = n -> guessLoop cosR rootR (S fuel) f a b rel 0 cur degs g <> None \/
    exists degs', length degs' = n /\ Forall (fun d => (1 <= d)%nat) degs' /\ guessLoop cosR rootR (S fuel) f a b rel 0 cur degs g = guessLoop cosR rootR fuel f a b rel 0 cur degs' (2 * g).
  Proof.
    intros Hd. cbn [guessLoop].
    destruct (intervalApproximate cosR f (upd degs cur g) a b) as [[c s] d1] eqn:E1.
    assert (Hd1 : d1 = fixDegs (upd degs cur g)).
    { change d1 with (snd (c, s, d1)). rewrite <- E1. reflexivity. }
    destruct (negb (startedConverging _ _)).
    { right. exists d1. rewrite Hd1, fixDegs_length, upd_length. split; auto. split; auto. apply fixDegs_pos. }
    destruct (intervalApproximate cosR f (upd d1 cur (2 * g + 1)%nat) a b) as [[c2 s2] d2] eqn:E2.
    assert (Hd2 : d2 = fixDegs (upd d1 cur (2 * g + 1)%nat)).
    { change d2 with (snd (c2, s2, d2)). rewrite <- E2. reflexivity. }
    destruct (negb (hasConverged _ _ _)); [|left; discriminate].
    right. exists d2. rewrite Hd2, fixDegs_length, upd_length, Hd1, fixDegs_length, upd_length. split; auto. split; auto. apply fixDegs_pos.
  Qed.
  Lemma loop_ends_pos fuel : forall cur degs g, length degs = n -> (cur < n)%nat -> Forall (fun d => (1 <= d)%nat) degs -> (1 <= g)%nat ->
    (nth cur (shp P) 0 + 4 <= g + fuel)%nat -> guessLoop cosR rootR (S fuel) f a b rel 0 cur degs g <> None.
  Proof.
    induction fuel as [|fuel IH]; intros cur degs g Hd Hc Hpos Hg H.
    - apply round_ends; auto; lia.
    - destruct (round_step (S fuel) cur degs g Hd) as [E|(degs' & L & F & E)]; auto. rewrite E. apply IH; auto; lia.
  Qed.
  Lemma loop_ends fuel cur degs g : length degs = n -> (cur < n)%nat -> (1 <= g)%nat -> (nth cur (shp P) 0 + 4 <= fuel)%nat ->
    guessLoop cosR rootR (S (S fuel)) f a b rel 0 cur degs g <> None.
  Proof.
    intros Hd Hc Hg H. destruct (round_step (S fuel) cur degs g Hd) as [E|(degs' & L & F & E)]; auto.
    rewrite E. apply loop_ends_pos; auto; lia.
  Qed.
  Lemma startDegs_length cd : length (startDegs cd) = length cd.
  Proof. unfold startDegs. apply map_length. Qed.
  Lemma degrees_end fuel : (forall s, In s (shp P) -> (s + 6 <= fuel)%nat) -> forall todo cur cd, length cd = n -> (cur + todo = n)%nat ->
    degreeLoop cosR rootR todo fuel f a b rel 0 cur cd <> None.
  Proof.
    intros Hfuel. induction todo as [|todo IH]; intros cur cd Hcd Hct; cbn [degreeLoop]; [discriminate|].
    assert (G : guessLoop cosR rootR fuel f a b rel 0 cur (startDegs cd) 8 <> None).
    { assert (Hin : In (nth cur (shp P) 0%nat) (shp P)) by (apply nth_In; unfold ndim in HP; lia).
      specialize (Hfuel _ Hin). destruct fuel as [|[|fuel']]; try lia. apply loop_ends; try lia. rewrite startDegs_length; lia. }
    assert (N : forall cd', length cd' = n -> forall eps rho, match degreeLoop cosR rootR todo fuel f a b rel 0 (S cur) cd' with Some (c, es, rs) => Some (c, eps :: es, rho :: rs) | None => None end <> None).
    { intros cd' Hcd' eps rho. specialize (IH (S cur) cd' Hcd' ltac:(lia)). destruct (degreeLoop _ _ todo _ _ _ _ _ _ (S cur) cd') as [[[? ?] ?]|]; [discriminate|congruence]. }
    destruct (nth cur cd None) as [[|m]|]; [apply N; auto| |];
      (destruct (guessLoop cosR rootR fuel f a b rel 0 cur (startDegs cd) 8) as [[[? ?] ?]|]; [|congruence]; apply N; rewrite upd_length; auto).
  Qed.
End Loop.

(** ** a function that vanishes on the grids visited along one dimension *)
Section Zero.
  Variables (f : fobj R) (a b : list R) (rel : R) (cur : nat) (degs0 : list nat).
  Hypothesis Hz : forall g idx, inrange (map S (upd (fixDegs degs0) cur g)) idx -> callAt f (gridPoint cosR (upd (fixDegs degs0) cur g) a b idx) = 0.
  Hypothesis Hc : (cur < length a)%nat.
  Lemma zero_values g : maxAbs (dat (gridValues cosR f (upd (fixDegs degs0) cur g) a b)) = 0.
  Proof.
    unfold gridValues. cbn [dat tbuild]. rewrite (map_ext_in _ (fun _ => 0)) by (intros; apply Hz, in_indices; auto).
    unfold maxAbs. rewrite map_map. rnum. rewrite (map_ext _ (fun _ => 0)) by (intros; apply Rabs_R0).
    destruct (indices _) as [|i l]; [reflexivity|]. cbn [map].
    destruct (nmaxl_in (map (fun _ => 0) l) 0) as [E|E]; [exact E|].
    apply in_map_iff in E. destruct E as (x & E & _). symmetry; exact E.
  Qed.
  Lemma upd_upd {A} (l : list A) : forall k x y, upd (upd l k x) k y = upd l k y.
  Proof. induction l; intros [|k] x y; cbn [upd]; auto. f_equal. apply IHl. Qed.
  Lemma fixDegs_idem l : fixDegs (fixDegs l) = fixDegs l.
  Proof. apply fixDegs_id. apply fixDegs_pos. Qed.
  Lemma vanish_loop fuel : forall degs g, (1 <= g)%nat -> length degs = length a ->
    (forall g, upd (fixDegs degs) cur g = upd (fixDegs degs0) cur g) ->
    guessLoop cosR rootR fuel f a b rel 0 cur degs g = None.
  Proof.
    induction fuel as [|fuel IH]; intros degs g Hg Hd HI; [reflexivity|]. cbn [guessLoop].
    destruct (intervalApproximate cosR f (upd degs cur g) a b) as [[c s] d1] eqn:E1.
    assert (HF : fixDegs (upd degs cur g) = upd (fixDegs degs0) cur g) by (rewrite fixDegs_upd by auto; apply HI).
    assert (Hd1 : d1 = upd (fixDegs degs0) cur g) by (rewrite <- HF; change d1 with (snd (c, s, d1)); rewrite <- E1; reflexivity).
    assert (Hs1 : s = 0) by (change s with (snd (fst (c, s, d1))); rewrite <- E1; unfold intervalApproximate; cbn [fst snd]; rewrite HF; apply zero_values).
    pose proof (interval_coeffs f (upd degs cur g) a b) as HC. rewrite E1 in HC. destruct HC as (_ & Hsh & _ & HK).
    assert (C1 : startedConverging (coeffChunk cur c) (nadd 0 (nmul s rel)) = false).
    { apply not_true_iff_false. rewrite started_iff, coeffChunk_length, Hsh, nth_map_S by (rewrite upd_length; lia).
      rewrite nth_upd_eq by lia. intros H. specialize (H g ltac:(lia)). rewrite coeffChunk_zero in H.
      - rnum. rewrite Hs1 in H. lra.
      - rewrite Hsh, nth_map_S, nth_upd_eq by (rewrite ?upd_length; lia). lia.
      - rewrite Hsh, map_length, upd_length. lia.
      - intros K HKr _. rewrite Hsh in HKr. rewrite HK by auto.
        rewrite (allOps_ext imat _ _ (fun _ => 0 * 0)) by (try (apply fixDegs_inrange; auto); intros; rewrite HF, Hz by (rewrite <- HF; auto); ring).
        rewrite allOps_scal by (apply fixDegs_inrange; auto). ring. }
    rnum. rewrite C1. cbn [negb]. apply IH; auto; [lia| |].
    - rewrite Hd1, <- HI, upd_length, fixDegs_length. auto.
    - intros g'. rewrite Hd1. rewrite fixDegs_upd by auto. rewrite fixDegs_idem. apply upd_upd.
  Qed.
End Zero.
