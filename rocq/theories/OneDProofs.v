(** * Lemmas about the model of OneDimension.py *)
From Coq Require Import List Arith Bool Reals Lia Lra.
From Coquelicot Require Import Complex.
From Verif Require Import Num OneDSpec OneDModel.
Import ListNotations.
Local Open Scope R_scope.
Local Open Scope C_scope.

(** ** finite sums over C *)

Lemma csum_ext n f g : (forall i, (i < n)%nat -> f i = g i) -> csum n f = csum n g.
Proof. induction n; simpl; intros H; auto. rewrite IHn, H; auto. Qed.
Lemma csum_zero n (f : nat -> C) : (forall i, (i < n)%nat -> f i = 0) -> csum n f = 0.
Proof. induction n; simpl; intros H; auto. rewrite IHn, H; auto. ring. Qed.
Lemma csum_plus n f g : csum n (fun i => f i + g i) = csum n f + csum n g.
Proof. induction n; simpl; [ring|]. rewrite IHn. ring. Qed.
Lemma csum_scal n a f : csum n (fun i => a * f i) = a * csum n f.
Proof. induction n; simpl; [ring|]. rewrite IHn. ring. Qed.
Lemma csum_one n (f : nat -> C) k : (k < n)%nat -> (forall i, (i < n)%nat -> i <> k -> f i = 0) -> csum n f = f k.
Proof.
  induction n; simpl; intros Hk H; [lia|].
  destruct (Nat.eq_dec k n) as [->|Hn].
  - rewrite csum_zero; [ring|]. intros i Hi. apply H; lia.
  - rewrite IHn by (try lia; intros; apply H; lia). rewrite (H n) by lia. ring.
Qed.
Lemma csum_swap n m (f : nat -> nat -> C) : csum n (fun i => csum m (fun j => f i j)) = csum m (fun j => csum n (fun i => f i j)).
Proof.
  induction n; simpl.
  - symmetry. now apply csum_zero.
  - rewrite IHn, csum_plus. reflexivity.
Qed.
Lemma csum_first n f : csum (S n) f = f 0%nat + csum n (fun i => f (S i)).
Proof. induction n; simpl in *; [ring|]. rewrite IHn. ring. Qed.
Lemma csum_rev n f : csum n f = csum n (fun i => f (n - 1 - i)%nat).
Proof.
  induction n; [reflexivity|]. rewrite (csum_first n (fun i => f (S n - 1 - i)%nat)). simpl csum.
  rewrite IHn. replace (S n - 1 - 0)%nat with n by lia. rewrite Cplus_comm. f_equal.
  apply csum_ext. intros i Hi. f_equal. lia.
Qed.

Lemma C1_nz : RtoC 1 <> 0.
Proof. intros H. injection H. lra. Qed.

(** ** conjugates and embeddings *)
Lemma conj_plus a b : Cconj (a + b) = Cconj a + Cconj b.
Proof. unfold Cconj, Cplus; simpl. f_equal. lra. Qed.
Lemma conj_mult a b : Cconj (a * b) = Cconj a * Cconj b.
Proof. unfold Cconj, Cmult; simpl. f_equal; lra. Qed.
Lemma conj_opp a : Cconj (- a) = - Cconj a.
Proof. reflexivity. Qed.
Lemma conj_conj a : Cconj (Cconj a) = a.
Proof. destruct a. unfold Cconj; simpl. now rewrite Ropp_involutive. Qed.
Lemma conj_R x : Cconj (RtoC x) = RtoC x.
Proof. unfold Cconj, RtoC; simpl. now rewrite Ropp_0. Qed.
Lemma conj_0 (a : C) : Cconj a = 0 <-> a = 0.
Proof.
  split; intros H; [|subst; apply conj_R].
  rewrite <- (conj_conj a), H. apply conj_R.
Qed.
Lemma conj_inv (a : C) : a <> 0 -> Cconj (/ a) = / Cconj a.
Proof.
  intros H. assert (Cconj a <> 0) by (intros E; apply H; now apply conj_0).
  replace (/ Cconj a) with (Cconj (a * / a) * / Cconj a).
  - rewrite conj_mult. field. auto.
  - replace (a * / a) with (RtoC 1) by (symmetry; now apply Cinv_r). rewrite conj_R. ring.
Qed.
Lemma conj_div (a b : C) : b <> 0 -> Cconj (a / b) = Cconj a / Cconj b.
Proof. intros H. unfold Cdiv. now rewrite conj_mult, conj_inv. Qed.
Lemma conj_csum n f : Cconj (csum n f) = csum n (fun i => Cconj (f i)).
Proof. induction n; simpl; [apply conj_R|]. now rewrite conj_plus, IHn. Qed.

Lemma RtoC_0_iff x : RtoC x = 0 <-> x = 0%R.
Proof. split; [intros H; now injection H|intros ->; reflexivity]. Qed.
Lemma RtoC_nz x : x <> 0%R -> RtoC x <> RtoC 0.
Proof. intros H E. apply H. now apply RtoC_0_iff. Qed.
Lemma cdiv_some (z w : C) : w <> 0 -> cdiv z w = Some (z / w).
Proof.
  intros H. unfold cdiv. destruct (Req_EM_T (fst w) 0); auto. destruct (Req_EM_T (snd w) 0); auto.
  destruct H. destruct w; simpl in *; subst. reflexivity.
Qed.
Lemma cdiv_none z : cdiv z 0 = None.
Proof. unfold cdiv. simpl. destruct (Req_EM_T 0 0); [auto|lra]. Qed.
Lemma inv_nz (z : C) : z <> 0 -> / z <> 0.
Proof. intros H E. apply C1_nz. rewrite <- (Cinv_l z), E by auto. ring. Qed.
Lemma inv_inv (z : C) : z <> 0 -> / / z = z.
Proof. intros H. assert (/ z <> 0) by (now apply inv_nz). replace (/ / z) with (z * / z * / / z) by (rewrite Cinv_r by auto; ring).
  rewrite <- Cmult_assoc, Cinv_r by auto. ring. Qed.
Lemma cmult_integral (a b : C) : a * b = 0 -> a = 0 \/ b = 0.
Proof.
  intros H. destruct (Ceq_dec a 0) as [|Ha]; auto. right.
  replace b with (/ a * (a * b)) by (field; auto). rewrite H. ring.
Qed.

(** ** eigenvalues *)
Definition cmat := nat -> nat -> C.
Definition app (n : nat) (M : cmat) (v : nat -> C) (i : nat) : C := csum n (fun j => M i j * v j).
Definition coapp (n : nat) (M : cmat) (w : nat -> C) (j : nat) : C := csum n (fun i => w i * M i j).
Definition nonzero (n : nat) (v : nat -> C) := exists i, (i < n)%nat /\ v i <> 0.
Definition rightEigen (n : nat) (M : cmat) (z : C) (v : nat -> C) :=
  nonzero n v /\ forall i, (i < n)%nat -> app n M v i = z * v i.
Definition leftEigen (n : nat) (M : cmat) (z : C) (w : nat -> C) :=
  nonzero n w /\ forall j, (j < n)%nat -> coapp n M w j = z * w j.
Definition ofR (M : nat -> nat -> R) : cmat := fun i j => RtoC (M i j).

Lemma allzero_not_nonzero n (v : nat -> C) : (forall i, (i < n)%nat -> v i = 0) -> ~ nonzero n v.
Proof. intros H [i [Hi Hv]]. now apply Hv, H. Qed.
Lemma csum_app_coapp n M w v : csum n (fun i => w i * app n M v i) = csum n (fun j => coapp n M w j * v j).
Proof.
  unfold app, coapp.
  rewrite (csum_ext n _ (fun i => csum n (fun j => w i * (M i j * v j)))) by (intros; now rewrite csum_scal).
  rewrite csum_swap. apply csum_ext. intros j _.
  rewrite (csum_ext n _ (fun i => v j * (w i * M i j))) by (intros; ring).
  rewrite csum_scal. ring.
Qed.

(** a_0 x^k + a_1 x^(k-1) + ... + a_k, by Horner *)
Fixpoint horner (a : nat -> C) (x : C) (k : nat) : C := match k with O => a 0%nat | S k' => horner a x k' * x + a k end.
Lemma horner_sum a x n : horner a x n = csum (S n) (fun d => cpow x d * a (n - d)%nat).
Proof.
  assert (HH : forall k, (k <= n)%nat -> horner a x n = cpow x (n - k) * horner a x k + csum (n - k) (fun d => cpow x d * a (n - d)%nat)).
  { intros k Hk. remember (n - k)%nat as d eqn:Ed. revert k Hk Ed.
    induction d; intros k Hk Ed; [replace k with n by lia; simpl; ring|].
    rewrite (IHd (S k)) by lia. simpl csum. simpl horner. replace (n - d)%nat with (S k) by lia. simpl cpow. ring. }
  rewrite (HH 0%nat) by lia. rewrite Nat.sub_0_r. simpl. rewrite Nat.sub_diag. ring.
Qed.

(** ** the Frobenius matrix: ones above the diagonal and a first column *)
Section Frobenius.
  Variable n : nat.
  Hypothesis Hn : (1 <= n)%nat.
  Variable a : nat -> C.
  Hypothesis Ha0 : a 0%nat <> 0.
  Variable M : cmat.
  Hypothesis HM : forall i j, (i < n)%nat -> (j < n)%nat ->
    M i j = (if Nat.eqb j (i + 1) then 1 else 0) - (if Nat.eqb j 0 then a (i + 1)%nat / a 0%nat else 0).

  Lemma frob_app v i : (i < n)%nat ->
    app n M v i = (if Nat.ltb (i + 1) n then v (i + 1)%nat else 0) - a (i + 1)%nat / a 0%nat * v 0%nat.
  Proof.
    intros Hi. unfold app.
    rewrite (csum_ext n _ (fun j => (if Nat.eqb j (i + 1) then v j else 0) + (if Nat.eqb j 0 then - (a (i + 1)%nat / a 0%nat) * v j else 0))).
    2:{ intros j Hj. rewrite HM by auto. destruct (Nat.eqb j (i + 1)), (Nat.eqb j 0); ring. }
    rewrite csum_plus. rewrite (csum_one n (fun j => if Nat.eqb j 0 then _ else _) 0) by (try lia; intros j _ Hj; apply Nat.eqb_neq in Hj; now rewrite Hj).
    rewrite Nat.eqb_refl. destruct (Nat.ltb_spec (i + 1) n).
    - rewrite (csum_one n _ (i + 1)) by (try lia; intros j _ Hj; apply Nat.eqb_neq in Hj; now rewrite Hj).
      rewrite Nat.eqb_refl. ring.
    - rewrite csum_zero. ring. intros j Hj. destruct (Nat.eqb_spec j (i + 1)); [lia|auto].
  Qed.
  Lemma frob_right x v : rightEigen n M x v -> v 0%nat <> 0 /\ horner a x n = 0.
  Proof.
    intros [Hnz He].
    assert (Hk : forall k, (k < n)%nat -> a 0%nat * v k = horner a x k * v 0%nat).
    { induction k; intros Hk; [reflexivity|].
      specialize (He k ltac:(lia)). rewrite frob_app in He by lia.
      replace (k + 1)%nat with (S k) in He by lia. destruct (Nat.ltb_spec (S k) n); [|lia].
      simpl. replace ((horner a x k * x + a (S k)) * v 0%nat) with (x * (horner a x k * v 0%nat) + a (S k) * v 0%nat) by ring.
      rewrite <- IHk by lia.
      replace (v (S k)) with ((v (S k) - a (S k) / a 0%nat * v 0%nat) + a (S k) / a 0%nat * v 0%nat) by ring.
      rewrite He. field. auto. }
    assert (Hv0 : v 0%nat <> 0).
    { intros E. destruct Hnz as [i [Hi Hv]]. apply Hv. specialize (Hk i Hi). rewrite E, Cmult_0_r in Hk.
      apply cmult_integral in Hk. tauto. }
    split; auto.
    specialize (He (n - 1)%nat ltac:(lia)). rewrite frob_app in He by lia.
    replace (n - 1 + 1)%nat with n in He by lia. rewrite Nat.ltb_irrefl in He.
    destruct n as [|m]; [lia|]. replace (S m - 1)%nat with m in He by lia.
    specialize (Hk m ltac:(lia)). simpl.
    assert (E : (horner a x m * x + a (S m)) * v 0%nat = 0).
    { replace ((horner a x m * x + a (S m)) * v 0%nat) with (x * (horner a x m * v 0%nat) + a (S m) * v 0%nat) by ring.
      rewrite <- Hk. replace (x * (a 0%nat * v m)) with (a 0%nat * (x * v m)) by ring. rewrite <- He. field. auto. }
    apply cmult_integral in E. tauto.
  Qed.
  Lemma frob_exists x : horner a x n = 0 -> exists v, rightEigen n M x v.
  Proof.
    intros H. exists (fun k => horner a x k / a 0%nat). split.
    - exists 0%nat. split; [lia|]. simpl. intros E. apply C1_nz. rewrite <- E. field. auto.
    - intros i Hi. rewrite frob_app by auto. simpl horner at 2. destruct (Nat.ltb_spec (i + 1) n).
      + replace (i + 1)%nat with (S i) by lia. simpl. field. auto.
      + replace (i + 1)%nat with n by lia. destruct n as [|m]; [lia|]. assert (i = m) by lia. subst i. simpl in H.
        replace (a (S m)) with ((horner a x m * x + a (S m)) - horner a x m * x) by ring. rewrite H. field. auto.
  Qed.
  Lemma frob_coapp w j : (j + 1 < n)%nat -> coapp n M w (j + 1) = w j.
  Proof.
    intros Hj. unfold coapp. rewrite (csum_one n _ j).
    - rewrite HM by lia. rewrite Nat.eqb_refl. destruct (Nat.eqb_spec (j + 1) 0); [lia|]. ring.
    - lia.
    - intros i Hi Hij. rewrite HM by lia. destruct (Nat.eqb_spec (j + 1) (i + 1)); [lia|].
      destruct (Nat.eqb_spec (j + 1) 0); [lia|]. ring.
  Qed.
  (** a left eigenvector is a geometric progression, read from the last entry *)
  Lemma frob_left x w : leftEigen n M x w ->
    w (n - 1)%nat <> 0 /\ (forall j, (j + 1 < n)%nat -> w j = x * w (j + 1)%nat).
  Proof.
    intros [Hnz He].
    assert (Hs : forall j, (j + 1 < n)%nat -> w j = x * w (j + 1)%nat).
    { intros j Hj. rewrite <- He by lia. now rewrite frob_coapp. }
    split; auto. intros E. revert Hnz. apply allzero_not_nonzero.
    assert (forall d, (d < n)%nat -> w (n - 1 - d)%nat = 0).
    { induction d; intros Hd; [now rewrite Nat.sub_0_r|].
      rewrite Hs by lia. replace (n - 1 - S d + 1)%nat with (n - 1 - d)%nat by lia. rewrite IHd by lia. ring. }
    intros i Hi. replace i with (n - 1 - (n - 1 - i))%nat by lia. apply H. lia.
  Qed.
  (** ... whose first column gives the polynomial *)
  Lemma frob_left_zero x w : leftEigen n M x w -> horner a x n = 0.
  Proof.
    intros H. destruct (frob_left x w H) as [Hw Hs]. destruct H as [_ He].
    specialize (He 0%nat ltac:(lia)).
    unfold coapp in He.
    assert (Hd : forall d, (d < n)%nat -> w (n - 1 - d)%nat = cpow x d * w (n - 1)%nat) .
    { induction d; intros Hd; [simpl; rewrite Nat.sub_0_r; ring|].
      rewrite Hs by lia. replace (n - 1 - S d + 1)%nat with (n - 1 - d)%nat by lia. rewrite IHd by lia. simpl. ring. }
    rewrite csum_rev in He.
    rewrite (csum_ext n _ (fun d => - (w (n - 1)%nat / a 0%nat) * (cpow x d * a (n - d)%nat))) in He.
    2:{ intros d Hd'. rewrite Hd by lia. rewrite HM by lia. rewrite Nat.eqb_refl.
        destruct (Nat.eqb_spec 0 (n - 1 - d + 1)); [lia|]. replace (n - 1 - d + 1)%nat with (n - d)%nat by lia.
        field. auto. }
    rewrite csum_scal in He.
    rewrite horner_sum.
    simpl csum. rewrite Nat.sub_diag.
    assert (E : csum n (fun d => cpow x d * a (n - d)%nat) = - (cpow x n * a 0%nat)).
    { assert (w0 : w 0%nat = cpow x (n - 1) * w (n - 1)%nat) by (rewrite <- Hd by lia; f_equal; lia).
      rewrite w0 in He.
      replace (csum n (fun d => cpow x d * a (n - d)%nat)) with
        (- (a 0%nat / w (n - 1)%nat) * (- (w (n - 1)%nat / a 0%nat) * csum n (fun d => cpow x d * a (n - d)%nat))) by (field; auto).
      rewrite He. assert (Hp : cpow x n = x * cpow x (n - 1)) by (replace n with (S (n - 1)) at 1 by lia; reflexivity).
      rewrite Hp. field. auto. }
    rewrite E. ring.
  Qed.
End Frobenius.

(** ** slices of the flat matrix *)
Lemma inSlice_true start stop step k : (0 < step)%nat ->
  inSlice start stop step k = true <-> (k < stop)%nat /\ exists m, k = (start + m * step)%nat.
Proof.
  intros Hs. unfold inSlice. rewrite !andb_true_iff, Nat.leb_le, Nat.ltb_lt, Nat.eqb_eq. split.
  - intros [[H1 H2] H3]. split; auto. apply Nat.mod_divides in H3; [|lia]. destruct H3 as [m Hm]. exists m. lia.
  - intros [H [m ->]]. repeat split; try lia. replace (start + m * step - start)%nat with (m * step)%nat by lia.
    apply Nat.mod_mul. lia.
Qed.
Lemma flat_unique n i j p q : (j < n)%nat -> (q < n)%nat -> (i * n + j = p * n + q)%nat -> i = p /\ j = q.
Proof. intros Hj Hq H. assert (i = p) by nia. subst. lia. Qed.
Lemma slice_sub n i j : (i < n)%nat -> (j < n)%nat -> inSlice n (n * n) (n + 1) (i * n + j) = Nat.eqb i (j + 1).
Proof.
  intros Hi Hj. apply eq_true_iff_eq. rewrite inSlice_true, Nat.eqb_eq by lia. split.
  - intros [H [m Hm]]. assert (m + 1 < n)%nat by nia.
    destruct (flat_unique n i j (m + 1) m); try nia; lia.
  - intros ->. split; [nia|]. exists j. nia.
Qed.
Lemma slice_super n i j : (i < n)%nat -> (j < n)%nat -> inSlice 1 (n * n) (n + 1) (i * n + j) = Nat.eqb j (i + 1).
Proof.
  intros Hi Hj. apply eq_true_iff_eq. rewrite inSlice_true, Nat.eqb_eq by lia. split.
  - intros [H [m Hm]]. assert (m + 1 < n)%nat by nia.
    destruct (flat_unique n i j m (m + 1)); try nia; lia.
  - intros ->. split; [nia|]. exists i. nia.
Qed.
Lemma slice_sub1 n i j : (i < n)%nat -> (j < n)%nat ->
  inSlice (2 * n + 1) (n * n) (n + 1) (i * n + j) = Nat.eqb i (j + 1) && Nat.leb 1 j.
Proof.
  intros Hi Hj. apply eq_true_iff_eq. rewrite inSlice_true, andb_true_iff, Nat.eqb_eq, Nat.leb_le by lia. split.
  - intros [H [m Hm]]. assert (m + 2 < n)%nat by nia.
    destruct (flat_unique n i j (m + 2) (m + 1)); try nia; lia.
  - intros [-> H]. split; [nia|]. exists (j - 1)%nat. nia.
Qed.
Lemma slice_diag n col i j : (0 < n)%nat -> (i < n)%nat -> (j < n)%nat -> (col < n)%nat ->
  inSlice col ((n - col) * n) (n + 1) (i * n + j) = Nat.eqb j (i + col).
Proof.
  intros Hn Hi Hj Hc. apply eq_true_iff_eq. rewrite inSlice_true, Nat.eqb_eq by lia. split.
  - intros [H [m Hm]]. assert (m + col < n)%nat by nia.
    destruct (flat_unique n i j m (m + col)); try nia; lia.
  - intros ->. split; [nia|]. exists i. nia.
Qed.

(** ** power basis *)
Lemma companion_entry (coeff : list R) n i j : length coeff = S n -> (i < n)%nat -> (j < n)%nat ->
  companion coeff i j = ((if Nat.eqb j (i + 1) then 1 else 0) - (if Nat.eqb j 0 then nth (n - (i + 1)) coeff 0 / nth n coeff 0 else 0))%R.
Proof.
  intros Hl Hi Hj. unfold companion. rewrite Hl. replace (S n - 1)%nat with n by lia.
  rewrite slice_sub by lia.
  replace (Nat.eqb (n - 1 - i) (n - 1 - j + 1)) with (Nat.eqb j (i + 1))
    by (destruct (Nat.eqb_spec j (i + 1)), (Nat.eqb_spec (n - 1 - i) (n - 1 - j + 1)); auto; lia).
  replace (Nat.eqb (n - 1 - j) (n - 1)) with (Nat.eqb j 0)
    by (destruct (Nat.eqb_spec j 0), (Nat.eqb_spec (n - 1 - j) (n - 1)); auto; lia).
  replace (n - (i + 1))%nat with (n - 1 - i)%nat by lia.
  destruct (Nat.eqb j 0), (Nat.eqb j (i + 1)); rnum; simpl; try lra.
Qed.
Lemma divCompanion_entry (coeff : list R) n i j : length coeff = S n -> (i < n)%nat -> (j < n)%nat ->
  divCompanion coeff i j = ((if Nat.eqb j (i + 1) then 1 else 0) - (if Nat.eqb j 0 then nth (i + 1) coeff 0 / nth 0 coeff 0 else 0))%R.
Proof.
  intros Hl Hi Hj. unfold divCompanion. rewrite Hl. replace (S n - 1)%nat with n by lia.
  rewrite slice_super by lia.
  destruct (Nat.eqb j 0), (Nat.eqb j (i + 1)); rnum; simpl; try lra.
Qed.
Lemma eigenpair_right n M z v : eigenpair n M z v <-> rightEigen n (ofR M) z v.
Proof. reflexivity. Qed.
Lemma leftpair_left n M z v : leftpair n M z v -> leftEigen n (ofR M) z (fun i => Cconj (v i)).
Proof.
  intros [[i [Hi Hv]] H]. split; [|exact H]. exists i. split; auto. intros E. apply Hv. now apply conj_0.
Qed.
Lemma C_if (b : bool) (x y : R) : RtoC (if b then x else y) = if b then RtoC x else RtoC y.
Proof. now destruct b. Qed.
Definition highFirst (coeff : list R) (k : nat) : C := RtoC (nth (length coeff - 1 - k) coeff 0%R).
Definition lowFirst (coeff : list R) (k : nat) : C := RtoC (nth k coeff 0%R).
Lemma companion_frob (coeff : list R) n : length coeff = S n -> nth n coeff 0%R <> 0%R ->
  forall i j, (i < n)%nat -> (j < n)%nat ->
  ofR (companion coeff) i j = (if Nat.eqb j (i + 1) then 1 else 0) - (if Nat.eqb j 0 then highFirst coeff (i + 1) / highFirst coeff 0 else 0).
Proof.
  intros Hl Hc i j Hi Hj. unfold ofR. rewrite (companion_entry coeff n) by auto. rewrite RtoC_minus, !C_if, RtoC_div by auto.
  unfold highFirst. rewrite Hl. replace (S n - 1 - 0)%nat with n by lia. now replace (S n - 1 - (i + 1))%nat with (n - (i + 1))%nat by lia.
Qed.
Lemma divCompanion_frob (coeff : list R) n : length coeff = S n -> nth 0 coeff 0%R <> 0%R ->
  forall i j, (i < n)%nat -> (j < n)%nat ->
  ofR (divCompanion coeff) i j = (if Nat.eqb j (i + 1) then 1 else 0) - (if Nat.eqb j 0 then lowFirst coeff (i + 1) / lowFirst coeff 0 else 0).
Proof.
  intros Hl Hc i j Hi Hj. unfold ofR. rewrite (divCompanion_entry coeff n) by auto. now rewrite RtoC_minus, !C_if, RtoC_div by auto.
Qed.
Lemma horner_high coeff n x : length coeff = S n -> horner (highFirst coeff) x n = powerValue coeff x.
Proof.
  intros Hl. rewrite horner_sum. unfold powerValue. rewrite Hl. apply csum_ext. intros d Hd.
  unfold highFirst. rewrite Hl. replace (S n - 1 - (n - d))%nat with d by lia. ring.
Qed.
Lemma cpow_nz x k : x <> RtoC 0 -> cpow x k <> 0.
Proof. intros H. induction k; simpl; [apply C1_nz|]. now apply Cmult_neq_0. Qed.
Lemma cpow_inv x k : x <> RtoC 0 -> cpow (/ x) k = / cpow x k.
Proof.
  intros H. induction k; simpl.
  - field. apply C1_nz.
  - rewrite IHk. field. split; auto. now apply cpow_nz.
Qed.
Lemma cpow_split x j k : cpow x (j + k) = cpow x j * cpow x k.
Proof. induction j; simpl; [ring|]. rewrite IHj. ring. Qed.
Lemma horner_low coeff n x : length coeff = S n -> x <> RtoC 0 -> horner (lowFirst coeff) x n = cpow x n * powerValue coeff (/ x).
Proof.
  intros Hl Hx. rewrite horner_sum, csum_rev. unfold powerValue. rewrite Hl, <- csum_scal. apply csum_ext. intros d Hd.
  unfold lowFirst. replace (S n - 1 - d)%nat with (n - d)%nat by lia. replace (n - (n - d))%nat with d by lia.
  replace (cpow x n) with (cpow x (n - d + d)) by (f_equal; lia). rewrite cpow_split, cpow_inv by auto. field. now apply cpow_nz.
Qed.
Lemma horner_low_0 coeff n : length coeff = S n -> horner (lowFirst coeff) 0 n = RtoC (nth n coeff 0%R).
Proof. intros _. destruct n; simpl; [reflexivity|]. unfold lowFirst. ring. Qed.

Section Power.
  Variable coeff : list R.
  Variable n : nat.
  Hypothesis Hl : length coeff = S n.
  Hypothesis Hn : (1 <= n)%nat.
  Hypothesis Hlast : nth n coeff 0%R <> 0%R.

  Lemma high_nz : highFirst coeff 0 <> 0.
  Proof. unfold highFirst. rewrite Hl. replace (S n - 1 - 0)%nat with n by lia. intros E. apply Hlast. now apply RtoC_0_iff. Qed.
  Lemma comp_right z : (exists v, eigenpair n (companion coeff) z v) <-> powerValue coeff z = 0.
  Proof.
    rewrite <- (horner_high coeff n z Hl). split.
    - intros [v Hv]. eapply (frob_right n Hn (highFirst coeff) high_nz _ (companion_frob coeff n Hl Hlast)). exact Hv.
    - intros H. apply (frob_exists n Hn (highFirst coeff) high_nz _ (companion_frob coeff n Hl Hlast)). exact H.
  Qed.
  Lemma comp_left z v : leftpair n (companion coeff) z v -> (2 <= n)%nat ->
    option_map Cconj (cdiv (v (n - 2)%nat) (v (n - 1)%nat)) = Some z /\ powerValue coeff z = 0.
  Proof.
    intros H H2. apply leftpair_left in H. split.
    - destruct (frob_left n Hn (highFirst coeff) _ (companion_frob coeff n Hl Hlast) _ _ H) as [Hw Hs].
      assert (Hv : v (n - 1)%nat <> 0) by (intros E; apply Hw; now apply conj_0).
      rewrite cdiv_some by auto. simpl. f_equal. rewrite conj_div by auto.
      specialize (Hs (n - 2)%nat ltac:(lia)). replace (n - 2 + 1)%nat with (n - 1)%nat in Hs by lia.
      rewrite Hs. field. auto.
    - rewrite <- (horner_high coeff n z Hl).
      apply (frob_left_zero n Hn (highFirst coeff) high_nz _ (companion_frob coeff n Hl Hlast) _ _ H).
  Qed.

  Hypothesis Hfirst : nth 0 coeff 0%R <> 0%R.
  Lemma low_nz : lowFirst coeff 0 <> 0.
  Proof. intros E. apply Hfirst. now apply RtoC_0_iff. Qed.
  Lemma low_zero z : horner (lowFirst coeff) z n = 0 <-> z <> 0 /\ powerValue coeff (/ z) = 0.
  Proof.
    destruct (Ceq_dec z 0) as [->|Hz].
    - rewrite (horner_low_0 coeff n Hl). split; [intros E|tauto]. apply RtoC_0_iff in E. tauto.
    - rewrite horner_low by auto. split.
      + intros E. apply cmult_integral in E. destruct E as [E|E]; auto. destruct (cpow_nz z n Hz E).
      + intros [_ ->]. ring.
  Qed.
  Lemma divcomp_right z : (exists v, eigenpair n (divCompanion coeff) z v) <-> z <> 0 /\ powerValue coeff (/ z) = 0.
  Proof.
    rewrite <- low_zero. split.
    - intros [v Hv]. eapply (frob_right n Hn (lowFirst coeff) low_nz _ (divCompanion_frob coeff n Hl Hfirst)). exact Hv.
    - intros H. apply (frob_exists n Hn (lowFirst coeff) low_nz _ (divCompanion_frob coeff n Hl Hfirst)). exact H.
  Qed.
  Lemma divcomp_left z v : leftpair n (divCompanion coeff) z v -> (2 <= n)%nat ->
    option_map Cconj (cdiv (v 1%nat) (v 0%nat)) = Some (/ z) /\ z <> 0 /\ powerValue coeff (/ z) = 0.
  Proof.
    intros H H2. apply leftpair_left in H.
    pose proof (frob_left_zero n Hn (lowFirst coeff) low_nz _ (divCompanion_frob coeff n Hl Hfirst) _ _ H) as H0.
    apply low_zero in H0. split; [|exact H0]. destruct H0 as [Hz _].
    destruct (frob_left n Hn (lowFirst coeff) _ (divCompanion_frob coeff n Hl Hfirst) _ _ H) as [Hw Hs].
    assert (Hk : forall d, (d < n)%nat -> Cconj (v (n - 1 - d)%nat) <> 0).
    { induction d; intros Hd; [now rewrite Nat.sub_0_r|]. rewrite Hs by lia.
      replace (n - 1 - S d + 1)%nat with (n - 1 - d)%nat by lia. apply Cmult_neq_0; auto. apply IHd. lia. }
    specialize (Hk (n - 1)%nat ltac:(lia)) as H00. rewrite Nat.sub_diag in H00.
    specialize (Hk (n - 2)%nat ltac:(lia)) as H01. replace (n - 1 - (n - 2))%nat with 1%nat in H01 by lia.
    assert (Hv : v 0%nat <> 0) by (intros E; apply H00; now apply conj_0).
    rewrite cdiv_some by auto. simpl. f_equal. rewrite conj_div by auto.
    specialize (Hs 0%nat ltac:(lia)). simpl in Hs. rewrite Hs. field. auto.
  Qed.
End Power.

(** ** multPower and divPower *)
Definition exactly (l : list (option C)) (P : C -> Prop) : Prop := forall o, In o l <-> exists z, o = Some z /\ P z.
Lemma linear_zero c0 c1 z : c1 <> 0%R -> (powerValue [c0; c1] z = 0 <-> z = RtoC (- c0) / RtoC c1).
Proof.
  intros H. assert (RtoC c1 <> 0) by (now apply RtoC_nz).
  unfold powerValue. simpl. split.
  - intros E. replace z with ((0 + c0 * 1 + c1 * (z * 1) - c0) / c1) by (field; auto). rewrite E. rewrite RtoC_opp. field. auto.
  - intros ->. rewrite RtoC_opp. field. auto.
Qed.
Lemma linear_exactly c0 c1 : c1 <> 0%R ->
  exactly [cdiv (RtoC (- c0)) (RtoC c1)] (fun z => powerValue [c0; c1] z = 0).
Proof.
  intros H o. rewrite cdiv_some by (now apply RtoC_nz). split.
  - intros [<-|[]]. eexists. split; eauto. now apply linear_zero.
  - intros [z [-> Hz]]. left. f_equal. symmetry. now apply linear_zero.
Qed.
Lemma const_nonzero c z : c <> 0%R -> powerValue [c] z <> 0.
Proof. intros H E. apply H, RtoC_0_iff. rewrite <- E. unfold powerValue. simpl. ring. Qed.

Lemma nth_last (coeff : list R) n : length coeff = S n -> nth n coeff 0%R = last coeff 0%R.
Proof.
  revert n. induction coeff as [|c cs IH]; intros n Hl; [discriminate|]. simpl in Hl. injection Hl as <-.
  destruct cs as [|c' cs]; [reflexivity|]. exact (IH (length cs) eq_refl).
Qed.
Lemma divided_ok p z : p <> 0%R -> divided p z = z.
Proof. intros H. unfold divided. destruct (Req_EM_T p 0); tauto. Qed.
Lemma exactly_map_some l (P : C -> Prop) : (forall z, In z l <-> P z) -> exactly (map Some l) P.
Proof.
  intros H o. rewrite in_map_iff. split.
  - intros [z [<- Hz]]. exists z. split; auto. now apply H.
  - intros [z [-> Hz]]. exists z. split; auto. now apply H.
Qed.
Lemma exactly_ext l (P Q : C -> Prop) : (forall z, P z <-> Q z) -> exactly l P -> exactly l Q.
Proof. intros H HP o. rewrite (HP o). split; intros [z [E Hz]]; exists z; split; auto; now apply H. Qed.

Lemma multPower_exact eigvals eigLeft coeff u :
  last coeff 0%R <> 0%R ->
  (forall n M, spectrum n M (eigvals n M)) -> (forall n M, leftSpectrum n M (eigLeft n M)) ->
  exists l, multPower eigvals eigLeft Floats coeff u = Zeros l /\ exactly l (fun z => powerValue coeff z = 0).
Proof.
  intros Hlast He Hv. destruct coeff as [|c0 [|c1 [|c2 cs]]].
  - simpl in Hlast. lra.
  - exists []. split; [reflexivity|]. intros o. split; [intros []|]. intros [z [_ Hz]]. destruct (const_nonzero c0 z Hlast Hz).
  - eexists. split; [reflexivity|]. now apply linear_exactly.
  - cbn [multPower inFloats]. set (coeff := c0 :: c1 :: c2 :: cs) in *.
    assert (Hl : length coeff = S (length coeff - 1)) by (simpl; lia).
    assert (Hn : (2 <= length coeff - 1)%nat) by (simpl; lia).
    set (n := (length coeff - 1)%nat) in *.
    assert (Hc : nth n coeff 0%R <> 0%R) by (now rewrite (nth_last coeff n Hl)).
    rewrite divided_ok by auto. specialize (He n (companion coeff)). specialize (Hv n (companion coeff)).
    destruct u; eexists; (split; [reflexivity|]).
    + apply exactly_map_some. intros z. rewrite (He z). apply comp_right; auto. lia.
    + destruct Hv as [H1 H2]. intros o. rewrite in_map_iff. split.
      * intros [[z v] [<- Hin]]. cbn [snd]. apply H1 in Hin. destruct (comp_left coeff n Hl ltac:(lia) Hc z v Hin Hn) as [-> Hz]. eauto.
      * intros [z [-> Hz]]. apply comp_right with (n := n) in Hz; auto; [|lia].
        destruct (H2 z Hz) as [v Hin]. exists (z, v). split; auto. cbn [snd]. now apply (comp_left coeff n Hl ltac:(lia) Hc z v (H1 _ _ Hin) Hn).
Qed.

Lemma divPower_exact eigvals eigLeft coeff u :
  last coeff 0%R <> 0%R -> nth 0 coeff 0%R <> 0%R ->
  (forall n M, spectrum n M (eigvals n M)) -> (forall n M, leftSpectrum n M (eigLeft n M)) ->
  exists l, divPower eigvals eigLeft Floats coeff u = Zeros l /\ exactly l (fun z => powerValue coeff z = 0).
Proof.
  intros Hlast Hfirst He Hv. destruct coeff as [|c0 [|c1 [|c2 cs]]].
  - simpl in Hlast. lra.
  - exists []. split; [reflexivity|]. intros o. split; [intros []|]. intros [z [_ Hz]]. destruct (const_nonzero c0 z Hlast Hz).
  - eexists. split; [reflexivity|]. now apply linear_exactly.
  - cbn [divPower inFloats]. set (coeff := c0 :: c1 :: c2 :: cs) in *.
    assert (Hl : length coeff = S (length coeff - 1)) by (simpl; lia).
    assert (Hn : (2 <= length coeff - 1)%nat) by (simpl; lia).
    set (n := (length coeff - 1)%nat) in *.
    assert (Hc : nth n coeff 0%R <> 0%R) by (now rewrite (nth_last coeff n Hl)).
    rewrite divided_ok by auto. specialize (He n (divCompanion coeff)). specialize (Hv n (divCompanion coeff)).
    assert (H0 : forall z, powerValue coeff z = 0 -> z <> 0).
    { intros z Hz ->. apply Hfirst, RtoC_0_iff. rewrite <- Hz. unfold powerValue.
      rewrite Hl. rewrite csum_first, csum_zero; [simpl; ring|]. intros i _. simpl. ring. }
    assert (Hright : forall z, powerValue coeff z = 0 -> exists v, eigenpair n (divCompanion coeff) (/ z) v).
    { intros z Hz. assert (z <> 0) by auto. apply (divcomp_right coeff n Hl ltac:(lia) Hc Hfirst). split.
      - now apply inv_nz.
      - now rewrite inv_inv. }
    destruct u; eexists; (split; [reflexivity|]); intros o; rewrite in_map_iff; split.
    + intros [z [<- Hz]]. apply He in Hz. apply (divcomp_right coeff n Hl ltac:(lia) Hc Hfirst) in Hz.
      destruct Hz as [Hz Hp]. rewrite cdiv_some by auto. eexists. split; [reflexivity|].
      unfold Cdiv. now rewrite Cmult_1_l.
    + intros [z [-> Hz]]. exists (/ z). assert (z <> 0) by auto. split.
      * rewrite cdiv_some by (now apply inv_nz). unfold Cdiv. rewrite inv_inv by auto. f_equal. ring.
      * apply He. auto.
    + intros [[z v] [<- Hin]]. cbn [snd]. apply Hv in Hin.
      destruct (divcomp_left coeff n Hl ltac:(lia) Hc Hfirst z v Hin Hn) as [-> [_ Hz]]. eauto.
    + intros [z [-> Hz]]. destruct Hv as [H1 H2]. destruct (H2 _ (Hright z Hz)) as [v Hin]. exists (/ z, v). split; auto. cbn [snd].
      destruct (divcomp_left coeff n Hl ltac:(lia) Hc Hfirst _ v (H1 _ _ Hin) Hn) as [-> _]. now rewrite inv_inv by auto.
Qed.
