(** * Complex vectors and the Householder reflector *)
From Coq Require Import List Arith Bool Reals Lia Lra.
From Coquelicot Require Import Complex.
From Coq Require Import List.
From Verif Require Import Num RSum OneDSpec OneDModel OneDProofs CondModel.
Import ListNotations.
Local Open Scope R_scope.
Local Open Scope C_scope.

(** y^H x *)
Definition inner (n : nat) (y x : cvec) : C := csum n (fun i => Cconj (y i) * x i).
Definition mv (n : nat) (M : cmat) (x : cvec) : cvec := fun i => csum n (fun j => M i j * x j).
Definition adj (M : cmat) : cmat := fun i j => Cconj (M j i).
Definition delta (i j : nat) : C := if Nat.eqb i j then 1 else 0.
(** M N = I on indices below n *)
Definition inverse (n : nat) (M N : cmat) : Prop := forall i j, (i < n)%nat -> (j < n)%nat -> csum n (fun k => M i k * N k j) = delta i j.

Lemma two_C : RtoC 2 = 1 + 1.
Proof. rewrite <- RtoC_plus. f_equal; lra. Qed.
Lemma conj_minus a b : Cconj (a - b) = Cconj a - Cconj b.
Proof. unfold Cconj, Cminus, Cplus, Copp; simpl. f_equal; lra. Qed.
Lemma csum_delta n i (f : nat -> C) : (i < n)%nat -> csum n (fun j => delta i j * f j) = f i.
Proof.
  intros H. rewrite (csum_one n _ i H); [unfold delta; rewrite Nat.eqb_refl; ring|]. intros j _ N. unfold delta. destruct (Nat.eqb_spec i j); [congruence|ring].
Qed.
Lemma csum_scal_r n a f : csum n (fun i => f i * a) = csum n f * a.
Proof. rewrite (csum_ext n _ (fun i => a * f i)) by (intros; ring). rewrite csum_scal. ring. Qed.
Lemma csum_minus n f g : csum n (fun i => f i - g i) = csum n f - csum n g.
Proof. induction n; simpl; [ring|]. rewrite IHn. ring. Qed.
Lemma inner_ext n y y' x x' : (forall i, (i < n)%nat -> y i = y' i) -> (forall i, (i < n)%nat -> x i = x' i) -> inner n y x = inner n y' x'.
Proof. intros H H'. apply csum_ext. intros i Hi. rewrite H, H'; auto. Qed.
Lemma conj_sq z : Cconj z * z = RtoC (Cmod z * Cmod z).
Proof.
  destruct z as [a b]. unfold Cconj, Cmult, RtoC, Cmod. simpl fst. simpl snd. rewrite sqrt_sqrt; [|pose proof (pow2_ge_0 a); pose proof (pow2_ge_0 b); lra]. f_equal; ring.
Qed.
Lemma inner_self n x : inner n x x = RtoC (cnorm n x * cnorm n x).
Proof.
  unfold cnorm. rewrite sqrt_sqrt by (apply sumn_nonneg; intros; apply Rle_0_sqr). unfold inner. induction n; simpl; [reflexivity|]. rewrite IHn, conj_sq, <- RtoC_plus. reflexivity.
Qed.
Lemma cnorm_pos n x : (0 <= cnorm n x)%R.
Proof. apply sqrt_pos. Qed.
Lemma cnorm_ext n x y : (forall i, (i < n)%nat -> x i = y i) -> cnorm n x = cnorm n y.
Proof. intros H. unfold cnorm. f_equal. apply sumn_ext. intros i Hi. rewrite H; auto. Qed.
Lemma cnorm_0 n x : cnorm n x = 0 <-> forall i, (i < n)%nat -> x i = 0.
Proof.
  unfold cnorm. split.
  - intros H i Hi. apply sqrt_eq_0 in H; [|apply sumn_nonneg; intros; apply Rle_0_sqr]. apply Cmod_eq_0. destruct (Req_dec (Cmod (x i)) 0) as [|N]; auto. exfalso.
    assert (P : (0 < Cmod (x i) * Cmod (x i))%R) by (pose proof (Rsqr_pos_lt _ N); auto).
    assert (G : forall m, (i < m)%nat -> (Cmod (x i) * Cmod (x i) <= sumn m (fun k => Cmod (x k) * Cmod (x k)))%R).
    { induction m; intros Hm; [lia|]. cbn [sumn]. destruct (Nat.eq_dec i m) as [->|Nm]; [|specialize (IHm ltac:(lia)); pose proof (Rle_0_sqr (Cmod (x m))); unfold Rsqr in *; lra].
      assert (0 <= sumn m (fun k => Cmod (x k) * Cmod (x k)))%R by (apply sumn_nonneg; intros; apply Rle_0_sqr). lra. }
    specialize (G n Hi). lra.
  - intros H. rewrite (sumn_zero n); [apply sqrt_0|]. intros i Hi. rewrite H by auto. rewrite Cmod_0. ring.
Qed.
Lemma cnorm_eq n m x y : inner n x x = inner m y y -> cnorm n x = cnorm m y.
Proof.
  rewrite !inner_self. intros H. apply RtoC_inj in H. apply Rsqr_inj; auto using cnorm_pos.
Qed.
(** (M x)^H y = x^H (M^H y) *)
Lemma inner_adj n M x y : inner n (mv n M x) y = inner n x (mv n (adj M) y).
Proof.
  unfold inner, mv, adj. rewrite (csum_ext n _ (fun i => csum n (fun j => Cconj (x j) * (Cconj (M i j) * y i)))).
  - rewrite csum_swap. apply csum_ext. intros j Hj. rewrite <- csum_scal. reflexivity.
  - intros i Hi. rewrite conj_csum, <- csum_scal_r. apply csum_ext. intros j Hj. rewrite conj_mult. ring.
Qed.
Lemma mv_mv n M N x i : mv n M (mv n N x) i = csum n (fun j => csum n (fun k => M i k * N k j) * x j).
Proof.
  unfold mv. rewrite (csum_ext n _ (fun k => csum n (fun j => M i k * N k j * x j))).
  - rewrite csum_swap. apply csum_ext. intros j Hj. rewrite <- csum_scal_r. reflexivity.
  - intros k Hk. rewrite <- csum_scal. apply csum_ext. intros; ring.
Qed.
Lemma mv_inverse n M N x i : inverse n M N -> (i < n)%nat -> mv n M (mv n N x) i = x i.
Proof. intros H Hi. rewrite mv_mv. rewrite (csum_ext n _ (fun j => delta i j * x j)) by (intros j Hj; rewrite H; auto). apply csum_delta. auto. Qed.
Lemma adj_adj M i j : adj (adj M) i j = M i j.
Proof. unfold adj. apply conj_conj. Qed.
Lemma inner_unitary n M x y : inverse n (adj M) M -> inner n (mv n M x) (mv n M y) = inner n x y.
Proof. intros H. rewrite inner_adj. apply inner_ext; auto. intros i Hi. apply mv_inverse; auto. Qed.
Lemma norm_unitary n M x : inverse n (adj M) M -> cnorm n (mv n M x) = cnorm n x.
Proof. intros H. apply cnorm_eq. apply inner_unitary. auto. Qed.
Lemma inverse_adj n M N : inverse n M N -> inverse n (adj N) (adj M).
Proof.
  intros H i j Hi Hj. unfold adj. rewrite (csum_ext n _ (fun k => Cconj (M j k * N k i))) by (intros; rewrite conj_mult; ring). rewrite <- conj_csum, H by auto. unfold delta. rewrite Nat.eqb_sym. destruct (Nat.eqb i j); apply conj_R.
Qed.

(** ** the reflector *)
Lemma phase_mod z : Cmod (phase z) = 1.
Proof.
  unfold phase. destruct (Ceq_dec z 0) as [_|N]; [apply Cmod_1|]. rewrite Cmod_div by (apply RtoC_nz; intros E; apply N, Cmod_eq_0; auto). rewrite Cmod_R, Rabs_pos_eq by apply Cmod_ge_0. field. intros E. apply N, Cmod_eq_0. auto.
Qed.
Lemma phase_conj z : Cconj (phase z) * phase z = 1.
Proof. rewrite conj_sq, phase_mod. rewrite Rmult_1_r. reflexivity. Qed.
Lemma phase_z z : Cconj (phase z) * z = RtoC (Cmod z).
Proof.
  unfold phase. destruct (Ceq_dec z 0) as [->|N]; [rewrite Cmod_0; ring|]. assert (M : RtoC (Cmod z) <> 0) by (apply RtoC_nz; intros E; apply N, Cmod_eq_0; auto).
  rewrite conj_div by auto. rewrite conj_R. unfold Cdiv. replace (Cconj z * / RtoC (Cmod z) * z) with (Cconj z * z * / RtoC (Cmod z)) by ring. rewrite conj_sq, RtoC_mult. field. auto.
Qed.
Section House.
  Variables (n : nat) (x : cvec).
  Hypothesis Hn : (1 <= n)%nat.
  Hypothesis Hx : exists i, (i < n)%nat /\ x i <> 0.
  Let a := cnorm n x.
  Let u : cvec := fun i => match i with O => x 0%nat + phase (x 0%nat) * RtoC a | S _ => x i end.
  Let nu := cnorm n u.
  Lemma a_pos : (0 < a)%R.
  Proof. destruct (Rle_lt_or_eq_dec _ _ (cnorm_pos n x)) as [|E]; auto. exfalso. destruct Hx as (i & Hi & N). apply N. symmetry in E. rewrite cnorm_0 in E. auto. Qed.
  (** u^H x and u^H u *)
  Lemma u_inner : inner n u x = RtoC (a * a + a * Cmod (x 0%nat)) /\ inner n u u = RtoC (2 * (a * a + a * Cmod (x 0%nat))).
  Proof.
    assert (S1 : forall y, inner n u y = inner n x y + Cconj (phase (x 0%nat)) * RtoC a * y 0%nat).
    { intros y. unfold inner. destruct n as [|m]; [lia|]. rewrite !csum_first. change (u 0%nat) with (x 0%nat + phase (x 0%nat) * RtoC a). rewrite conj_plus, conj_mult, conj_R. rewrite (csum_ext m (fun i => Cconj (u (S i)) * y (S i)) (fun i => Cconj (x (S i)) * y (S i))) by reflexivity. ring. }
    assert (S2 : inner n x u = inner n x x + Cconj (x 0%nat) * phase (x 0%nat) * RtoC a).
    { unfold inner. destruct n as [|m]; [lia|]. rewrite !csum_first. change (u 0%nat) with (x 0%nat + phase (x 0%nat) * RtoC a). rewrite (csum_ext m (fun i => Cconj (x (S i)) * u (S i)) (fun i => Cconj (x (S i)) * x (S i))) by reflexivity. ring. }
    assert (PZ : Cconj (x 0%nat) * phase (x 0%nat) = RtoC (Cmod (x 0%nat))).
    { rewrite <- (conj_R (Cmod (x 0%nat))), <- phase_z, conj_mult, conj_conj. ring. }
    split.
    - rewrite S1, inner_self. fold a. replace (Cconj (phase (x 0%nat)) * RtoC a * x 0%nat) with (RtoC a * (Cconj (phase (x 0%nat)) * x 0%nat)) by ring. rewrite phase_z, !RtoC_plus, !RtoC_mult. ring.
    - rewrite S1, S2, inner_self, PZ. fold a. change (u 0%nat) with (x 0%nat + phase (x 0%nat) * RtoC a). replace (Cconj (phase (x 0%nat)) * RtoC a * (x 0%nat + phase (x 0%nat) * RtoC a)) with (RtoC a * (Cconj (phase (x 0%nat)) * x 0%nat) + RtoC a * RtoC a * (Cconj (phase (x 0%nat)) * phase (x 0%nat))) by ring.
      rewrite phase_z, phase_conj. rewrite !RtoC_mult, !RtoC_plus, !RtoC_mult. rewrite two_C. ring.
  Qed.
  Lemma nu_sq : (nu * nu = 2 * (a * a + a * Cmod (x 0%nat)))%R.
  Proof. pose proof (proj2 u_inner) as H. rewrite inner_self in H. apply RtoC_inj in H. exact H. Qed.
  Lemma nu_pos : nu <> 0.
  Proof. intros E. pose proof nu_sq as H. rewrite E in H. pose proof a_pos. pose proof (Cmod_ge_0 (x 0%nat)). nra. Qed.
  Let w : cvec := fun i => u i / RtoC nu.
  Let Q : cmat := fun i j => delta i j - 2 * (w i * Cconj (w j)).
  Lemma house_eq : householder n x = Some Q.
  Proof. unfold householder. fold a. fold u. fold nu. destruct (Req_EM_T nu 0) as [E|_]; [exfalso; apply nu_pos; auto|]. reflexivity. Qed.
  Lemma w_unit : inner n w w = 1.
  Proof.
    unfold inner, w. assert (N : RtoC nu <> 0) by (apply RtoC_nz, nu_pos). rewrite (csum_ext n _ (fun i => / (RtoC nu * RtoC nu) * (Cconj (u i) * u i))).
    - rewrite csum_scal. fold (inner n u u). rewrite inner_self. fold nu. rewrite RtoC_mult. field. auto.
    - intros i Hi. rewrite conj_div, conj_R by auto. field. auto.
  Qed.
  Lemma house_herm i j : Q j i = Cconj (Q i j).
  Proof.
    unfold Q. rewrite conj_minus, !conj_mult, conj_conj. replace (Cconj 2) with (RtoC 2) by (symmetry; apply conj_R). replace (Cconj (delta i j)) with (delta j i); [ring|]. unfold delta. rewrite Nat.eqb_sym. destruct (Nat.eqb i j); symmetry; apply conj_R.
  Qed.
  Lemma house_adj i j : adj Q i j = Q i j.
  Proof. unfold adj. rewrite <- house_herm. auto. Qed.
  Lemma house_mv y i : (i < n)%nat -> mv n Q y i = y i - 2 * w i * inner n w y.
  Proof.
    intros Hi. unfold mv, Q. rewrite (csum_ext n _ (fun j => delta i j * y j - 2 * w i * (Cconj (w j) * y j))) by (intros; ring). rewrite csum_minus, csum_delta, csum_scal by auto. reflexivity.
  Qed.
  Lemma house_inverse : inverse n Q Q.
  Proof.
    intros i j Hi Hj. set (y := fun k => Q k j). change (csum n (fun k => Q i k * Q k j)) with (mv n Q y i). rewrite house_mv by auto.
    assert (E : inner n w y = - Cconj (w j)).
    { unfold inner, y, Q. rewrite (csum_ext n _ (fun k => delta j k * Cconj (w k) - 2 * Cconj (w j) * (Cconj (w k) * w k))).
      - rewrite csum_minus, csum_delta, csum_scal by auto. fold (inner n w w). rewrite w_unit. rewrite two_C. ring.
      - intros k Hk. replace (delta k j) with (delta j k) by (unfold delta; rewrite Nat.eqb_sym; reflexivity). ring. }
    rewrite E. unfold y, Q. ring.
  Qed.
  Lemma house_unitary : inverse n (adj Q) Q.
  Proof. intros i j Hi Hj. rewrite <- (house_inverse i j Hi Hj). apply csum_ext. intros k Hk. rewrite house_adj. auto. Qed.
  Lemma house_x i : (i < n)%nat -> mv n Q x i = match i with O => - (phase (x 0%nat) * RtoC a) | S _ => 0 end.
  Proof.
    intros Hi. rewrite house_mv by auto. assert (N : RtoC nu <> 0) by (apply RtoC_nz, nu_pos).
    assert (E : 2 * w i * inner n w x = u i).
    { unfold inner, w. rewrite (csum_ext n _ (fun k => / RtoC nu * (Cconj (u k) * x k))) by (intros k Hk; rewrite conj_div, conj_R by auto; field; auto).
      rewrite csum_scal. fold (inner n u x). rewrite (proj1 u_inner). pose proof nu_sq as H. replace (a * a + a * Cmod (x 0%nat))%R with (nu * nu / 2)%R by lra. unfold Rdiv. rewrite !RtoC_mult, RtoC_inv by lra. field. split; auto. apply RtoC_nz. lra. }
    rewrite E. unfold u. destruct i; ring.
  Qed.
End House.
