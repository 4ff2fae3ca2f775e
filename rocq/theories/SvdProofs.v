(** * Singular value decompositions exist
    Every real square matrix has a singular value decomposition, so the contract assumed of
    np.linalg.svd can be met in every dimension. *)
From Coq Require Import List Arith Bool ZArith Reals Lra Lia Setoid Morphisms.
From Verif Require Import Num RSum LinearModel LinearProofs.
Import ListNotations.
Local Open Scope R_scope.

(** ** A continuous function on a sphere attains its maximum *)
Definition unitV (n : nat) (x : nat -> R) : Prop := sumn n (fun i => x i * x i) = 1.
Definition lipOn (n : nat) (f : (nat -> R) -> R) (L : R) : Prop :=
  forall x y, unitV n x -> unitV n y -> Rabs (f x - f y) <= L * sumn n (fun i => Rabs (x i - y i)).
Definition e0 : nat -> R := fun i => if (i =? 0)%nat then 1 else 0.
Lemma unit_e0 n : (0 < n)%nat -> unitV n e0.
Proof. intros. unfold unitV. rewrite (sumn_single n 0); [cbn; ring|auto|]. intros [|i] _ ?; [lia|cbn; ring]. Qed.
Lemma minus_diag x : x - x = 0.
Proof. ring. Qed.
Lemma sumn_term n f i : (forall k, (k < n)%nat -> 0 <= f k) -> (i < n)%nat -> f i <= sumn n f.
Proof.
  induction n; intros Hf Hi; [lia|]. cbn [sumn]. destruct (Nat.eq_dec i n) as [->|Hn].
  - assert (0 <= sumn n f) by (apply sumn_nonneg; auto). lra.
  - assert (f i <= sumn n f) by (apply IHn; [auto|lia]). specialize (Hf n ltac:(lia)). lra.
Qed.
Lemma sumsq_zero n x : sumn n (fun i => x i * x i) = 0 -> forall i, (i < n)%nat -> x i = 0.
Proof.
  intros H i Hi. assert (P : x i * x i <= sumn n (fun i => x i * x i)) by (apply (sumn_term n (fun i => x i * x i)); auto; intros; nra). nra.
Qed.
Lemma unit_le1 n x i : unitV n x -> (i < n)%nat -> Rabs (x i) <= 1.
Proof.
  intros H Hi. assert (P : x i * x i <= sumn n (fun i => x i * x i)) by (apply (sumn_term n (fun i => x i * x i)); auto; intros; nra). rewrite H in P.
  apply Rabs_le. nra.
Qed.

Definition polar (th : R) (u : nat -> R) : nat -> R := fun i => match i with O => cos th | S k => sin th * u k end.
Lemma unit_polar n th u : unitV n u -> unitV (S n) (polar th u).
Proof.
  intros H. unfold unitV. rewrite sumn_S_l. cbn [polar]. rewrite (sumn_ext _ _ (fun i => (sin th * sin th) * (u i * u i))) by (intros; ring).
  rewrite sumn_scal, H. pose proof (sin2_cos2 th) as P. unfold Rsqr in P. lra.
Qed.
Lemma sphere_max n : forall f L, (0 < n)%nat -> 0 <= L -> lipOn n f L ->
  exists x, unitV n x /\ forall y, unitV n y -> f y <= f x.
Proof.
  induction n as [|n IH]; intros f L Hn HL Hf; [lia|]. destruct (Nat.eq_dec n 0) as [->|Hn0].
  - (* two points *)
    assert (U1 : unitV 1 e0) by (apply unit_e0; lia). assert (U2 : unitV 1 (fun _ => -1)) by (unfold unitV; cbn; ring).
    assert (Q : forall x y, unitV 1 x -> unitV 1 y -> x 0%nat = y 0%nat -> f x = f y).
    { intros x y Hx Hy E. pose proof (Hf x y Hx Hy) as P. cbn in P. rewrite E, minus_diag, Rabs_R0 in P.
      assert (Rabs (f x - f y) <= 0) by lra. pose proof (Rabs_pos (f x - f y)). assert (Z : Rabs (f x - f y) = 0) by lra.
      destruct (Req_dec (f x - f y) 0) as [|Hne]; [lra|]. apply Rabs_no_R0 in Hne. lra. }
    assert (W : forall y, unitV 1 y -> f y = f e0 \/ f y = f (fun _ => -1)).
    { intros y Hy. pose proof Hy as Hy'. unfold unitV in Hy'. cbn in Hy'. assert (Z : (y 0%nat - 1) * (y 0%nat + 1) = 0) by lra.
      apply Rmult_integral in Z. destruct Z; [left|right]; apply Q; auto; cbn; lra. }
    destruct (Rle_dec (f e0) (f (fun _ => -1))); [exists (fun _ => -1)|exists e0]; (split; [auto|]; intros y Hy; destruct (W y Hy) as [->| ->]; lra).
  - set (E := fun th v => exists u, unitV n u /\ v = f (polar th u)).
    assert (M : forall th, exists u, unitV n u /\ forall w, unitV n w -> f (polar th w) <= f (polar th u)).
    { intros th. apply (IH (fun u => f (polar th u)) L); [lia|auto|]. intros x y Hx Hy.
      eapply Rle_trans; [apply Hf; apply unit_polar; auto|]. apply Rmult_le_compat_l; auto. rewrite sumn_S_l. cbn [polar].
      rewrite minus_diag, Rabs_R0, Rplus_0_l. apply sumn_le. intros i Hi. replace (sin th * x i - sin th * y i) with (sin th * (x i - y i)) by ring.
      rewrite Rabs_mult. pose proof (Rabs_pos (x i - y i)). pose proof (SIN_bound th) as SB. assert (Rabs (sin th) <= 1) by (apply Rabs_le; lra). nra. }
    assert (B : forall th, bound (E th)). { intros th. destruct (M th) as (u & Hu & Hm). exists (f (polar th u)). intros v (w & Hw & ->). auto. }
    assert (I : forall th, exists v, E th v). { intros th. exists (f (polar th e0)), e0. split; auto. apply unit_e0. lia. }
    set (g := fun th => proj1_sig (completeness (E th) (B th) (I th))).
    assert (G : forall th, is_lub (E th) (g th)) by (intros th; apply (proj2_sig (completeness (E th) (B th) (I th)))). clearbody g.
    assert (GM : forall th, exists u, unitV n u /\ g th = f (polar th u)).
    { intros th. destruct (M th) as (u & Hu & Hm). exists u. split; auto. destruct (G th) as [G1 G2]. apply Rle_antisym.
      - apply G2. intros v (w & Hw & ->). auto.
      - apply G1. exists u. auto. }
    set (h := fun a b => L * (Rabs (cos a - cos b) + INR n * Rabs (sin a - sin b))).
    assert (D : forall a b, g a - g b <= h a b).
    { intros a b. destruct (GM a) as (u & Hu & ->). assert (f (polar b u) <= g b) by (apply G; exists u; auto).
      pose proof (Hf (polar a u) (polar b u) (unit_polar _ a _ Hu) (unit_polar _ b _ Hu)) as P. rewrite sumn_S_l in P. cbn [polar] in P.
      assert (Q : sumn n (fun i => Rabs (sin a * u i - sin b * u i)) <= INR n * Rabs (sin a - sin b)).
      { rewrite <- sumn_const. apply sumn_le. intros i Hi. replace (sin a * u i - sin b * u i) with ((sin a - sin b) * u i) by ring. rewrite Rabs_mult.
        pose proof (Rabs_pos (sin a - sin b)). pose proof (unit_le1 _ _ _ Hu Hi). pose proof (Rabs_pos (u i)). nra. }
      pose proof (Rle_abs (f (polar a u) - f (polar b u))). unfold h. nra. }
    assert (Hs : forall a b, h a b = h b a). { intros. unfold h. rewrite (Rabs_minus_sym (cos a)), (Rabs_minus_sym (sin a)). auto. }
    assert (C : forall a, continuity_pt g a).
    { intros a. assert (Ch : continuity_pt (fun b => h b a) a).
      { unfold h. apply continuity_pt_scal. apply continuity_pt_plus.
        - apply (continuity_pt_comp (fun b => cos b - cos a) Rabs); [|apply Rcontinuity_abs]. apply continuity_pt_minus; [apply continuity_cos|apply continuity_pt_const; intros ? ?; auto].
        - apply continuity_pt_scal. apply (continuity_pt_comp (fun b => sin b - sin a) Rabs); [|apply Rcontinuity_abs]. apply continuity_pt_minus; [apply continuity_sin|apply continuity_pt_const; intros ? ?; auto]. }
      intros eps He. destruct (Ch eps He) as (alp & Ha & P). exists alp. split; auto. intros x Hx. specialize (P x Hx). cbn in *. unfold R_dist in *.
      assert (Z : h a a = 0) by (unfold h; rewrite !minus_diag, Rabs_R0; ring). rewrite Z, Rminus_0_r in P. eapply Rle_lt_trans; [|exact P].
      eapply Rle_trans; [|apply Rle_abs]. apply Rabs_le. pose proof (D x a). pose proof (D a x). rewrite Hs in H0. lra. }
    destruct (continuity_ab_maj g 0 PI) as (t & Ht & _); [pose proof PI_RGT_0; lra|auto|]. destruct (GM t) as (u & Hu & Eg).
    exists (polar t u). split; [apply unit_polar; auto|]. intros y Hy. rewrite <- Eg.
    pose proof (unit_le1 _ _ 0%nat Hy ltac:(lia)) as Hy0. assert (Hb : -1 <= y 0%nat <= 1). { split; [|pose proof (Rle_abs (y 0%nat)); lra]. pose proof (Rle_abs (- y 0%nat)). rewrite Rabs_Ropp in H. lra. }
    set (th := acos (y 0%nat)). set (s := sin th).
    assert (Es : s * s = sumn n (fun i => y (S i) * y (S i))).
    { unfold s, th. rewrite sin_acos by auto. rewrite sqrt_sqrt by (unfold Rsqr; nra). unfold unitV in Hy. rewrite sumn_S_l in Hy. unfold Rsqr. lra. }
    assert (R : exists w, unitV n w /\ forall i, (i < n)%nat -> y (S i) = s * w i).
    { destruct (Req_dec s 0) as [Z|Z].
      - exists e0. split; [apply unit_e0; lia|]. intros i Hi. rewrite Z in *. rewrite Rmult_0_l in Es. rewrite (sumsq_zero n (fun i => y (S i)) (eq_sym Es) i Hi). ring.
      - exists (fun i => y (S i) / s). split; [|intros; field; auto]. unfold unitV. rewrite (sumn_ext _ _ (fun i => / (s * s) * (y (S i) * y (S i)))) by (intros; field; auto).
        rewrite sumn_scal, <- Es. field; auto. }
    destruct R as (w & Hw & Ew). apply Rle_trans with (g th); [|apply Ht; unfold th; apply acos_bound].
    apply Rle_trans with (f (polar th w)); [|apply G; exists w; auto].
    pose proof (Hf y (polar th w) Hy (unit_polar _ _ _ Hw)) as P. rewrite sumn_zero in P.
    + pose proof (Rle_abs (f y - f (polar th w))). lra.
    + intros [|i] Hi; cbn [polar].
      * unfold th. rewrite cos_acos by auto. rewrite minus_diag. apply Rabs_R0.
      * rewrite Ew by lia. fold s. rewrite minus_diag. apply Rabs_R0.
Qed.

(** ** Matrices as functions, compared on indices below n *)
Definition mat := nat -> nat -> R.
Definition meq (n : nat) (A B : mat) : Prop := forall i j, (i < n)%nat -> (j < n)%nat -> A i j = B i j.
Definition mm (n : nat) (A B : mat) : mat := fun i j => sumn n (fun k => A i k * B k j).
Definition tr (A : mat) : mat := fun i j => A j i.
#[local] Instance meq_equiv n : Equivalence (meq n).
Proof.
  split; [intros A i j _ _; auto|intros A B H i j Hi Hj; symmetry; auto|intros A B C H1 H2 i j Hi Hj; rewrite H1; auto].
Qed.
#[local] Instance mm_proper n : Proper (meq n ==> meq n ==> meq n) (mm n).
Proof. intros A A' HA B B' HB i j Hi Hj. unfold mm. apply sumn_ext. intros k Hk. rewrite HA, HB; auto. Qed.
#[local] Instance tr_proper n : Proper (meq n ==> meq n) tr.
Proof. intros A A' HA i j Hi Hj. unfold tr. auto. Qed.
Lemma mm_assoc n A B C : meq n (mm n A (mm n B C)) (mm n (mm n A B) C).
Proof.
  intros i j Hi Hj. unfold mm. rewrite (sumn_ext n _ (fun k => sumn n (fun l => A i k * (B k l * C l j)))) by (intros; rewrite sumn_scal; auto).
  rewrite sumn_swap. apply sumn_ext. intros l Hl. rewrite <- sumn_scal_r. apply sumn_ext. intros; ring.
Qed.
Lemma delta_sym i j : delta i j = delta j i.
Proof. unfold delta. rewrite Nat.eqb_sym. auto. Qed.
Lemma mm_id_l n A : meq n (mm n delta A) A.
Proof. intros i j Hi Hj. unfold mm. apply (sumn_delta n i (fun k => A k j)); auto. Qed.
Lemma mm_id_r n A : meq n (mm n A delta) A.
Proof. intros i j Hi Hj. unfold mm. rewrite (sumn_ext n _ (fun k => delta j k * A i k)) by (intros; rewrite (delta_sym j); ring). apply (sumn_delta n j (fun k => A i k)); auto. Qed.
Lemma tr_mm n A B : meq n (tr (mm n A B)) (mm n (tr B) (tr A)).
Proof. intros i j Hi Hj. unfold tr, mm. apply sumn_ext. intros; ring. Qed.
Lemma tr_id n : meq n (tr delta) delta.
Proof. intros i j _ _. unfold tr. apply delta_sym. Qed.

Definition orth (n : nat) (U : mat) : Prop := meq n (mm n (tr U) U) delta /\ meq n (mm n U (tr U)) delta.
Lemma orth_id n : orth n delta.
Proof. split; [rewrite tr_id; apply mm_id_l|rewrite tr_id; apply mm_id_l]. Qed.
Lemma orth_tr n U : orth n U -> orth n (tr U).
Proof. intros [H1 H2]. split; auto. Qed.
Lemma orth_mm n U V : orth n U -> orth n V -> orth n (mm n U V).
Proof.
  intros [U1 U2] [V1 V2]. split.
  - rewrite tr_mm. rewrite <- mm_assoc. rewrite (mm_assoc n (tr U)). rewrite U1, mm_id_l. auto.
  - rewrite tr_mm. rewrite <- mm_assoc. rewrite (mm_assoc n V). rewrite V2, mm_id_l. auto.
Qed.

(** *** blocks: 1 and A on the diagonal *)
Definition blk (c : R) (A : mat) : mat := fun i j => match i, j with O, O => c | S i, S j => A i j | _, _ => 0 end.
Lemma blk_mm n c d A B : meq (S n) (mm (S n) (blk c A) (blk d B)) (blk (c * d) (mm n A B)).
Proof.
  intros i j Hi Hj. unfold mm at 1. rewrite sumn_S_l. destruct i as [|i], j as [|j]; cbn [blk].
  - rewrite sumn_zero by (intros; ring). ring.
  - rewrite sumn_zero by (intros; ring). ring.
  - rewrite sumn_zero by (intros; ring). ring.
  - unfold mm. ring.
Qed.
Lemma blk_proper n c d A B : c = d -> meq n A B -> meq (S n) (blk c A) (blk d B).
Proof. intros -> H i j Hi Hj. destruct i as [|i], j as [|j]; cbn [blk]; auto. apply H; lia. Qed.
Lemma blk_tr n c A : meq n (tr (blk c A)) (blk c (tr A)).
Proof. intros i j _ _. destruct i, j; reflexivity. Qed.
Lemma blk_id n : meq n (blk 1 delta) delta.
Proof. intros i j _ _. destruct i, j; reflexivity. Qed.
Lemma orth_blk n U : orth n U -> orth (S n) (blk 1 U).
Proof.
  intros [H1 H2]. split; rewrite blk_tr, blk_mm; (transitivity (blk 1 delta); [apply blk_proper; [ring|assumption]|apply blk_id]).
Qed.

(** *** an orthogonal matrix with a given first column (a Householder reflection) *)
Lemma orth_first n v : (0 < n)%nat -> unitV n v -> exists H, orth n H /\ forall i, (i < n)%nat -> H i 0%nat = v i.
Proof.
  intros Hn Hv. set (w := fun i => v i - e0 i). set (q := sumn n (fun i => w i * w i)).
  assert (Eq : q = 2 - 2 * v 0%nat).
  { unfold q, w. rewrite (sumn_ext n _ (fun i => (v i * v i + e0 i * e0 i) - 2 * (e0 i * v i))) by (intros; ring).
    rewrite sumn_minus, sumn_plus, sumn_scal. rewrite Hv. rewrite (unit_e0 n Hn). rewrite (sumn_single n 0); [cbn; ring|auto|]. intros [|i] _ ?; [lia|cbn; ring]. }
  destruct (Req_dec q 0) as [Z|Z].
  - exists delta. split; [apply orth_id|]. intros i Hi. pose proof (sumsq_zero n w Z i Hi) as E. unfold w in E. unfold delta. unfold e0 in E. lra.
  - exists (fun i j => delta i j - 2 / q * (w i * w j)).
    assert (S : meq n (mm n (fun i j => delta i j - 2 / q * (w i * w j)) (fun i j => delta i j - 2 / q * (w i * w j))) delta).
    { intros i j Hi Hj. unfold mm.
      rewrite (sumn_ext n _ (fun k => (delta i k * delta k j - (2 / q * w i) * (delta j k * w k)) - ((2 / q * w j) * (delta i k * w k) - (2 / q * 2 / q * w i * w j) * (w k * w k))))
        by (intros; rewrite (delta_sym j); field; auto).
      rewrite !sumn_minus, !sumn_scal. fold q. rewrite (sumn_delta n i (fun k => delta k j)), (sumn_delta n j w), (sumn_delta n i w) by auto. field. auto. }
    assert (T : meq n (tr (fun i j => delta i j - 2 / q * (w i * w j))) (fun i j => delta i j - 2 / q * (w i * w j))).
    { intros i j _ _. unfold tr. rewrite delta_sym. ring. }
    split; [split; rewrite T; auto|]. intros i Hi. unfold w at 2. unfold e0 at 1. cbn [Nat.eqb].
    replace (2 / q * (w i * (v 0%nat - 1))) with (- w i) by (rewrite Eq in *; field; lra). unfold w, delta, e0. ring.
Qed.
Lemma orth_norm n U x : orth n U -> sumn n (fun i => sumn n (fun j => U i j * x j) * sumn n (fun j => U i j * x j)) = sumn n (fun i => x i * x i).
Proof.
  intros [H _].
  rewrite (sumn_ext n _ (fun i => sumn n (fun j => sumn n (fun k => (U i j * U i k) * (x j * x k))))).
  2:{ intros i Hi. rewrite <- sumn_scal_r. apply sumn_ext. intros j Hj. rewrite <- sumn_scal. apply sumn_ext. intros; ring. }
  rewrite sumn_swap. apply sumn_ext. intros j Hj. rewrite sumn_swap.
  rewrite (sumn_ext n _ (fun k => delta j k * (x j * x k))).
  2:{ intros k Hk. rewrite sumn_scal_r. f_equal. apply (H j k); auto. }
  apply (sumn_delta n j (fun k => x j * x k)); auto.
Qed.

(** ** The decomposition *)
Definition nrm2 (n : nat) (x : nat -> R) : R := sumn n (fun i => x i * x i).
Definition mv (n : nat) (A : mat) (x : nat -> R) : nat -> R := fun i => sumn n (fun j => A i j * x j).
Definition diag (s : nat -> R) : mat := fun i j => if (i =? j)%nat then s i else 0.
Definition svdF (n : nat) (A U : mat) (s : nat -> R) (V : mat) : Prop :=
  meq n A (mm n U (mm n (diag s) V)) /\ orth n U /\ orth n V /\ (forall j, (j < n)%nat -> 0 <= s j) /\
  (forall i j, (i <= j)%nat -> (j < n)%nat -> s j <= s i).

Lemma nrm2_pos n x : 0 <= nrm2 n x.
Proof. apply sumn_nonneg. intros; nra. Qed.
Lemma nrm2_ext n x y : (forall i, (i < n)%nat -> x i = y i) -> nrm2 n x = nrm2 n y.
Proof. intros H. apply sumn_ext. intros. rewrite H; auto. Qed.
Lemma nrm2_scal n c x : nrm2 n (fun i => c * x i) = c * c * nrm2 n x.
Proof. unfold nrm2. rewrite <- sumn_scal. apply sumn_ext. intros; ring. Qed.
Lemma mv_scal n A c x i : mv n A (fun j => c * x j) i = c * mv n A x i.
Proof. unfold mv. rewrite <- sumn_scal. apply sumn_ext. intros; ring. Qed.
Lemma mv_mm n A B x i : mv n (mm n A B) x i = mv n A (mv n B x) i.
Proof.
  unfold mv, mm. rewrite (sumn_ext n _ (fun j => sumn n (fun k => A i k * (B k j * x j)))) by (intros; rewrite <- sumn_scal_r; apply sumn_ext; intros; ring).
  rewrite sumn_swap. apply sumn_ext. intros k Hk. rewrite <- sumn_scal. auto.
Qed.
Lemma mv_lip n A : exists L, 0 <= L /\ lipOn n (fun x => nrm2 n (mv n A x)) L.
Proof.
  set (C := sumn n (fun i => sumn n (fun j => Rabs (A i j)))).
  assert (HC : forall i j, (i < n)%nat -> (j < n)%nat -> Rabs (A i j) <= sumn n (fun j => Rabs (A i j)) /\ sumn n (fun j => Rabs (A i j)) <= C).
  { intros i j Hi Hj. split; [apply (sumn_term n (fun j => Rabs (A i j))); auto; intros; apply Rabs_pos|].
    apply (sumn_term n (fun i => sumn n (fun j => Rabs (A i j)))); auto. intros; apply sumn_nonneg; intros; apply Rabs_pos. }
  assert (C0 : 0 <= C) by (apply sumn_nonneg; intros; apply sumn_nonneg; intros; apply Rabs_pos).
  exists (INR n * (2 * C * C)). split; [pose proof (pos_INR n); nra|]. intros x y Hx Hy.
  assert (B : forall z i, unitV n z -> (i < n)%nat -> Rabs (mv n A z i) <= C).
  { intros z i Hz Hi. eapply Rle_trans; [apply sumn_abs|]. apply Rle_trans with (sumn n (fun j => Rabs (A i j))).
    - apply sumn_le. intros j Hj. rewrite Rabs_mult. pose proof (unit_le1 _ _ _ Hz Hj). pose proof (Rabs_pos (A i j)). pose proof (Rabs_pos (z j)). nra.
    - apply (HC i i); auto. }
  set (D := sumn n (fun i => Rabs (x i - y i))). assert (D0 : 0 <= D) by (apply sumn_nonneg; intros; apply Rabs_pos).
  assert (E : forall i, (i < n)%nat -> Rabs (mv n A x i - mv n A y i) <= C * D).
  { intros i Hi. unfold mv. rewrite <- sumn_minus. eapply Rle_trans; [apply sumn_abs|]. unfold D. rewrite <- sumn_scal. apply sumn_le. intros j Hj.
    replace (A i j * x j - A i j * y j) with (A i j * (x j - y j)) by ring. rewrite Rabs_mult. destruct (HC i j Hi Hj). apply Rmult_le_compat_r; [apply Rabs_pos|lra]. }
  unfold nrm2. rewrite <- sumn_minus. eapply Rle_trans; [apply sumn_abs|]. replace (INR n * (2 * C * C) * D) with (INR n * (C * D * (2 * C))) by ring.
  rewrite <- sumn_const. apply sumn_le. intros i Hi.
  replace (mv n A x i * mv n A x i - mv n A y i * mv n A y i) with ((mv n A x i - mv n A y i) * (mv n A x i + mv n A y i)) by ring. rewrite Rabs_mult.
  apply Rmult_le_compat; try apply Rabs_pos; auto. eapply Rle_trans; [apply Rabs_triang|]. pose proof (B x i Hx Hi). pose proof (B y i Hy Hi). lra.
Qed.
(** the first singular value and vectors *)
Lemma top_singular n A : (0 < n)%nat -> exists u s v, unitV n u /\ unitV n v /\ 0 <= s /\
  (forall i, (i < n)%nat -> mv n A v i = s * u i) /\ (forall x, nrm2 n (mv n A x) <= s * s * nrm2 n x).
Proof.
  intros Hn. destruct (mv_lip n A) as (L & HL & Hl). destruct (sphere_max n _ L Hn HL Hl) as (v & Hv & Hm).
  set (q := nrm2 n (mv n A v)) in *. assert (Hq : 0 <= q) by apply nrm2_pos. pose proof (sqrt_sqrt q Hq) as Es. pose proof (sqrt_pos q) as Hs. set (s := sqrt q) in *.
  assert (Hall : forall x, nrm2 n (mv n A x) <= s * s * nrm2 n x).
  { intros x. rewrite Es. destruct (Req_dec (nrm2 n x) 0) as [Z|Z].
    - rewrite Z. rewrite Rmult_0_r. right. apply sumn_zero. intros i Hi. assert (E : mv n A x i = 0); [|rewrite E; ring]. apply sumn_zero. intros j Hj. rewrite (sumsq_zero n x Z j Hj). ring.
    - pose proof (nrm2_pos n x) as Hp. set (r := sqrt (nrm2 n x)). pose proof (sqrt_sqrt (nrm2 n x) Hp) as Er. fold r in Er. assert (Hr : r <> 0) by (intros E; rewrite E in Er; lra).
      assert (Hu : unitV n (fun i => / r * x i)). { unfold unitV. change (nrm2 n (fun i => / r * x i) = 1). rewrite nrm2_scal, <- Er. field; auto. }
      specialize (Hm _ Hu). rewrite (nrm2_ext n _ (fun i => / r * mv n A x i)) in Hm by (intros; apply mv_scal). rewrite nrm2_scal in Hm.
      apply Rmult_le_reg_l with (/ r * / r); [assert (/ r <> 0) by (apply Rinv_neq_0_compat; auto); nra|]. eapply Rle_trans; [exact Hm|]. rewrite <- Er. right. field; auto. }
  destruct (Req_dec s 0) as [Z|Z].
  - exists e0, s, v. split; [apply unit_e0; auto|]. split; [auto|]. split; [auto|]. split; [|auto]. intros i Hi. rewrite Z, Rmult_0_l.
    apply (sumsq_zero n (mv n A v)); auto. change (q = 0). rewrite <- Es, Z. ring.
  - exists (fun i => / s * mv n A v i), s, v. split; [|split; [auto|split; [auto|split; [intros; field; auto|auto]]]].
    change (nrm2 n (fun i => / s * mv n A v i) = 1). rewrite nrm2_scal. fold q. rewrite <- Es. field; auto.
Qed.

Theorem svd_exists n : forall A, exists U s V, svdF n A U s V.
Proof.
  induction n as [|n IH]; intros A.
  { exists A, (fun _ => 0), A. split; [|split; [|split; [|split]]]; try (intros ? ? ?; lia); try (intros ? ?; lia); split; intros ? ? ?; lia. }
  destruct (top_singular (S n) A ltac:(lia)) as (u & s & v & Hu & Hv & Hs & Eu & Hmax).
  destruct (orth_first (S n) u ltac:(lia) Hu) as (P & OP & FP). destruct (orth_first (S n) v ltac:(lia) Hv) as (Q & OQ & FQ).
  set (B := mm (S n) (tr P) (mm (S n) A Q)).
  assert (EA : meq (S n) A (mm (S n) P (mm (S n) B (tr Q)))).
  { unfold B. rewrite <- (mm_assoc _ (tr P)). rewrite <- (mm_assoc _ A). rewrite (proj2 OQ), mm_id_r, mm_assoc, (proj2 OP), mm_id_l. reflexivity. }
  assert (B0 : forall i, (i < S n)%nat -> B i 0%nat = s * delta i 0).
  { intros i Hi. unfold B, mm at 1. rewrite <- (proj1 OP i 0%nat) by lia. unfold mm at 2. rewrite <- sumn_scal. apply sumn_ext. intros k Hk.
    assert (E : mm (S n) A Q k 0%nat = s * P k 0%nat). { unfold mm. rewrite FP by auto. rewrite <- Eu by auto. apply sumn_ext. intros l Hl. rewrite FQ; auto. } rewrite E. unfold tr. ring. }
  assert (BM : forall x, nrm2 (S n) (mv (S n) B x) <= s * s * nrm2 (S n) x).
  { intros x. unfold B. rewrite (nrm2_ext _ _ (mv (S n) (tr P) (mv (S n) A (mv (S n) Q x)))).
    2:{ intros i Hi. rewrite mv_mm. unfold mv at 1 3. apply sumn_ext. intros k Hk. rewrite mv_mm. auto. }
    unfold nrm2 at 1. unfold mv at 1 4. rewrite (orth_norm (S n) (tr P)) by (apply orth_tr; auto).
    eapply Rle_trans; [apply Hmax|]. apply Rmult_le_compat_l; [nra|]. right. unfold nrm2. unfold mv. apply orth_norm; auto. }
  assert (R0 : forall j, (j < n)%nat -> B 0%nat (S j) = 0).
  { set (x := B 0%nat). set (N := nrm2 (S n) x). assert (E0 : mv (S n) B x 0%nat = N) by (unfold mv, N, nrm2, x; auto).
    assert (L1 : N * N <= s * s * N). { eapply Rle_trans; [|apply (BM x)]. rewrite <- E0 at 1 2. apply (sumn_term (S n) (fun i => mv (S n) B x i * mv (S n) B x i)); [intros; nra|lia]. }
    assert (EN : N = s * s + sumn n (fun j => x (S j) * x (S j))). { unfold N, nrm2. rewrite sumn_S_l. unfold x at 1 2. rewrite B0 by lia. unfold delta. cbn [Nat.eqb]. ring. }
    assert (W0 : 0 <= sumn n (fun j => x (S j) * x (S j))) by (apply sumn_nonneg; intros; nra).
    intros j Hj. apply (sumsq_zero n (fun j => x (S j))); auto. nra. }
  set (B' := fun i j => B (S i) (S j)).
  assert (EB : meq (S n) B (blk s B')).
  { intros [|i] [|j] Hi Hj; cbn [blk].
    - rewrite B0 by lia. unfold delta. cbn. ring.
    - apply R0. lia.
    - rewrite B0 by lia. unfold delta. cbn. ring.
    - reflexivity. }
  assert (BM' : forall y, nrm2 n (mv n B' y) <= s * s * nrm2 n y).
  { intros y. pose proof (BM (fun i => match i with O => 0 | S i => y i end)) as H. unfold nrm2 in H at 2. rewrite sumn_S_l in H. rewrite Rmult_0_l, Rplus_0_l in H. fold (nrm2 n y) in H.
    eapply Rle_trans; [|exact H]. unfold nrm2. rewrite (sumn_S_l n (fun i => mv (S n) B _ i * mv (S n) B _ i)).
    match goal with |- ?a <= ?z * ?z + ?b => assert (a = b); [|nra] end. apply sumn_ext. intros i Hi.
    assert (E : mv (S n) B (fun i => match i with O => 0 | S i => y i end) (S i) = mv n B' y i) by (unfold mv; rewrite sumn_S_l, Rmult_0_r, Rplus_0_l; reflexivity). rewrite E. auto. }
  destruct (IH B') as (U' & s' & V' & EB' & OU' & OV' & Ps' & Ss').
  assert (Top : forall j, (j < n)%nat -> s' j <= s).
  { intros j Hj. pose proof (BM' (V' j)) as H. assert (N1 : nrm2 n (V' j) = 1). { pose proof (proj2 OV' j j Hj Hj) as E. unfold mm, tr, delta in E. rewrite Nat.eqb_refl in E. exact E. }
    assert (E : forall i, (i < n)%nat -> mv n B' (V' j) i = s' j * U' i j).
    { intros i Hi. assert (X : mv n B' (V' j) i = mm n B' (tr V') i j) by reflexivity. rewrite X.
      assert (M : meq n (mm n B' (tr V')) (mm n U' (diag s'))). { rewrite EB'. rewrite <- mm_assoc. rewrite <- (mm_assoc n (diag s')). rewrite (proj2 OV'), mm_id_r. reflexivity. }
      rewrite (M i j Hi Hj). unfold mm. rewrite (sumn_single n j); [|auto|intros k Hk Hne]; unfold diag; [rewrite Nat.eqb_refl; ring|]. rewrite (proj2 (Nat.eqb_neq k j)) by auto. ring. }
    rewrite (nrm2_ext n _ _ E), nrm2_scal, N1 in H. assert (N2 : nrm2 n (fun i => U' i j) = 1). { pose proof (proj1 OU' j j Hj Hj) as F. unfold mm, tr, delta in F. rewrite Nat.eqb_refl in F. exact F. }
    rewrite N2 in H. specialize (Ps' j Hj). nra. }
  exists (mm (S n) P (blk 1 U')), (fun i => match i with O => s | S i => s' i end), (mm (S n) (blk 1 V') (tr Q)).
  assert (ED : meq (S n) (diag (fun i => match i with O => s | S i => s' i end)) (blk s (diag s'))) by (intros [|i] [|j] _ _; reflexivity).
  split; [|split; [|split; [|split]]].
  - rewrite ED. rewrite (mm_assoc _ (blk s _)). rewrite blk_mm. rewrite <- (mm_assoc _ P). rewrite (mm_assoc _ (blk 1 U')). rewrite blk_mm. rewrite EA at 1. rewrite EB.
    assert (X : meq (S n) (blk s B') (blk (1 * (s * 1)) (mm n U' (mm n (diag s') V')))) by (apply blk_proper; [ring|auto]). rewrite X. reflexivity.
  - apply orth_mm; auto. apply orth_blk; auto.
  - apply orth_mm; [apply orth_blk; auto|apply orth_tr; auto].
  - intros [|j] Hj; auto. apply Ps'. lia.
  - intros [|i] [|j] Hij Hj; try lia; try lra; [apply Top; lia|apply Ss'; lia].
Qed.
