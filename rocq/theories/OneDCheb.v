(** * Eigenvalues of the colleague matrix and of its inverse *)
From Coq Require Import List Arith Bool Reals Lia Lra Classical.
From Coquelicot Require Import Complex.
From Verif Require Import Num OneDSpec OneDModel OneDProofs.
Import ListNotations.
Local Open Scope R_scope.
Local Open Scope C_scope.

(** ** n+1 vectors with n entries are dependent *)
Definition skip (p k : nat) : nat := if Nat.ltb k p then k else S k.
Lemma csum_skip n f p : (p <= n)%nat -> csum (S n) f = csum n (fun k => f (skip p k)) + f p.
Proof.
  induction n; intros Hp.
  - replace p with 0%nat by lia. reflexivity.
  - destruct (Nat.eq_dec p (S n)) as [->|Hne].
    + simpl csum at 1. change (csum n f + f n) with (csum (S n) f). f_equal. apply csum_ext. intros i Hi.
      unfold skip. destruct (Nat.ltb_spec i (S n)); [auto|lia].
    + change (csum (S (S n)) f) with (csum (S n) f + f (S n)). rewrite IHn by lia. simpl csum.
      replace (skip p n) with (S n) by (unfold skip; destruct (Nat.ltb_spec n p); [lia|auto]). ring.
Qed.
Lemma dependent n : forall u : nat -> nat -> C, exists c : nat -> C,
  (exists k, (k <= n)%nat /\ c k <> 0) /\ forall i, (i < n)%nat -> csum (S n) (fun k => c k * u k i) = 0.
Proof.
  induction n; intros u.
  - exists (fun _ => RtoC 1). split; [exists 0%nat; split; [lia|apply C1_nz]|]. intros i Hi. lia.
  - destruct (classic (exists p, (p <= S n)%nat /\ u p n <> 0)) as [[p [Hp Hu]]|Hno].
    + destruct (IHn (fun k i => u (skip p k) i - u (skip p k) n / u p n * u p i)) as [c [[k [Hk Hck]] Hc]].
      set (c' := fun q => if Nat.eqb q p then - csum (S n) (fun k => c k * (u (skip p k) n / u p n))
                         else c (if Nat.ltb q p then q else (q - 1)%nat)).
      assert (Hs : forall k, c' (skip p k) = c k).
      { intros q. unfold c', skip. destruct (Nat.ltb_spec q p).
        - destruct (Nat.eqb_spec q p); [lia|]. destruct (Nat.ltb_spec q p); [auto|lia].
        - destruct (Nat.eqb_spec (S q) p); [lia|]. destruct (Nat.ltb_spec (S q) p); [lia|]. f_equal. lia. }
      assert (Hcp : c' p = - csum (S n) (fun k => c k * (u (skip p k) n / u p n))) by (unfold c'; now rewrite Nat.eqb_refl).
      exists c'. split.
      * exists (skip p k). rewrite Hs. split; auto. unfold skip. destruct (Nat.ltb_spec k p); lia.
      * intros i Hi. rewrite (csum_skip (S n) _ p) by auto.
        rewrite (csum_ext (S n) _ (fun k => c k * u (skip p k) i)) by (intros; now rewrite Hs).
        rewrite Hcp. destruct (Nat.eq_dec i n) as [->|Hin].
        -- replace (- csum (S n) (fun k0 => c k0 * (u (skip p k0) n / u p n)) * u p n)
             with (- u p n * csum (S n) (fun k0 => c k0 * (u (skip p k0) n / u p n))) by ring.
           rewrite <- csum_scal, <- csum_plus. apply csum_zero. intros q _. field. auto.
        -- etransitivity; [|exact (Hc i ltac:(lia))].
           replace (- csum (S n) (fun k0 => c k0 * (u (skip p k0) n / u p n)) * u p i)
             with (- u p i * csum (S n) (fun k0 => c k0 * (u (skip p k0) n / u p n))) by ring.
           rewrite <- csum_scal, <- csum_plus. apply csum_ext. intros q _. ring.
    + destruct (IHn u) as [c [[k [Hk Hck]] Hc]].
      exists (fun q => if Nat.eqb q (S n) then RtoC 0 else c q). split.
      * exists k. split; [lia|]. destruct (Nat.eqb_spec k (S n)); [lia|auto].
      * intros i Hi. change (csum (S (S n)) ?f) with (csum (S n) f + f (S n)). cbv beta. rewrite Nat.eqb_refl.
        rewrite (csum_ext (S n) _ (fun q => c q * u q i)) by (intros q Hq; destruct (Nat.eqb_spec q (S n)); [lia|auto]).
        destruct (Nat.eq_dec i n) as [->|Hin].
        -- rewrite csum_zero; [ring|]. intros q Hq. replace (u q n) with (RtoC 0); [ring|].
           symmetry. apply NNPP. intros E. apply Hno. exists q. split; [lia|auto].
        -- rewrite Hc by lia. ring.
Qed.
(** a matrix whose rows are independent has no kernel *)
Lemma kernel_sides n (A : cmat) :
  (exists v, nonzero n v /\ forall i, (i < n)%nat -> app n A v i = 0) ->
  exists w, nonzero n w /\ forall j, (j < n)%nat -> coapp n A w j = 0.
Proof.
  intros [v [[i0 [Hi0 Hv]] HA]]. apply NNPP. intros Hno. apply Hv.
  destruct (dependent n (fun k j => if Nat.ltb k n then A k j else if Nat.eqb j i0 then RtoC 1 else RtoC 0)) as [c [[k [Hk Hck]] Hc]].
  assert (Hc' : forall j, (j < n)%nat -> coapp n A c j + c n * (if Nat.eqb j i0 then RtoC 1 else RtoC 0) = 0).
  { intros j Hj. etransitivity; [|exact (Hc j Hj)]. simpl csum. rewrite Nat.ltb_irrefl. f_equal. unfold coapp.
    apply csum_ext. intros i Hi. destruct (Nat.ltb_spec i n); [auto|lia]. }
  assert (Hcn : c n <> 0).
  { intros E. apply Hno. exists c. split.
    - exists k. split; auto. destruct (Nat.eq_dec k n); [subst; tauto|lia].
    - intros j Hj. specialize (Hc' j Hj). rewrite E in Hc'. etransitivity; [|exact Hc']. ring. }
  assert (E : csum n (fun i => c i * app n A v i) = - c n * v i0).
  { rewrite csum_app_coapp. rewrite (csum_ext n _ (fun j => if Nat.eqb j i0 then - c n * v j else 0)).
    - rewrite (csum_one n _ i0) by (try lia; intros i _ Hi; apply Nat.eqb_neq in Hi; now rewrite Hi). now rewrite Nat.eqb_refl.
    - intros j Hj. specialize (Hc' j Hj). destruct (Nat.eqb j i0).
      + replace (coapp n A c j) with ((coapp n A c j + c n * 1) - c n) by ring. rewrite Hc'. ring.
      + replace (coapp n A c j) with (coapp n A c j + c n * 0) by ring. rewrite Hc'. ring. }
  rewrite csum_zero in E by (intros i Hi; rewrite HA by auto; ring).
  symmetry in E. apply cmult_integral in E. destruct E as [E|E]; auto. exfalso. apply Hcn.
  replace (c n) with (- - c n) by ring. rewrite E. ring.
Qed.
Lemma shift_app n A z v i : (i < n)%nat ->
  app n (fun i j => A i j - (if Nat.eqb i j then z else RtoC 0)) v i = app n A v i - z * v i.
Proof.
  intros Hi. unfold app. rewrite (csum_ext n _ (fun j => A i j * v j + (if Nat.eqb i j then - z * v j else 0))).
  - rewrite csum_plus. rewrite (csum_one n (fun j => if Nat.eqb i j then _ else _) i) by (try lia; intros k _ Hk; destruct (Nat.eqb_spec i k); try congruence; auto).
    rewrite Nat.eqb_refl. ring.
  - intros j _. destruct (Nat.eqb i j); ring.
Qed.
Lemma shift_coapp n A z w j : (j < n)%nat ->
  coapp n (fun i j => A i j - (if Nat.eqb i j then z else RtoC 0)) w j = coapp n A w j - z * w j.
Proof.
  intros Hj. unfold coapp. rewrite (csum_ext n _ (fun i => w i * A i j + (if Nat.eqb i j then - z * w i else 0))).
  - rewrite csum_plus. rewrite (csum_one n (fun i => if Nat.eqb i j then _ else _) j) by (try lia; intros k _ Hk; destruct (Nat.eqb_spec k j); try congruence; auto).
    rewrite Nat.eqb_refl. ring.
  - intros i _. destruct (Nat.eqb i j); ring.
Qed.
Lemma right_to_left n A z v : rightEigen n A z v -> exists w, leftEigen n A z w.
Proof.
  intros [Hnz H]. destruct (kernel_sides n (fun i j => A i j - (if Nat.eqb i j then z else RtoC 0))) as [w [Hw Hk]].
  - exists v. split; auto. intros i Hi. rewrite shift_app, H by auto. ring.
  - exists w. split; auto. intros j Hj. specialize (Hk j Hj). rewrite shift_coapp in Hk by auto.
    replace (coapp n A w j) with (coapp n A w j - z * w j + z * w j) by ring. rewrite Hk. ring.
Qed.
Lemma coapp_app n A w j : coapp n A w j = app n (fun i k => A k i) w j.
Proof. unfold coapp, app. apply csum_ext. intros. ring. Qed.
Lemma left_to_right n A z w : leftEigen n A z w -> exists v, rightEigen n A z v.
Proof.
  intros [Hnz H]. destruct (right_to_left n (fun i k => A k i) z w) as [v [Hv Hl]].
  - split; auto. intros i Hi. rewrite <- coapp_app. auto.
  - exists v. split; auto. intros i Hi. rewrite <- (Hl i Hi). unfold app, coapp. apply csum_ext. intros. ring.
Qed.

(** ** Chebyshev polynomials *)
Lemma chebT2_eq x k : chebT2 x k = (chebT x k, chebT x (S k)).
Proof. unfold chebT. simpl. destruct (chebT2 x k). reflexivity. Qed.
Lemma chebT_rec x k : chebT x (S (S k)) = 2 * x * chebT x (S k) - chebT x k.
Proof. unfold chebT at 1. simpl. rewrite chebT2_eq. reflexivity. Qed.
Lemma half2 : RtoC (1 / 2) = / 2.
Proof. rewrite RtoC_div by lra. field. apply RtoC_nz. lra. Qed.
Lemma C2_nz : RtoC 2 <> 0.
Proof. apply RtoC_nz. lra. Qed.

Section Colleague.
  Variable n : nat.
  Hypothesis Hn : (2 <= n)%nat.
  Variable c : nat -> C.
  Hypothesis Hcn : c n <> 0.
  Variable X : cmat.
  Hypothesis HX : forall i j, (i < n)%nat -> (j < n)%nat ->
    X i j = (if Nat.eqb i (j + 1) then (if Nat.eqb j 0 then RtoC 1 else / 2) else 0) + (if Nat.eqb j (i + 1) then / 2 else 0)
            - (if Nat.eqb j (n - 1) then / 2 * c i / c n else 0).
  Definition p (x : C) : C := csum (S n) (fun i => c i * chebT x i).

  Lemma coll_coapp w j : (j < n)%nat ->
    coapp n X w j = (if Nat.eqb j 0 then w 1%nat else / 2 * w (j - 1)%nat + (if Nat.ltb (j + 1) n then / 2 * w (j + 1)%nat else 0))
                    - (if Nat.eqb j (n - 1) then / 2 / c n * csum n (fun i => c i * w i) else 0).
  Proof.
    intros Hj. unfold coapp.
    rewrite (csum_ext n _ (fun i => ((if Nat.eqb i (j + 1) then (if Nat.eqb j 0 then RtoC 1 else / 2) * w i else 0)
       + (if Nat.eqb j (i + 1) then / 2 * w i else 0)) + (if Nat.eqb j (n - 1) then - (/ 2 / c n) else 0) * (c i * w i))).
    2:{ intros i Hi. rewrite HX by auto. destruct (Nat.eqb i (j + 1)), (Nat.eqb j (i + 1)), (Nat.eqb j (n - 1)), (Nat.eqb j 0); field; repeat split; auto using C2_nz. }
    rewrite csum_plus, csum_scal, csum_plus.
    destruct (Nat.eqb_spec j 0) as [->|Hj0].
    - rewrite (csum_one n (fun i => if Nat.eqb i (0 + 1) then _ else _) 1) by (try lia; intros i _ Hi; destruct (Nat.eqb_spec i (0 + 1)); try lia; auto).
      rewrite csum_zero by (intros i _; destruct (Nat.eqb_spec 0 (i + 1)); [lia|auto]).
      destruct (Nat.eqb_spec 0 (n - 1)); [lia|]. cbn [Nat.eqb Nat.add]. ring.
    - rewrite (csum_one n (fun i => if Nat.eqb j (i + 1) then _ else _) (j - 1)) by (try lia; intros i _ Hi; destruct (Nat.eqb_spec j (i + 1)); try lia; auto).
      replace (Nat.eqb j (j - 1 + 1)) with true by (symmetry; apply Nat.eqb_eq; lia).
      destruct (Nat.ltb_spec (j + 1) n).
      + rewrite (csum_one n (fun i => if Nat.eqb i (j + 1) then _ else _) (j + 1)) by (try lia; intros i _ Hi; destruct (Nat.eqb_spec i (j + 1)); try lia; auto).
        rewrite Nat.eqb_refl. destruct (Nat.eqb j (n - 1)); ring.
      + rewrite (csum_zero n (fun i => if Nat.eqb i (j + 1) then _ else _)) by (intros i Hi; destruct (Nat.eqb_spec i (j + 1)); [lia|auto]).
        destruct (Nat.eqb j (n - 1)); ring.
  Qed.
  Lemma cheb_coapp x j : (j < n)%nat ->
    coapp n X (chebT x) j = x * chebT x j - (if Nat.eqb j (n - 1) then / 2 / c n * p x else 0).
  Proof.
    intros Hj. rewrite coll_coapp by auto. unfold p.
    destruct (Nat.eqb_spec j 0) as [->|Hj0].
    - destruct (Nat.eqb_spec 0 (n - 1)); [lia|]. unfold chebT; simpl. ring.
    - destruct j as [|j]; [tauto|]. replace (S j - 1)%nat with j by lia.
      destruct (Nat.ltb_spec (S j + 1) n).
      + destruct (Nat.eqb_spec (S j) (n - 1)); [lia|]. replace (S j + 1)%nat with (S (S j)) by lia. rewrite chebT_rec. field. apply C2_nz.
      + replace (Nat.eqb (S j) (n - 1)) with true by (symmetry; apply Nat.eqb_eq; lia).
        simpl csum. assert (En : chebT x n = 2 * x * chebT x (S j) - chebT x j) by (replace n with (S (S j)) by lia; apply chebT_rec).
        rewrite En. field; repeat split; auto using C2_nz.
  Qed.
  (** a left eigenvector is a multiple of T_0(x), ..., T_{n-1}(x) at a zero x *)
  Lemma coll_left x w : leftEigen n X x w -> w 0%nat <> 0 /\ w 1%nat = x * w 0%nat /\ p x = 0.
  Proof.
    intros [Hnz He].
    assert (Hw : forall k, (k < n)%nat -> w k = w 0%nat * chebT x k /\ ((S k < n)%nat -> w (S k) = w 0%nat * chebT x (S k))).
    { induction k; intros Hk.
      - split; [unfold chebT; simpl; ring|]. intros H1. specialize (He 0%nat ltac:(lia)). rewrite coll_coapp in He by lia.
        destruct (Nat.eqb_spec 0 (n - 1)); [lia|]. simpl in He. replace (w 1%nat) with (w 1%nat - 0) by ring. rewrite He. unfold chebT; simpl. ring.
      - destruct (IHk ltac:(lia)) as [H1 H2]. specialize (H2 Hk). split; auto. intros Hk2.
        specialize (He (S k) Hk). rewrite coll_coapp in He by lia. replace (S k - 1)%nat with k in He by lia. simpl (Nat.eqb (S k) 0) in He.
        destruct (Nat.ltb_spec (S k + 1) n); [|lia]. destruct (Nat.eqb_spec (S k) (n - 1)); [lia|].
        replace (S k + 1)%nat with (S (S k)) in He by lia. cbv iota in He.
        replace (w (S (S k))) with (2 * (/ 2 * w k + / 2 * w (S (S k)) - 0) - w k) by (field; apply C2_nz).
        rewrite He, H1, H2, chebT_rec. ring. }
    assert (Hw0 : w 0%nat <> 0).
    { intros E. destruct Hnz as [k [Hk Hwk]]. apply Hwk. destruct (Hw k Hk) as [-> _]. rewrite E. ring. }
    split; auto. split.
    - destruct (Hw 0%nat ltac:(lia)) as [_ H1]. rewrite H1 by lia. unfold chebT; simpl. ring.
    - specialize (He (n - 1)%nat ltac:(lia)).
      assert (E : coapp n X w (n - 1) = w 0%nat * coapp n X (chebT x) (n - 1)).
      { unfold coapp. rewrite <- csum_scal. apply csum_ext. intros i Hi. destruct (Hw i Hi) as [-> _]. ring. }
      rewrite E, cheb_coapp, Nat.eqb_refl in He by lia. destruct (Hw (n - 1)%nat ltac:(lia)) as [H1 _]. rewrite H1 in He.
      assert (E2 : w 0%nat * p x = 0).
      { replace (w 0%nat * p x) with (- (2 * c n) * (w 0%nat * (x * chebT x (n - 1) - / 2 / c n * p x) - x * (w 0%nat * chebT x (n - 1)))) by (field; repeat split; auto using C2_nz).
        rewrite He. ring. }
      apply cmult_integral in E2. tauto.
  Qed.
  Lemma coll_zero x : p x = 0 -> leftEigen n X x (chebT x).
  Proof.
    intros H. split.
    - exists 0%nat. split; [lia|]. apply C1_nz.
    - intros j Hj. rewrite cheb_coapp by auto. rewrite H. destruct (Nat.eqb j (n - 1)); ring.
  Qed.
  Lemma coll_eigen x : (exists v, rightEigen n X x v) <-> p x = 0.
  Proof.
    split.
    - intros [v Hv]. destruct (right_to_left _ _ _ _ Hv) as [w Hw]. now apply coll_left in Hw.
    - intros H. apply (left_to_right n X x (chebT x)). now apply coll_zero.
  Qed.

  (** *** the inverse *)
  Section Inverse.
    Variable D : cmat.
    Variable s : C.
    Hypothesis Hs : s <> 0.
    Hypothesis H0 : forall i, (i < n)%nat -> app n X (fun k => D k 0%nat) i = if Nat.eqb i 0 then s else 0.
    Hypothesis H1 : forall i, (i < n)%nat -> D i 1%nat = if Nat.eqb i 0 then s else 0.
    Hypothesis H2 : forall i j, (i < n)%nat -> (S (S j) < n)%nat -> D i (S (S j)) + D i j = if Nat.eqb i (S j) then 2 * s else 0.
    Hypothesis Hp0 : p 0 <> 0.

    Lemma app_delta k a i : (k < n)%nat -> app n X (fun q => if Nat.eqb q k then a else 0) i = X i k * a.
    Proof.
      intros Hk. unfold app. rewrite (csum_one n _ k) by (try lia; intros q _ Hq; apply Nat.eqb_neq in Hq; rewrite Hq; ring).
      now rewrite Nat.eqb_refl.
    Qed.
    Lemma XD i j : (i < n)%nat -> (j < n)%nat -> app n X (fun k => D k j) i = if Nat.eqb i j then s else 0.
    Proof.
      intros Hi. revert j.
      assert (H : forall j, ((j < n)%nat -> app n X (fun k => D k j) i = if Nat.eqb i j then s else 0) /\
                            ((S j < n)%nat -> app n X (fun k => D k (S j)) i = if Nat.eqb i (S j) then s else 0)).
      { induction j.
        - split; intros Hj; [now apply H0|].
          unfold app. rewrite (csum_ext n _ (fun q => X i q * (if Nat.eqb q 0 then s else 0))) by (intros q Hq; now rewrite H1).
          fold (app n X (fun q => if Nat.eqb q 0 then s else 0) i). rewrite app_delta by lia. rewrite HX by lia.
          destruct (Nat.eqb_spec 0 (n - 1)); [lia|]. destruct (Nat.eqb_spec 0 (i + 1)); [lia|]. simpl.
          destruct (Nat.eqb i 1); ring.
        - destruct IHj as [Ha Hb]. split; [exact Hb|]. intros Hj.
          unfold app. rewrite (csum_ext n _ (fun q => X i q * (if Nat.eqb q (S j) then 2 * s else 0) + (- 1) * (X i q * D q j))).
          2:{ intros q Hq. rewrite <- (H2 q j) by lia. replace (RtoC (- 1)) with (- RtoC 1) by (now rewrite <- RtoC_opp). ring. }
          rewrite csum_plus, csum_scal. fold (app n X (fun q => if Nat.eqb q (S j) then 2 * s else 0) i). fold (app n X (fun q => D q j) i).
          rewrite app_delta, Ha, HX by lia. replace (RtoC (- 1)) with (- RtoC 1) by (now rewrite <- RtoC_opp).
          destruct (Nat.eqb_spec (S j) (n - 1)); [lia|]. simpl (Nat.eqb (S j) 0).
          replace (S j + 1)%nat with (S (S j)) by lia.
          replace (Nat.eqb (S j) (i + 1)) with (Nat.eqb i j) by (destruct (Nat.eqb_spec i j), (Nat.eqb_spec (S j) (i + 1)); auto; lia).
          destruct (Nat.eqb_spec i (S (S j))), (Nat.eqb_spec i j); try lia; field; apply C2_nz. }
      intros j Hj. now apply H.
    Qed.
    Lemma X_injective v : (forall i, (i < n)%nat -> app n X v i = 0) -> forall i, (i < n)%nat -> v i = 0.
    Proof.
      intros H i Hi. apply NNPP. intros E. apply Hp0. apply coll_eigen. exists v. split; [exists i; auto|].
      intros k Hk. rewrite H by auto. ring.
    Qed.
    Lemma app_lin v u a i : app n X (fun k => v k + a * u k) i = app n X v i + a * app n X u i.
    Proof. unfold app. rewrite <- csum_scal, <- csum_plus. apply csum_ext. intros; ring. Qed.
    Lemma DX i j : (i < n)%nat -> (j < n)%nat -> csum n (fun k => D i k * X k j) = if Nat.eqb i j then s else 0.
    Proof.
      intros Hi Hj.
      assert (E : forall q, (q < n)%nat -> csum n (fun k => D q k * X k j) + (- s) * (if Nat.eqb q j then RtoC 1 else 0) = 0).
      { apply (X_injective (fun q => csum n (fun k => D q k * X k j) + (- s) * (if Nat.eqb q j then RtoC 1 else 0))). intros r Hr.
        rewrite (app_lin (fun q => csum n (fun k => D q k * X k j)) (fun q => if Nat.eqb q j then RtoC 1 else 0) (- s)).
        rewrite app_delta by auto.
        replace (app n X (fun q => csum n (fun k => D q k * X k j)) r) with (s * X r j); [ring|].
        unfold app. symmetry.
        rewrite (csum_ext n _ (fun q => csum n (fun k => X r q * (D q k * X k j)))) by (intros; now rewrite csum_scal).
        rewrite csum_swap. rewrite (csum_ext n _ (fun k => X k j * app n X (fun q => D q k) r)).
        2:{ intros k Hk. unfold app. rewrite <- csum_scal. apply csum_ext. intros; ring. }
        rewrite (csum_ext n _ (fun k => X k j * (if Nat.eqb r k then s else 0))) by (intros k Hk; now rewrite XD).
        rewrite (csum_one n _ r) by (try lia; intros k _ Hk; destruct (Nat.eqb_spec r k); try congruence; ring).
        rewrite Nat.eqb_refl. ring. }
      specialize (E i Hi). cbv beta in E.
      replace (csum n (fun k => D i k * X k j)) with (csum n (fun k => D i k * X k j) + - s * (if Nat.eqb i j then RtoC 1 else 0) + s * (if Nat.eqb i j then RtoC 1 else 0)) by ring.
      rewrite E. destruct (Nat.eqb i j); ring.
    Qed.
    Lemma coapp_prod A B w j : coapp n B (coapp n A w) j = csum n (fun i => w i * csum n (fun k => A i k * B k j)).
    Proof.
      unfold coapp.
      rewrite (csum_ext n _ (fun k => csum n (fun i => w i * (A i k * B k j)))).
      - rewrite csum_swap. apply csum_ext. intros i _. now rewrite csum_scal.
      - intros k _. rewrite Cmult_comm, <- csum_scal. apply csum_ext. intros; ring.
    Qed.
    Lemma coapp_scaled A w u a j : (forall i, (i < n)%nat -> w i = a * u i) -> coapp n A w j = a * coapp n A u j.
    Proof. intros H. unfold coapp. rewrite <- csum_scal. apply csum_ext. intros i Hi. rewrite H by auto. ring. Qed.
    Lemma scaled_identity w (P : nat -> nat -> C) j : (j < n)%nat ->
      (forall i, (i < n)%nat -> P i j = if Nat.eqb i j then s else 0) -> csum n (fun i => w i * P i j) = s * w j.
    Proof.
      intros Hj H. rewrite (csum_one n _ j); auto.
      - rewrite H, Nat.eqb_refl by auto. ring.
      - intros i Hi Hij. rewrite H by auto. apply Nat.eqb_neq in Hij. rewrite Hij. ring.
    Qed.
    Lemma inv_left m w : leftEigen n D m w -> m <> 0 /\ leftEigen n X (s / m) w.
    Proof.
      intros [Hnz He].
      assert (E : forall j, (j < n)%nat -> m * coapp n X w j = s * w j).
      { intros j Hj. rewrite <- (coapp_scaled X (coapp n D w) w m j He). rewrite coapp_prod.
        apply (scaled_identity w (fun i j => csum n (fun k => D i k * X k j))); auto. intros i Hi. now apply DX. }
      assert (Hm : m <> 0).
      { intros ->. destruct Hnz as [k [Hk Hw]]. specialize (E k Hk). rewrite Cmult_0_l in E. symmetry in E.
        apply cmult_integral in E. tauto. }
      split; auto. split; auto. intros j Hj. specialize (E j Hj).
      replace (coapp n X w j) with (m * coapp n X w j / m) by (field; auto). rewrite E. field. auto.
    Qed.
    Lemma inv_zero x : p x = 0 -> x <> 0 /\ leftEigen n D (s / x) (chebT x).
    Proof.
      intros H. destruct (coll_zero x H) as [Hnz He].
      assert (Hx : x <> 0) by (intros ->; tauto). split; auto. split; auto. intros j Hj.
      assert (E : x * coapp n D (chebT x) j = s * chebT x j).
      { rewrite <- (coapp_scaled D (coapp n X (chebT x)) (chebT x) x j He). rewrite coapp_prod.
        apply (scaled_identity (chebT x) (fun i j => csum n (fun k => X i k * D k j))); auto. intros i Hi. now apply XD. }
      replace (coapp n D (chebT x) j) with (x * coapp n D (chebT x) j / x) by (field; auto). rewrite E. field. auto.
    Qed.
    Lemma inv_eigen m : (exists v, rightEigen n D m v) <-> m <> 0 /\ p (s / m) = 0.
    Proof.
      split.
      - intros [v Hv]. destruct (right_to_left _ _ _ _ Hv) as [w Hw]. apply inv_left in Hw. destruct Hw as [Hm Hw].
        split; auto. now apply coll_left in Hw.
      - intros [Hm H]. destruct (inv_zero _ H) as [Hx Hw]. apply (left_to_right n D m (chebT (s / m))).
        replace (s / (s / m)) with m in Hw; auto. field. split; auto.
    Qed.
  End Inverse.
End Colleague.
