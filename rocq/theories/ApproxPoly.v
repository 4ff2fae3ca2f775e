(** * A polynomial object on any box is a Chebyshev series of the same shape (over R) *)
From Coq Require Import Reals List Lia Lra Arith ZArith Bool.
From Verif Require Import Num Tensor RSum Cheb PolySpec CombinedModel CombinedSpec ApproxModel ApproxInterp.
From Verif Require PolyModel PolyArith PolyEval PolyCheb PolyProps.
Import ListNotations.
Local Open Scope R_scope.

Definition inSpan (n : nat) (h : R -> R) : Prop := exists c : nat -> R, forall y, h y = sumn n (fun k => c k * chebT k y).
Lemma span_ext n h h' : (forall y, h y = h' y) -> inSpan n h -> inSpan n h'.
Proof. intros E (c & H). exists c. intros y. rewrite <- E. apply H. Qed.
Lemma span_T n k : (k < n)%nat -> inSpan n (chebT k).
Proof.
  intros H. exists (fun j => if Nat.eqb j k then 1 else 0). intros y. rewrite (sumn_single n k); auto.
  - rewrite Nat.eqb_refl. ring.
  - intros i _ Hi. destruct (Nat.eqb_spec i k); [contradiction|ring].
Qed.
Lemma span_add n h h' : inSpan n h -> inSpan n h' -> inSpan n (fun y => h y + h' y).
Proof. intros (c & H) (c' & H'). exists (fun k => c k + c' k). intros y. rewrite H, H', <- sumn_plus. apply sumn_ext. intros. ring. Qed.
Lemma span_scal n u h : inSpan n h -> inSpan n (fun y => u * h y).
Proof. intros (c & H). exists (fun k => u * c k). intros y. rewrite H, <- sumn_scal. apply sumn_ext. intros. ring. Qed.
Lemma span_0 n : inSpan n (fun _ => 0).
Proof. exists (fun _ => 0). intros y. symmetry. apply sumn_zero. intros. ring. Qed.
Lemma span_mono n m h : (n <= m)%nat -> inSpan n h -> inSpan m h.
Proof.
  intros Hnm (c & H). exists (fun k => if Nat.ltb k n then c k else 0). intros y. rewrite H. symmetry. rewrite (sumn_extend n m); auto.
  - apply sumn_ext. intros i Hi. destruct (Nat.ltb_spec i n); [reflexivity|lia].
  - intros i Hi. destruct (Nat.ltb_spec i n); [lia|ring].
Qed.
Lemma span_x n h : inSpan n h -> inSpan (S n) (fun y => y * h y).
Proof.
  intros (c & H). apply (span_ext _ (fun y => y * sumn n (fun k => c k * chebT k y))); [intros; rewrite H; reflexivity|]. clear h H.
  induction n as [|n IH].
  - apply (span_ext _ (fun _ => 0)); [intros; cbn [sumn]; ring|apply span_0].
  - apply (span_ext _ (fun y => y * sumn n (fun k => c k * chebT k y) + c n * (y * chebT n y))); [intros; cbn [sumn]; ring|].
    apply span_add; [apply (span_mono (S n)); auto|]. apply span_scal. destruct n as [|n].
    + apply (span_ext _ (chebT 1)); [intros; rewrite chebT_0, chebT_1; ring|apply span_T; lia].
    + apply (span_ext _ (fun y => / 2 * (chebT (S (S n)) y + chebT n y))); [intros; rewrite <- chebT_mul2x; field|].
      apply span_scal, span_add; apply span_T; lia.
Qed.
(** a basis that becomes a Chebyshev series under every affine substitution *)
Definition affineBasis (phi : nat -> R -> R) : Prop := forall u v m, inSpan (S m) (fun y => phi m (u * y + v)).
Lemma cheb_affine : affineBasis chebT.
Proof.
  intros u v m. enough (inSpan (S m) (fun y => chebT m (u * y + v)) /\ inSpan (S (S m)) (fun y => chebT (S m) (u * y + v))) by tauto.
  induction m as [|m [I1 I2]].
  - split.
    + apply (span_ext _ (chebT 0)); [reflexivity|apply span_T; lia].
    + apply (span_ext _ (fun y => u * chebT 1 y + v * chebT 0 y)); [intros; rewrite !chebT_1, chebT_0; ring|].
      apply span_add; apply span_scal, span_T; lia.
  - split; [exact I2|].
    apply (span_ext _ (fun y => 2 * u * (y * chebT (S m) (u * y + v)) + (2 * v * chebT (S m) (u * y + v) + -1 * chebT m (u * y + v))));
      [intros; rewrite chebT_SS; ring|].
    apply span_add; [apply span_scal, span_x; exact I2|].
    apply span_add; apply span_scal; eapply span_mono; [|exact I2| |exact I1]; lia.
Qed.
Lemma pow_affine : affineBasis (fun i v => v ^ i).
Proof.
  intros u v m. induction m as [|m IH].
  - apply (span_ext _ (chebT 0)); [reflexivity|apply span_T; lia].
  - apply (span_ext _ (fun y => u * (y * (u * y + v) ^ m) + v * (u * y + v) ^ m)); [intros; cbn [pow]; ring|].
    apply span_add; apply span_scal; [apply span_x; exact IH|eapply span_mono; [|exact IH]; lia].
Qed.
Lemma affine_matrix phi u v n : affineBasis phi -> exists A : nat -> nat -> R, forall m, (m < n)%nat -> forall y, phi m (u * y + v) = sumn n (fun k => A m k * chebT k y).
Proof.
  intros H. assert (G : forall j, (j <= n)%nat -> exists A : nat -> nat -> R, forall m, (m < j)%nat -> forall y, phi m (u * y + v) = sumn n (fun k => A m k * chebT k y)).
  { induction j as [|j IH]; intros Hj.
    - exists (fun _ _ => 0). intros; lia.
    - destruct (IH ltac:(lia)) as (A & HA). destruct (span_mono (S j) n _ Hj (H u v j)) as (c & Hc).
      exists (fun m k => if Nat.eqb m j then c k else A m k). intros m Hm y. destruct (Nat.eqb_spec m j) as [->|]; [apply Hc|apply HA; lia]. }
  apply G; auto.
Qed.
Fixpoint aprod (As : list (nat -> nat -> R)) (L K : list nat) : R :=
  match As, L, K with A :: As', l :: L', k :: K' => A l k * aprod As' L' K' | _, _, _ => 1 end.
Lemma affine_matrices phi s : affineBasis phi -> forall a b, length a = length s -> length b = length s ->
  exists As, forall L, inrange s L -> forall y, length y = length s -> basis phi L (boxPoint a b y) = sumidx s (fun K => aprod As L K * basis chebT K y).
Proof.
  intros HB. induction s as [|n s IH]; intros [|u a] [|v b] Ha Hb; simpl in Ha, Hb; try lia.
  - exists []. intros L HL y Hy. inversion HL; subst. simpl. ring.
  - destruct (IH a b ltac:(lia) ltac:(lia)) as (As & HA).
    destruct (affine_matrix phi ((v - u) / 2) ((v + u) / 2) n HB) as (A & HA1).
    exists (A :: As). intros L HL [|y0 y] Hy; [discriminate|]. inversion HL as [|? l ? L' Hl HL']; subst.
    change (boxPoint (u :: a) (v :: b) (y0 :: y)) with (((v - u) * y0 + (v + u)) / 2 :: boxPoint a b y).
    cbn [basis sumidx aprod]. replace (((v - u) * y0 + (v + u)) / 2) with ((v - u) / 2 * y0 + (v + u) / 2) by field.
    rewrite HA1 by auto. rewrite HA by (auto; simpl in Hy; lia).
    rewrite <- sumn_scal_r. apply sumn_ext. intros k Hk. rewrite <- sumidx_scal. apply sumidx_ext. intros K HK. ring.
Qed.
Lemma tensor_series phi (t : tensor R) a b : affineBasis phi -> wf t -> length a = ndim t -> length b = ndim t ->
  exists P, wf P /\ shp P = shp t /\ forall y, length y = ndim t -> sumidx (shp t) (fun L => tget t L * basis phi L (boxPoint a b y)) = cheb_eval P y.
Proof.
  intros HB W Ha Hb. destruct (affine_matrices phi (shp t) HB a b Ha Hb) as (As & HA).
  exists (tbuild (shp t) (fun K => sumidx (shp t) (fun L => tget t L * aprod As L K))).
  split; [apply wf_tbuild; apply W|]. split; [reflexivity|]. intros y Hy.
  unfold cheb_eval. rewrite sumidx_indices. rewrite shp_tbuild.
  rewrite (sumidx_ext _ _ (fun L => sumidx (shp t) (fun K => tget t L * aprod As L K * basis chebT K y))).
  - rewrite PolyArith.sumidx_swap. apply sumidx_ext. intros K HK. rewrite tget_tbuild by auto.
    rewrite <- PolyEval.sumidx_const_mul. reflexivity.
  - intros L HL. rewrite HA by auto. rewrite <- sumidx_scal. apply sumidx_ext. intros. ring.
Qed.

(** a MultiCheb or MultiPower object with n-dimensional coefficients *)
Definition polyObject (n : nat) (f : fobj R) : Prop := exists t, wf t /\ ndim t = n /\ (f = MPower t \/ f = MCheb t).
(** number of coefficients along each axis *)
Definition objShape (f : fobj R) : list nat := match f with MPower t | MCheb t => shp t | _ => [] end.
Lemma callAt_value n f x : polyObject n f -> length x = n -> callAt f x = valueOf f x.
Proof.
  intros (t & W & N & [-> | ->]) L; cbn [callAt valueOf].
  - rewrite (PolyEval.evalAt_eval _ PolyEval.pw) by (try (intros ? ?; apply PolyEval.polyval_R); auto; lia). unfold PolyEval.evalT, power_eval. rewrite sumidx_indices. reflexivity.
  - rewrite (PolyEval.evalAt_eval _ chebT) by (try (intros ? ?; apply PolyEval.chebval_R); auto; lia). unfold PolyEval.evalT, cheb_eval. rewrite sumidx_indices. reflexivity.
Qed.
Lemma boxPoint_length' n a b y : length a = n -> length b = n -> length y = n -> length (boxPoint a b y) = n.
Proof. intros. unfold boxPoint. rewrite map_length, !combine_length. lia. Qed.
Lemma object_series n f a b : polyObject n f -> length a = n -> length b = n ->
  exists P, wf P /\ shp P = objShape f /\ forall y, length y = n -> callAt f (boxPoint a b y) = cheb_eval P y.
Proof.
  intros HO Ha Hb. pose proof HO as (t & W & N & [-> | ->]).
  - destruct (tensor_series (fun i v => v ^ i) t a b pow_affine W) as (P & WP & SP & HP); try lia. exists P. split; [auto|]. split; [auto|].
    intros y Hy. rewrite (callAt_value n) by (auto using boxPoint_length'). rewrite <- HP by lia. cbn [valueOf]. unfold power_eval. rewrite sumidx_indices. reflexivity.
  - destruct (tensor_series chebT t a b cheb_affine W) as (P & WP & SP & HP); try lia. exists P. split; [auto|]. split; [auto|].
    intros y Hy. rewrite (callAt_value n) by (auto using boxPoint_length'). rewrite <- HP by lia. cbn [valueOf]. unfold cheb_eval at 1. rewrite sumidx_indices. reflexivity.
Qed.
