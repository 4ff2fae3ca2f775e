(** * Newton's method: derivatives along lines *)
From Coq Require Import Reals List Lia Lra Arith Bool.
From Coquelicot Require Import Coquelicot.
From Verif Require Import Num RSum Cheb Tensor PolySpec TransformModel TransformNDProofs PolyModel PolyEval PolyArith PolyCheb PolyGrad PolyProps.
Import ListNotations.
Local Open Scope R_scope.

(** ** functions of one variable that are polynomials *)
Inductive polyfun : (R -> R) -> Prop :=
| pf_const c : polyfun (fun _ => c)
| pf_id : polyfun (fun t => t)
| pf_plus f h : polyfun f -> polyfun h -> polyfun (fun t => f t + h t)
| pf_mult f h : polyfun f -> polyfun h -> polyfun (fun t => f t * h t).
Lemma polyfun_derive f : polyfun f -> exists f', polyfun f' /\ forall t, is_derive f t (f' t).
Proof.
  induction 1 as [c| |f h Hf (f' & Pf & Df) Hh (h' & Ph & Dh)|f h Hf (f' & Pf & Df) Hh (h' & Ph & Dh)].
  - exists (fun _ => 0). split; [constructor|]. intros t. apply (is_derive_const (K := R_AbsRing) (V := R_NormedModule)).
  - exists (fun _ => 1). split; [constructor|]. intros t. apply (is_derive_id (K := R_AbsRing)).
  - exists (fun t => f' t + h' t). split; [constructor; auto|]. intros t. apply (is_derive_plus (K := R_AbsRing) (V := R_NormedModule)); auto.
  - exists (fun t => f' t * h t + f t * h' t). split; [repeat constructor; auto|]. intros t. apply (is_derive_mult (K := R_AbsRing)); auto. intros; apply Rmult_comm.
Qed.
Lemma ex_derive_n_same f h n t : (forall v, f v = h v) -> ex_derive_n f n t -> ex_derive_n h n t.
Proof. intros E. apply ex_derive_n_ext. auto. Qed.
Lemma polyfun_ext_derive n : forall f h, polyfun f -> (forall v, f v = h v) -> forall t, ex_derive_n h n t.
Proof.
  induction n as [|n IH]; intros f h P E t; [exact I|]. destruct (polyfun_derive f P) as (f' & P' & D).
  destruct n as [|n]; [exists (f' t); apply (is_derive_ext f); auto|].
  assert (DE : forall v, Derive h v = f' v) by (intros v; apply is_derive_unique; apply (is_derive_ext f); auto).
  assert (X : ex_derive_n (Derive h) (S n) t) by (apply (IH f'); auto).
  cbn [ex_derive_n] in *. eapply (ex_derive_ext (Derive_n (Derive h) n)); [|exact X].
  intros v. replace (S n) with (n + 1)%nat by lia. rewrite <- (Derive_n_comp h n 1). reflexivity.
Qed.

(** ** multivariate polynomials along a line *)
Definition line (x d : list R) (t : R) : list R := map (fun p => fst p + t * snd p) (combine x d).
Lemma line_length x d t : length d = length x -> length (line x d t) = length x.
Proof. intros H. unfold line. rewrite map_length, combine_length, H. apply Nat.min_id. Qed.
Section Basis.
  Variables (phi phi' : nat -> R -> R).
  Hypothesis Hd : forall k v, derivable_pt_lim (phi k) v (phi' k v).
  (** derivative of a product of basis functions in variable d *)
  Fixpoint dbasis (d : nat) (idx : list nat) (x : list R) : R :=
    match idx, x, d with
    | i :: idx', v :: x', O => phi' i v * basis phi idx' x'
    | i :: idx', v :: x', S d' => phi i v * dbasis d' idx' x'
    | _, _, _ => 0
    end.
  Lemma dbasis_partial : forall d idx x, length idx = length x -> derivable_pt_lim (fun v => basis phi idx (upd x d v)) (nth d x 0) (dbasis d idx x).
  Proof.
    induction d as [|d IH]; intros [|i idx] [|v x] HL; try discriminate; cbn [upd nth dbasis].
    - cbn [basis]. apply derivable_pt_lim_const.
    - apply (dlim_ext (fun w => basis phi idx x * phi i w)); [intros; cbn [basis]; ring|]. rewrite Rmult_comm. apply dlim_scal, Hd.
    - cbn [basis]. apply derivable_pt_lim_const.
    - apply (dlim_ext (fun w => phi i v * basis phi idx (upd x d w))); [intros; cbn [basis]; ring|]. apply dlim_scal, IH. cbn in HL. lia.
  Qed.
  Lemma dbasis_line : forall idx x e t, length idx = length x -> length e = length x ->
    derivable_pt_lim (fun t => basis phi idx (line x e t)) t (sumn (length x) (fun d => nth d e 0 * dbasis d idx (line x e t))).
  Proof.
    induction idx as [|i idx IH]; intros [|v x] [|w e] t HL HE; try discriminate; cbn [length].
    - cbn. apply derivable_pt_lim_const.
    - rewrite sumn_S_l. cbn [line combine map fst snd nth dbasis]. fold (line x e t).
      assert (A : derivable_pt_lim (fun t => phi i (v + t * w)) t (w * phi' i (v + t * w))).
      { assert (L : derivable_pt_lim (fun t => v + t * w) t w).
        { pose proof (derivable_pt_lim_plus (fun t => w * t) (fun _ => v) t (w * 1) 0 (dlim_scal w (fun t => t) t 1 (derivable_pt_lim_id t)) (derivable_pt_lim_const v t)) as Q.
          replace (w * 1 + 0) with w in Q by ring. eapply dlim_ext; [|exact Q]. intros s. unfold plus_fct. ring. }
        rewrite Rmult_comm. exact (derivable_pt_lim_comp (fun t => v + t * w) (phi i) t _ _ L (Hd i (v + t * w))). }
      assert (B := IH x e t ltac:(cbn in HL; lia) ltac:(cbn in HE; lia)).
      pose proof (derivable_pt_lim_mult _ _ _ _ _ A B) as C. eapply dlim_ext; [|replace (w * _ + _) with (w * phi' i (v + t * w) * basis phi idx (line x e t) + phi i (v + t * w) * sumn (length x) (fun d => nth d e 0 * dbasis d idx (line x e t))); [exact C|]].
      + intros s. reflexivity.
      + rewrite <- (sumn_scal (length x) (phi i (v + t * w)) (fun d => nth d e 0 * dbasis d idx (line x e t))).
        rewrite (sumn_ext (length x) (fun d => nth d e 0 * (phi i (v + t * w) * dbasis d idx (line x e t))) (fun d => phi i (v + t * w) * (nth d e 0 * dbasis d idx (line x e t)))) by (intros; ring). ring.
  Qed.
  Lemma eval_line (t : tensor R) x e (out : list R) : length x = ndim t -> length e = length x -> 
    (forall d, (d < ndim t)%nat -> partial_deriv (evalT phi t) d x (nth d out 0)) ->
    derivable_pt_lim (fun s => evalT phi t (line x e s)) 0 (sumn (length x) (fun d => nth d out 0 * nth d e 0)).
  Proof.
    intros Lx Le HP. unfold evalT.
    assert (L0 : line x e 0 = x).
    { clear -Le. revert e Le. induction x as [|v x IH]; intros [|w e] L; try discriminate; auto. cbn [line combine map fst snd]. rewrite Rmult_0_l, Rplus_0_r. f_equal. apply IH. cbn in L. lia. }
    assert (E : forall d, (d < ndim t)%nat -> nth d out 0 = sumidx (shp t) (fun idx => tget t idx * dbasis d idx x)).
    { intros d Hdd. apply (uniqueness_limite (fun v => evalT phi t (upd x d v)) (nth d x 0)); [apply HP; auto|]. unfold evalT.
      apply (dlim_sumidx (shp t) (fun idx v => tget t idx * basis phi idx (upd x d v))). intros r Hr. apply dlim_scal, dbasis_partial. apply inrange_length in Hr. unfold ndim in Lx. lia. }
    replace (sumn (length x) (fun d => nth d out 0 * nth d e 0)) with (sumidx (shp t) (fun idx => tget t idx * sumn (length x) (fun d => nth d e 0 * dbasis d idx (line x e 0)))).
    - apply (dlim_sumidx (shp t) (fun idx s => tget t idx * basis phi idx (line x e s))). intros r Hr. apply dlim_scal, dbasis_line; auto. apply inrange_length in Hr. unfold ndim in Lx. lia.
    - rewrite L0. rewrite (sumidx_ext (shp t) _ (fun idx => sumn (length x) (fun d => nth d e 0 * (tget t idx * dbasis d idx x)))).
      2:{ intros idx _. rewrite <- sumn_scal. apply sumn_ext. intros; ring. }
      rewrite sumidx_sumn. apply sumn_ext. intros d Hdd. rewrite E by lia. rewrite sumidx_scal. ring.
  Qed.
  Hypothesis Hpoly : forall k v w, polyfun (fun s => phi k (v + s * w)) \/ exists f, polyfun f /\ forall s, f s = phi k (v + s * w).
  Lemma basis_poly : forall idx x e, exists f, polyfun f /\ forall s, f s = basis phi idx (line x e s).
  Proof.
    induction idx as [|i idx IH]; intros x e; [exists (fun _ => 1); split; [constructor|reflexivity]|].
    destruct x as [|v x]; [exists (fun _ => 1); split; [constructor|reflexivity]|]. destruct e as [|w e]; [exists (fun _ => 1); split; [constructor|reflexivity]|].
    destruct (IH x e) as (f & P & E). assert (X : exists f, polyfun f /\ forall s, f s = phi i (v + s * w)) by (destruct (Hpoly i v w); eauto). destruct X as (f0 & P0 & E0).
    exists (fun s => f0 s * f s). split; [constructor; auto|]. intros s. cbn [line combine map fst snd basis]. rewrite E0, E. reflexivity.
  Qed.
  Lemma sumidx_poly : forall s (F : list nat -> R -> R), (forall idx, exists f, polyfun f /\ forall t, f t = F idx t) -> exists f, polyfun f /\ forall t, f t = sumidx s (fun idx => F idx t).
  Proof.
    induction s as [|n s IH]; intros F H; cbn [sumidx]; [apply H|]. induction n as [|n IHn]; cbn [sumn]; [exists (fun _ => 0); split; [constructor|reflexivity]|].
    destruct IHn as (f & P & E). destruct (IH (fun r => F (n :: r))) as (h & Q & E2); [intros; apply H|]. exists (fun t => f t + h t). split; [constructor; auto|]. intros t. rewrite E, E2. reflexivity.
  Qed.
  Lemma evalT_poly (t : tensor R) x e : exists f, polyfun f /\ forall s, f s = evalT phi t (line x e s).
  Proof.
    unfold evalT. apply (sumidx_poly (shp t) (fun idx s => tget t idx * basis phi idx (line x e s))). intros idx. destruct (basis_poly idx x e) as (f & P & E).
    exists (fun s => tget t idx * f s). split; [constructor; [constructor|auto]|]. intros s. rewrite E. reflexivity.
  Qed.
End Basis.
Lemma pw_poly k v w : exists f, polyfun f /\ forall s, f s = pw k (v + s * w).
Proof.
  unfold pw. induction k as [|k (f & P & E)]; [exists (fun _ => 1); split; [constructor|reflexivity]|].
  exists (fun s => (v + s * w) * f s). split; [constructor; auto; constructor; [constructor|constructor; constructor]|]. intros s. rewrite E. reflexivity.
Qed.
Lemma chebT_poly k v w : exists f, polyfun f /\ forall s, f s = chebT k (v + s * w).
Proof.
  induction k as [| |k (f & P & E) (h & Q & E2)] using nat_ind2.
  - exists (fun _ => 1). split; [constructor|reflexivity].
  - exists (fun s => v + s * w). split; [constructor; [constructor|constructor; constructor]|reflexivity].
  - exists (fun s => (2 * (v + s * w)) * h s + (-1) * f s). split; [repeat constructor; auto|]. intros s. rewrite E, E2, chebT_SS. ring.
Qed.
Lemma pw_deriv k v : derivable_pt_lim (pw k) v (INR k * v ^ pred k).
Proof. apply derivable_pt_lim_pow. Qed.

(** the residual after a step that zeroes the linear part *)
Lemma second_order h K : (forall t, ex_derive_n h 1 t) -> (forall t, ex_derive_n h 2 t) -> is_derive h 0 (- h 0) ->
  (forall t, 0 <= t <= 1 -> Rabs (Derive_n h 2 t) <= K) -> Rabs (h 1) <= K / 2.
Proof.
  intros H1 H2 HD HK. destruct (Taylor_Lagrange h 1 0 1 ltac:(lra)) as (z & Hz & E).
  - intros t Ht k Hk. destruct k as [|[|[|k]]]; [exact I|apply H1|apply H2|lia].
  - rewrite E. cbn [sum_f_R0]. change (Derive_n h 0 0) with (h 0). change (Derive_n h 1 0) with (Derive h 0). rewrite (is_derive_unique h 0 _ HD).
    cbn [pow fact INR Nat.add Nat.mul]. rewrite Rminus_0_r.
    match goal with |- Rabs ?x <= _ => replace x with (Derive_n h 2 z / 2) by field end.
    unfold Rdiv. rewrite Rabs_mult, (Rabs_pos_eq (/ 2)) by lra. apply Rmult_le_compat_r; [lra|]. apply HK. lra.
Qed.
