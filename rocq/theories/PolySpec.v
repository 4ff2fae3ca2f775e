(** * What a coefficient tensor means (specification side, over R) *)
From Coq Require Import Reals List Lia Lra Arith.
From Verif Require Import Num Tensor RSum Cheb.
Import ListNotations.
Local Open Scope R_scope.

(** Product over the coordinates of a basis function: prod_j phi (idx_j) (x_j). *)
Fixpoint basis (phi : nat -> R -> R) (idx : list nat) (x : list R) : R :=
  match idx, x with
  | i :: idx', v :: x' => phi i v * basis phi idx' x'
  | _, _ => 1
  end.

(** sum_I c_I prod_j T_{I_j}(x_j) *)
Definition cheb_eval (t : tensor R) (x : list R) : R :=
  Rsum (map (fun idx => tget t idx * basis chebT idx x) (indices (shp t))).

(** sum_I c_I prod_j x_j^{I_j} *)
Definition power_eval (t : tensor R) (x : list R) : R :=
  Rsum (map (fun idx => tget t idx * basis (fun i v => v ^ i) idx x) (indices (shp t))).

(** The cube [-1,1]^n. *)
Definition in_cube (n : nat) (x : list R) : Prop :=
  length x = n /\ Forall (fun v => -1 <= v <= 1) x.

(** sum of the absolute values of all coefficients *)
Definition sumabs (t : tensor R) : R := Rsum (map (fun idx => Rabs (tget t idx)) (indices (shp t))).

(** ** Nested form of sums over multi-indices *)
Fixpoint sumidx (s : list nat) (F : list nat -> R) : R :=
  match s with
  | [] => F []
  | n :: s' => sumn n (fun i => sumidx s' (fun r => F (i :: r)))
  end.

Lemma sumidx_indices s F : Rsum (map F (indices s)) = sumidx s F.
Proof.
  revert F; induction s; intros F.
  - simpl. ring.
  - rewrite indices_cons. simpl sumidx. rewrite <- Rsum_map_seq.
    generalize (seq 0 a). intros l. induction l; [reflexivity|].
    simpl. rewrite map_app, Rsum_app, IHl, map_map. f_equal. apply IHs.
Qed.
Lemma cheb_eval_sumidx t x : cheb_eval t x = sumidx (shp t) (fun idx => tget t idx * basis chebT idx x).
Proof. apply sumidx_indices. Qed.
Lemma power_eval_sumidx t x : power_eval t x = sumidx (shp t) (fun idx => tget t idx * basis (fun i v => v ^ i) idx x).
Proof. apply (sumidx_indices (shp t) (fun idx => tget t idx * basis (fun i v => v ^ i) idx x)). Qed.
Lemma sumabs_sumidx t : sumabs t = sumidx (shp t) (fun idx => Rabs (tget t idx)).
Proof. apply sumidx_indices. Qed.
Lemma tsumabs_R (t : tensor R) : wf t -> @tsumabs R R_num t = sumabs t.
Proof.
  intros H. unfold tsumabs, nsumabs. rewrite nsum_R. rnum. rewrite (dat_tget t H) at 1.
  rewrite map_map. reflexivity.
Qed.

Lemma sumidx_ext s F G : (forall idx, inrange s idx -> F idx = G idx) -> sumidx s F = sumidx s G.
Proof.
  revert F G; induction s; intros F G H; simpl.
  - apply H. constructor.
  - apply sumn_ext. intros i Hi. apply IHs. intros r Hr. apply H. constructor; auto.
Qed.
Lemma sumidx_plus s F G : sumidx s (fun i => F i + G i) = sumidx s F + sumidx s G.
Proof.
  revert F G; induction s; intros F G; simpl; auto.
  rewrite <- sumn_plus. apply sumn_ext. intros. apply IHs.
Qed.
Lemma sumidx_minus s F G : sumidx s (fun i => F i - G i) = sumidx s F - sumidx s G.
Proof.
  revert F G; induction s; intros F G; simpl; auto.
  rewrite <- sumn_minus. apply sumn_ext. intros. apply IHs.
Qed.
Lemma sumidx_scal s c F : sumidx s (fun i => c * F i) = c * sumidx s F.
Proof.
  revert F; induction s; intros F; simpl; auto.
  rewrite <- sumn_scal. apply sumn_ext. intros. apply IHs.
Qed.
Lemma sumidx_0 s : sumidx s (fun _ => 0) = 0.
Proof. induction s; simpl; auto. apply sumn_zero. auto. Qed.
Lemma sumidx_le s F G : (forall idx, inrange s idx -> F idx <= G idx) -> sumidx s F <= sumidx s G.
Proof.
  revert F G; induction s; intros F G H; simpl.
  - apply H. constructor.
  - apply sumn_le. intros i Hi. apply IHs. intros r Hr. apply H. constructor; auto.
Qed.
Lemma sumidx_nonneg s F : (forall idx, inrange s idx -> 0 <= F idx) -> 0 <= sumidx s F.
Proof. intros H. rewrite <- (sumidx_0 s). apply sumidx_le; auto. Qed.
Lemma sumidx_abs s F : Rabs (sumidx s F) <= sumidx s (fun i => Rabs (F i)).
Proof. rewrite <- !sumidx_indices. apply Rsum_map_abs. Qed.
Lemma sumidx_sumn s n (F : nat -> list nat -> R) :
  sumidx s (fun r => sumn n (fun i => F i r)) = sumn n (fun i => sumidx s (F i)).
Proof.
  induction n; simpl; [apply sumidx_0|]. rewrite <- IHn. rewrite sumidx_plus. reflexivity.
Qed.

(** Summing along axis [d] last: the other axes are summed with axis d replaced by size 1. *)
Lemma sumidx_axis s d F : (d < length s)%nat ->
  sumidx s F = sumidx (upd s d 1%nat) (fun r => sumn (nth d s 0%nat) (fun k => F (upd r d k))).
Proof.
  revert d F; induction s; intros d F Hd; [simpl in Hd; lia|]. destruct d.
  - simpl. rewrite Rplus_0_l. rewrite sumidx_sumn. apply sumn_ext. intros i Hi. reflexivity.
  - simpl. apply sumn_ext. intros i Hi. rewrite (IHs d) by (simpl in Hd; lia). reflexivity.
Qed.

(** ** Basis functions *)
Lemma basis_bound phi idx x : (forall i v, -1 <= v <= 1 -> Rabs (phi i v) <= 1) ->
  Forall (fun v => -1 <= v <= 1) x -> Rabs (basis phi idx x) <= 1.
Proof.
  intros Hphi. revert x; induction idx; intros x Hx; simpl; [rewrite Rabs_R1; lra|].
  destruct x as [|v x]; [rewrite Rabs_R1; lra|]. inversion Hx; subst.
  rewrite Rabs_mult. pose proof (Hphi a v H1). pose proof (IHidx x H2).
  pose proof (Rabs_pos (phi a v)). pose proof (Rabs_pos (basis phi idx x)). nra.
Qed.
Lemma chebasis_bound idx x : Forall (fun v => -1 <= v <= 1) x -> Rabs (basis chebT idx x) <= 1.
Proof. apply basis_bound. intros. apply chebT_bound; auto. Qed.

Lemma cheb_eval_bound t x : Forall (fun v => -1 <= v <= 1) x -> Rabs (cheb_eval t x) <= sumabs t.
Proof.
  intros Hx. unfold cheb_eval, sumabs. eapply Rle_trans; [apply Rsum_map_abs|].
  apply Rsum_map_le. intros idx _. rewrite Rabs_mult.
  pose proof (chebasis_bound idx x Hx). pose proof (Rabs_pos (tget t idx)). nra.
Qed.

(** the basis function along one axis factors out *)
Lemma basis_upd phi idx x d k : (d < length idx)%nat -> length idx = length x ->
  basis phi (upd idx d k) x = phi k (nth d x 0) * basis phi (upd idx d 0%nat) (upd x d 0) / phi 0%nat 0
  \/ phi 0%nat 0 = 0.
Proof.
  intros Hd Hl. destruct (Req_dec (phi 0%nat 0) 0); [right; auto|left].
  revert idx x Hd Hl; induction d; intros [|i idx] [|v x] Hd Hl; simpl in *; try lia.
  - field; auto.
  - rewrite IHd by lia. field; auto.
Qed.
Lemma basis_upd_cheb idx x d k : (d < length idx)%nat -> length idx = length x ->
  basis chebT (upd idx d k) x = chebT k (nth d x 0) * basis chebT (upd idx d 0%nat) (upd x d 0).
Proof.
  intros Hd Hl. destruct (basis_upd chebT idx x d k Hd Hl) as [H|H].
  - rewrite chebT_0 in H. rewrite H. field.
  - rewrite chebT_0 in H. lra.
Qed.
Lemma basis_upd_pow idx x d k : (d < length idx)%nat -> length idx = length x ->
  basis (fun i v => v ^ i) (upd idx d k) x = nth d x 0 ^ k * basis (fun i v => v ^ i) (upd idx d 0%nat) (upd x d 0).
Proof.
  intros Hd Hl. destruct (basis_upd (fun i v => v ^ i) idx x d k Hd Hl) as [H|H].
  - simpl pow in H at 1. rewrite H. simpl. field.
  - simpl in H. lra.
Qed.

(** Fibre of a tensor along axis d through multi-index r. *)
Definition fibre {T} {NT : Num T} (t : tensor T) (d : nat) (r : list nat) : list T :=
  map (fun k => tget t (upd r d k)) (seq 0 (nth d (shp t) 0%nat)).

Lemma fibre_length {T} {NT : Num T} (t : tensor T) d r : length (fibre t d r) = nth d (shp t) 0%nat.
Proof. unfold fibre. rewrite map_length, seq_length. reflexivity. Qed.
Lemma fibre_nth {T} {NT : Num T} (t : tensor T) d r k : (k < nth d (shp t) 0%nat)%nat ->
  nth k (fibre t d r) n0 = tget t (upd r d k).
Proof.
  intros H. unfold fibre.
  rewrite nth_indep with (d' := tget t (upd r d 0%nat)) by (rewrite map_length, seq_length; auto).
  rewrite (map_nth (fun k => tget t (upd r d k))). rewrite seq_nth; auto.
Qed.

(** Evaluation, summing the fibres along axis [d] first. *)
Lemma cheb_eval_axis t x d : (d < length (shp t))%nat -> length x = length (shp t) ->
  cheb_eval t x = sumidx (upd (shp t) d 1%nat)
    (fun r => cheb1 (fibre t d r) (nth d x 0) * basis chebT (upd r d 0%nat) (upd x d 0)).
Proof.
  intros Hd Hx. rewrite cheb_eval_sumidx, (sumidx_axis _ d) by auto.
  apply sumidx_ext. intros r Hr. apply inrange_length in Hr. rewrite upd_length in Hr.
  unfold cheb1. rewrite fibre_length, <- sumn_scal_r. apply sumn_ext. intros k Hk.
  change 0 with (@n0 R R_num) at 1. rewrite fibre_nth by auto.
  rewrite basis_upd_cheb by lia. rnum. ring.
Qed.
Lemma sumabs_axis t d : (d < length (shp t))%nat ->
  sumabs t = sumidx (upd (shp t) d 1%nat) (fun r => sumn (nth d (shp t) 0%nat) (fun k => Rabs (nth k (fibre t d r) 0))).
Proof.
  intros Hd. rewrite sumabs_sumidx, (sumidx_axis _ d) by auto.
  apply sumidx_ext. intros r Hr. apply sumn_ext. intros k Hk.
  change 0 with (@n0 R R_num) at 1. rewrite fibre_nth by auto. reflexivity.
Qed.
