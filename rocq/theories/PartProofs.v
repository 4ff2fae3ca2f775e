(** * A polynomial minus a few of its terms *)
From Coq Require Import List Arith Bool ZArith Reals Lra Lia Permutation FinFun.
From Verif Require Import Num RSum Cheb Tensor PolySpec TransformModel TransformChebProofs.
Import ListNotations.
Local Open Scope R_scope.

Lemma Rsum_perm l m : Permutation l m -> Rsum l = Rsum m.
Proof. induction 1; simpl; try lra. Qed.
Lemma NoDup_app_intro {A} (l m : list A) : NoDup l -> NoDup m -> (forall x, In x l -> ~ In x m) -> NoDup (l ++ m).
Proof.
  induction 1; simpl; intros Hm Hd; auto. constructor.
  - rewrite in_app_iff. intros [Hx|Hx]; auto. apply (Hd x); auto.
  - apply IHNoDup; auto.
Qed.
Lemma NoDup_indices s : NoDup (indices s).
Proof.
  induction s; [repeat constructor; auto|]. rewrite indices_cons.
  assert (forall l, NoDup l -> NoDup (flat_map (fun i => map (cons i) (indices s)) l)); [|apply H; apply seq_NoDup].
  induction l; intros Hl; simpl; [constructor|]. inversion Hl; subst.
  apply NoDup_app_intro; auto.
  - apply Injective_map_NoDup; auto. intros u v E. inversion E; auto.
  - intros x Hx Hy. apply in_map_iff in Hx. destruct Hx as (u & <- & _). apply in_flat_map in Hy.
    destruct Hy as (b & Hb & Hy). apply in_map_iff in Hy. destruct Hy as (v & E & _). inversion E; subst. auto.
Qed.

(** the sum over a duplicate-free list of valid indices, plus the rest *)
Definition idx_dec := list_eq_dec Nat.eq_dec.
Definition memb (l : list (list nat)) (x : list nat) : bool := if in_dec idx_dec x l then true else false.
Lemma memb_In l x : memb l x = true <-> In x l.
Proof. unfold memb. destruct in_dec; split; intros; auto; discriminate. Qed.

Lemma sum_split (F : list nat -> R) s l : NoDup l -> (forall x, In x l -> inrange s x) ->
  Rsum (map F (indices s)) = Rsum (map F l) + Rsum (map F (filter (fun x => negb (memb l x)) (indices s))).
Proof.
  intros Hl Hin. rewrite <- Rsum_app, <- map_app. apply Rsum_perm. apply Permutation_map.
  apply NoDup_Permutation; [apply NoDup_indices| |].
  - apply NoDup_app_intro; auto; [apply NoDup_filter, NoDup_indices|].
    intros x Hx Hf. apply filter_In in Hf. destruct Hf as [_ Hf]. apply (memb_In l) in Hx. rewrite Hx in Hf. discriminate.
  - intros x. rewrite in_app_iff, filter_In. split.
    + intros Hx. destruct (memb l x) eqn:E; [left; apply memb_In; auto|right; auto].
    + intros [Hx|[Hx _]]; auto. apply in_indices. auto.
Qed.

(** On the cube a polynomial differs from the sum of selected terms by at most the absolute sum
    of the other coefficients. *)
Lemma part_bound (M : tensor R) (l : list (list nat)) x :
  NoDup l -> (forall i, In i l -> inrange (shp M) i) -> Forall (fun v => -1 <= v <= 1) x ->
  Rabs (cheb_eval M x - Rsum (map (fun i => tget M i * basis chebT i x) l))
  <= sumabs M - Rsum (map (fun i => Rabs (tget M i)) l).
Proof.
  intros Hl Hin Hx. unfold cheb_eval, sumabs.
  rewrite (sum_split (fun i => tget M i * basis chebT i x) _ l) by auto.
  rewrite (sum_split (fun i => Rabs (tget M i)) _ l) by auto.
  match goal with |- Rabs (?a + ?b - ?a) <= ?c + ?d - ?c => replace (a + b - a) with b by ring; replace (c + d - c) with d by ring end.
  eapply Rle_trans; [apply Rsum_map_abs|]. apply Rsum_map_le. intros i _. rewrite Rabs_mult.
  pose proof (chebasis_bound i x Hx). pose proof (Rabs_pos (tget M i)). pose proof (Rabs_pos (basis chebT i x)). nra.
Qed.

(** ** Particular indices *)
Definition zidx (n : nat) : list nat := repeat 0%nat n.
(** e_k, 2 e_k, e_j + e_k *)
Definition eidx (n k v : nat) : list nat := upd (zidx n) k v.

Lemma ravel_zero s : ravel_index s (zidx (length s)) = 0%nat.
Proof. induction s; simpl; auto. Qed.
Lemma tconst_R (M : tensor R) : @tconst R R_num M = tget M (zidx (ndim M)).
Proof. unfold tconst, tget, ndim. rewrite ravel_zero. reflexivity. Qed.
Lemma zidx_inrange s : Forall (fun n => 1 <= n)%nat s -> inrange s (zidx (length s)).
Proof. induction 1; simpl; constructor; auto. Qed.
Lemma basis_zero x : basis chebT (zidx (length x)) x = 1.
Proof. induction x; simpl; auto. fold (zidx (length x)). rewrite IHx, chebT_0. ring. Qed.
Lemma basis_eidx x k v : (k < length x)%nat -> basis chebT (eidx (length x) k v) x = chebT v (nth k x 0).
Proof.
  revert k; induction x; intros k Hk; simpl in *; [lia|]. destruct k; unfold eidx; simpl.
  - fold (zidx (length x)). rewrite basis_zero. ring.
  - unfold eidx in IHx. fold (zidx (length x)). rewrite IHx by lia. rewrite chebT_0. ring.
Qed.
Lemma eidx_inrange s k v : Forall (fun n => 1 <= n)%nat s -> (k < length s)%nat -> (v < nth k s 0)%nat -> inrange s (eidx (length s) k v).
Proof.
  intros H. revert k; induction H; intros k Hk Hv; simpl in *; [lia|]. destruct k; unfold eidx; simpl; constructor; try lia.
  - apply zidx_inrange; auto.
  - apply IHForall; auto. lia.
Qed.
Lemma eidx_nth n k v j : (k < n)%nat -> nth j (eidx n k v) 0%nat = if (j =? k)%nat then v else 0%nat.
Proof.
  intros. unfold eidx. rewrite nth_upd by (unfold zidx; rewrite repeat_length; auto).
  destruct (Nat.eqb_spec j k); auto. unfold zidx. apply nth_repeat.
Qed.
