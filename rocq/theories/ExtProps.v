(** * The contracts of the external routines can be met in every dimension
    The theorems about the solver assume that np.linalg.svd, np.linalg.matrix_rank, np.linalg.solve, np.argsort and
    the iteration over a set of small ints behave as documented ([externalsOK], SolverProps.v).  Here: for every
    real square matrix a singular value decomposition exists, and one choice of the five routines meets the
    contracts in all dimensions at once, so the assumption excludes no dimension. *)
From Coq Require Import List Arith Bool ZArith Reals Lra Lia Sorted ClassicalEpsilon.
From Verif Require Import Num RSum LinearModel LinearProofs SvdProofs QuadNdFaces GaussExample OrderProofs SolverModel ExtExample SolverProps.
Import ListNotations.
Local Open Scope R_scope.

Theorem C09_svd_exists : forall (n : nat) (A : list (list R)), exists USV, is_svd n A USV.
Proof.
  intros n A. destruct (svd_exists n (@mget R R_num A)) as (U & s & V & E & [U1 _] & [V1 V2] & P & S).
  exists (map (fun i => map (U i) (seq 0 n)) (seq 0 n), map s (seq 0 n), map (fun i => map (V i) (seq 0 n)) (seq 0 n)).
  assert (G : forall W i j, (i < n)%nat -> (j < n)%nat -> @mget R R_num (map (fun i => map (W i) (seq 0 n)) (seq 0 n)) i j = W i j).
  { intros W i j Hi Hj. unfold mget. rewrite nth_map_seq by auto. rewrite nth_map_seq by auto. auto. }
  split; cbn [fst snd].
  - intros i l Hi Hl. rewrite (E i l Hi Hl). unfold mm at 1. apply sumn_ext. intros m Hm. rewrite !G, nth_map_seq by auto.
    unfold mm. rewrite (sumn_single n m); [|auto|intros k Hk Hne]; unfold diag; [rewrite Nat.eqb_refl; ring|]. rewrite (proj2 (Nat.eqb_neq m k)) by auto. ring.
  - intros i j Hi Hj. rewrite <- (U1 i j Hi Hj). unfold mm, tr. apply sumn_ext. intros k Hk. rewrite !G by auto. auto.
  - intros i j Hi Hj. rewrite <- (V1 i j Hi Hj). unfold mm, tr. apply sumn_ext. intros k Hk. rewrite !G by auto. auto.
  - intros i j Hi Hj. rewrite <- (V2 i j Hi Hj). unfold mm, tr. apply sumn_ext. intros k Hk. rewrite !G by auto. auto.
  - intros j Hj. rewrite nth_map_seq by auto. auto.
  - intros i j Hij Hj. rewrite !nth_map_seq by lia. auto.
Qed.
Print Assumptions C09_svd_exists.

(** a set of ints, visited in increasing order *)
Definition sortedSet (l : list nat) : list nat := filter (fun i => existsb (Nat.eqb i) l) (seq 0 (S (list_max l))).
Lemma seq_sorted a n : StronglySorted lt (seq a n).
Proof. revert a. induction n; intros a; cbn; constructor; auto. apply Forall_forall. intros x Hx. apply in_seq in Hx. lia. Qed.
Lemma filter_sorted (p : nat -> bool) l : StronglySorted lt l -> StronglySorted lt (filter p l).
Proof.
  induction 1 as [|a l H IH HF]; cbn; [constructor|]. destruct (p a); auto. constructor; auto. apply Forall_forall. intros x Hx. apply filter_In in Hx. rewrite Forall_forall in HF. apply HF, Hx.
Qed.
Lemma sortedSet_ok n : set_ok n sortedSet.
Proof.
  intros l _. split; [apply filter_sorted, seq_sorted|]. intros i. unfold sortedSet. rewrite filter_In, existsb_exists, in_seq. split.
  - intros [_ (x & Hx & E)]. apply Nat.eqb_eq in E. subst. auto.
  - intros Hi. split; [|exists i; split; [auto|apply Nat.eqb_refl]]. pose proof (proj1 (Forall_forall _ _) (proj1 (list_max_le l (list_max l)) (le_n _)) i Hi). cbv beta in *. lia.
Qed.

Definition someSvd (A : list (list R)) : list (list R) * list R * list (list R) :=
  proj1_sig (constructive_indefinite_description _ (C09_svd_exists (length A) A)).
Theorem C01_externals_exist : exists X : ext R, forall n, externalsOK n X.
Proof.
  exists (mkExt someSvd (@gauss_rank R R_num) (@gauss_solve R R_num) isort sortedSet). intros n.
  split; [|split; [apply gauss_ok|split; [apply isort_ok|apply sortedSet_ok]]].
  intros A [Hl _]. cbn [xsvd]. unfold someSvd. rewrite <- Hl. apply proj2_sig.
Qed.
Print Assumptions C01_externals_exist.
