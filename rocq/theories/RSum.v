(** * Finite sums of reals (specification side) *)
From Coq Require Import Reals List Lia Lra Arith.
Import ListNotations.
Local Open Scope R_scope.

(** Sum of a list. *)
Definition Rsum (l : list R) : R := fold_right Rplus 0 l.
(** Product of a list. *)
Definition Rprod (l : list R) : R := fold_right Rmult 1 l.
(** [sumn n f] is the sum of f 0 .. f (n-1). *)
Fixpoint sumn (n : nat) (f : nat -> R) : R :=
  match n with O => 0 | S k => sumn k f + f k end.

Lemma sumn_ext n f g : (forall i, (i < n)%nat -> f i = g i) -> sumn n f = sumn n g.
Proof. induction n; simpl; intros H; auto. rewrite IHn, H; auto. Qed.
Lemma sumn_plus n f g : sumn n (fun i => f i + g i) = sumn n f + sumn n g.
Proof. induction n; simpl; [ring | rewrite IHn; ring]. Qed.
Lemma sumn_minus n f g : sumn n (fun i => f i - g i) = sumn n f - sumn n g.
Proof. induction n; simpl; [ring | rewrite IHn; ring]. Qed.
Lemma sumn_opp n f : sumn n (fun i => - f i) = - sumn n f.
Proof. induction n; simpl; [ring | rewrite IHn; ring]. Qed.
Lemma sumn_scal n c f : sumn n (fun i => c * f i) = c * sumn n f.
Proof. induction n; simpl; [ring | rewrite IHn; ring]. Qed.
Lemma sumn_scal_r n c f : sumn n (fun i => f i * c) = sumn n f * c.
Proof. induction n; simpl; [ring | rewrite IHn; ring]. Qed.
Lemma sumn_0 n : sumn n (fun _ => 0) = 0.
Proof. induction n; simpl; [ring | rewrite IHn; ring]. Qed.
Lemma sumn_zero n f : (forall i, (i < n)%nat -> f i = 0) -> sumn n f = 0.
Proof. intros H. rewrite <- (sumn_0 n). apply sumn_ext; auto. Qed.
Lemma sumn_const n c : sumn n (fun _ => c) = INR n * c.
Proof. induction n; simpl sumn; [simpl; ring | rewrite IHn, S_INR; ring]. Qed.
Lemma sumn_le n f g : (forall i, (i < n)%nat -> f i <= g i) -> sumn n f <= sumn n g.
Proof. induction n; simpl; intros H; [lra|]. pose proof (H n (Nat.lt_succ_diag_r n)).
  assert (sumn n f <= sumn n g) by (apply IHn; auto). lra. Qed.
Lemma sumn_nonneg n f : (forall i, (i < n)%nat -> 0 <= f i) -> 0 <= sumn n f.
Proof. intros H. rewrite <- (sumn_0 n). apply sumn_le; auto. Qed.
Lemma sumn_abs n f : Rabs (sumn n f) <= sumn n (fun i => Rabs (f i)).
Proof.
  induction n; simpl; [rewrite Rabs_R0; lra|].
  eapply Rle_trans; [apply Rabs_triang|]. lra.
Qed.
Lemma sumn_split a b f : sumn (a + b) f = sumn a f + sumn b (fun i => f (a + i)%nat).
Proof.
  induction b; simpl.
  - rewrite Nat.add_0_r. ring.
  - rewrite Nat.add_succ_r. simpl. rewrite IHb. ring.
Qed.
Lemma sumn_S_l n f : sumn (S n) f = f O + sumn n (fun i => f (S i)).
Proof.
  change (S n) with (1 + n)%nat. rewrite sumn_split. simpl. ring.
Qed.
Lemma sumn_extend n m f : (n <= m)%nat -> (forall i, (n <= i < m)%nat -> f i = 0) ->
  sumn m f = sumn n f.
Proof.
  intros H Hz. replace m with (n + (m - n))%nat by lia. rewrite sumn_split.
  rewrite (sumn_zero (m - n)); [ring|]. intros i Hi. apply Hz. lia.
Qed.
Lemma sumn_single n k f : (k < n)%nat -> (forall i, (i < n)%nat -> i <> k -> f i = 0) ->
  sumn n f = f k.
Proof.
  intros Hk Hz. replace n with (k + S (n - S k))%nat by lia.
  rewrite sumn_split, sumn_S_l, Nat.add_0_r.
  rewrite sumn_zero by (intros; apply Hz; lia).
  rewrite sumn_zero by (intros; apply Hz; lia). ring.
Qed.
Lemma sumn_swap n m (f : nat -> nat -> R) :
  sumn n (fun i => sumn m (fun j => f i j)) = sumn m (fun j => sumn n (fun i => f i j)).
Proof.
  induction n; simpl.
  - symmetry. apply sumn_0.
  - rewrite IHn, sumn_plus. reflexivity.
Qed.

Lemma Rsum_app l1 l2 : Rsum (l1 ++ l2) = Rsum l1 + Rsum l2.
Proof. induction l1; simpl; [ring | rewrite IHl1; ring]. Qed.
Lemma Rsum_map_ext {A} (f g : A -> R) l : (forall x, In x l -> f x = g x) -> Rsum (map f l) = Rsum (map g l).
Proof. induction l; simpl; intros H; auto. rewrite H, IHl; auto. Qed.
Lemma Rsum_map_plus {A} (f g : A -> R) l : Rsum (map (fun x => f x + g x) l) = Rsum (map f l) + Rsum (map g l).
Proof. induction l; simpl; [ring | rewrite IHl; ring]. Qed.
Lemma Rsum_map_minus {A} (f g : A -> R) l : Rsum (map (fun x => f x - g x) l) = Rsum (map f l) - Rsum (map g l).
Proof. induction l; simpl; [ring | rewrite IHl; ring]. Qed.
Lemma Rsum_map_scal {A} c (f : A -> R) l : Rsum (map (fun x => c * f x) l) = c * Rsum (map f l).
Proof. induction l; simpl; [ring | rewrite IHl; ring]. Qed.
Lemma Rsum_map_le {A} (f g : A -> R) l : (forall x, In x l -> f x <= g x) -> Rsum (map f l) <= Rsum (map g l).
Proof. induction l; simpl; intros H; [lra|]. pose proof (H a (or_introl eq_refl)).
  assert (Rsum (map f l) <= Rsum (map g l)) by (apply IHl; auto). lra. Qed.
Lemma Rsum_map_abs {A} (f : A -> R) l : Rabs (Rsum (map f l)) <= Rsum (map (fun x => Rabs (f x)) l).
Proof. induction l; simpl; [rewrite Rabs_R0; lra|]. eapply Rle_trans; [apply Rabs_triang|]. lra. Qed.
Lemma Rsum_nonneg l : (forall x, In x l -> 0 <= x) -> 0 <= Rsum l.
Proof. induction l; simpl; intros H; [lra|]. pose proof (H a (or_introl eq_refl)).
  assert (0 <= Rsum l) by auto. lra. Qed.
Lemma Rsum_map_seq f n : Rsum (map f (seq 0 n)) = sumn n f.
Proof.
  induction n; auto. rewrite seq_S, map_app, Rsum_app, IHn. simpl. ring.
Qed.
Lemma Rsum_nth l : Rsum l = sumn (length l) (fun i => nth i l 0).
Proof.
  induction l; auto. simpl length. rewrite sumn_S_l. simpl. rewrite IHl. ring.
Qed.
Lemma Rsum_flat_map {A} (f : A -> list R) l : Rsum (flat_map f l) = Rsum (map (fun x => Rsum (f x)) l).
Proof. induction l; simpl; auto. rewrite Rsum_app, IHl. reflexivity. Qed.
