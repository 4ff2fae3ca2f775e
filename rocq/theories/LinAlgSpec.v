(** * Vocabulary for linear systems (specification side) *)
From Coq Require Import Reals List Arith.
From Verif Require Import Num Tensor RSum PolySpec.
Import ListNotations.
Local Open Scope R_scope.

(** the array holds a polynomial of total degree at most one *)
Definition isLinear (t : tensor R) : Prop := forall idx, inrange (shp t) idx -> (2 <= list_sum idx)%nat -> tget t idx = 0.
(** x is a common zero of polynomials given by their Chebyshev coefficients (for linear ones these are the power coefficients) *)
Definition commonZero (n : nat) (polys : list (tensor R)) (x : list R) : Prop :=
  length x = n /\ forall t, In t polys -> cheb_eval t x = 0.
Definition rowTimes (n : nat) (row : nat -> R) (v : nat -> R) : R := sumn n (fun c => row c * v c).
(** M v = 0 *)
Definition inKernel (m n : nat) (M : nat -> nat -> R) (v : nat -> R) : Prop := forall i, (i < m)%nat -> rowTimes n (M i) v = 0.
(** row echelon form, no zero row: the first nonzero entries stand at columns p 0 < p 1 < ... < p (m-1) *)
Definition isEchelon (m n : nat) (M : nat -> nat -> R) (p : nat -> nat) : Prop :=
  (forall i, (i < m)%nat -> (p i < n)%nat /\ M i (p i) <> 0) /\
  (forall i i', (i < i' < m)%nat -> (p i < p i')%nat) /\
  (forall i c, (i < m)%nat -> (c < p i)%nat -> M i c = 0).
(** reduced: the leading entries are 1 and alone in their columns *)
Definition isReduced (m n : nat) (M : nat -> nat -> R) (p : nat -> nat) : Prop :=
  isEchelon m n M p /\ forall i i', (i < m)%nat -> (i' < m)%nat -> M i' (p i) = if (i' =? i)%nat then 1 else 0.
