(** * What it means for a list of Chebyshev tensors to approximate a system of functions *)
From Coq Require Import List Arith Reals.
From Verif Require Import Num RSum Cheb Tensor PolySpec.
Import ListNotations.
Local Open Scope R_scope.

Definition noT : tensor R := mkT [] [].

(** n tensors of dimension n *)
Definition squareSystem (n : nat) (Ms : list (tensor R)) (errors : list R) : Prop :=
  (0 < n)%nat /\ length Ms = n /\ length errors = n /\ Forall (fun M => wf M /\ ndim M = n) Ms.

(** function number i differs from polynomial number i by at most errors[i] on [-1,1]^n *)
Definition approximates (n : nat) (fs : nat -> list R -> R) (Ms : list (tensor R)) (errors : list R) : Prop :=
  forall i, (i < length Ms)%nat -> forall x, in_cube n x -> Rabs (fs i x - cheb_eval (nth i Ms noT) x) <= nth i errors 0.

(** x is a common zero in [-1,1]^n of the first n functions *)
Definition commonRoot (n : nat) (fs : nat -> list R -> R) (x : list R) : Prop :=
  in_cube n x /\ forall i, (i < n)%nat -> fs i x = 0.
