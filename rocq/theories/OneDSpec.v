(** * What the one-variable root finder is for: complex zeros, eigenvalues.
    Independent of the model. *)
From Coq Require Import List Arith Reals.
From Coquelicot Require Import Complex.
Import ListNotations.
Local Open Scope R_scope.
Local Open Scope C_scope.

(** f 0 + ... + f (n-1) *)
Fixpoint csum (n : nat) (f : nat -> C) : C := match n with O => 0 | S m => csum m f + f m end.
Fixpoint cpow (x : C) (k : nat) : C := match k with O => 1 | S k' => x * cpow x k' end.
(** Chebyshev polynomials at a complex point: T_0 = 1, T_1 = x, T_{k+2} = 2 x T_{k+1} - T_k *)
Fixpoint chebT2 (x : C) (k : nat) : C * C :=
  match k with O => (RtoC 1, x) | S k' => let '(a, b) := chebT2 x k' in (b, 2 * x * b - a) end.
Definition chebT (x : C) (k : nat) : C := fst (chebT2 x k).
(** the polynomial with the given coefficients in the power and in the Chebyshev basis *)
Definition powerValue (coeff : list R) (x : C) : C := csum (length coeff) (fun i => RtoC (nth i coeff 0%R) * cpow x i).
Definition chebValue (coeff : list R) (x : C) : C := csum (length coeff) (fun i => RtoC (nth i coeff 0%R) * chebT x i).

(** z is an eigenvalue of the n x n real matrix M, with eigenvector v: M v = z v *)
Definition eigenpair (n : nat) (M : nat -> nat -> R) (z : C) (v : nat -> C) : Prop :=
  (exists i, (i < n)%nat /\ v i <> 0) /\
  forall i, (i < n)%nat -> csum n (fun j => RtoC (M i j) * v j) = z * v i.
(** the convention of scipy.linalg.eig for left eigenvectors: v^H M = z v^H *)
Definition leftpair (n : nat) (M : nat -> nat -> R) (z : C) (v : nat -> C) : Prop :=
  (exists i, (i < n)%nat /\ v i <> 0) /\
  forall j, (j < n)%nat -> csum n (fun i => Cconj (v i) * RtoC (M i j)) = z * Cconj (v j).

(** what an exact eigenvalue routine returns: precisely the eigenvalues *)
Definition spectrum (n : nat) (M : nat -> nat -> R) (l : list C) : Prop :=
  forall z, In z l <-> exists v, eigenpair n M z v.
(** ... and an exact eig(left=True, right=False): every eigenvalue, each entry with a left eigenvector *)
Definition leftSpectrum (n : nat) (M : nat -> nat -> R) (l : list (C * (nat -> C))) : Prop :=
  (forall z v, In (z, v) l -> leftpair n M z v) /\ (forall z, (exists v, eigenpair n M z v) -> exists v, In (z, v) l).
