(** * What the Macaulay-matrix solver is for: polynomials of several complex variables, joint eigenvalues.
    Independent of the model. *)
From Coq Require Import List Arith Reals Permutation.
From Coquelicot Require Import Complex.
From Coq Require Import List.
From Verif Require Import Num Tensor OneDSpec.
Import ListNotations.
Local Open Scope R_scope.
Local Open Scope C_scope.

Definition csumL (l : list C) : C := fold_right Cplus 0 l.
(** z^k or T_k(z) *)
Definition monAt1 (power : bool) (k : nat) (z : C) : C := if power then cpow z k else chebT z k.
(** the product of the basis polynomials with the given degrees, at a point of C^n *)
Fixpoint monAt (power : bool) (mon : list nat) (z : list C) : C :=
  match mon, z with k :: mon', v :: z' => monAt1 power k v * monAt power mon' z' | _, _ => 1 end.
(** the value at a point of C^n of the polynomial with coefficient array t *)
Definition polyAt (power : bool) (t : tensor R) (z : list C) : C :=
  csumL (map (fun idx => RtoC (tget t idx) * monAt power idx z) (indices (shp t))).
(** a polynomial in dim variables of total degree at most deg, not zero, stored without needless rows *)
Definition polyOfDegree (dim deg : nat) (t : tensor R) : Prop :=
  wf t /\ ndim t = dim /\ Forall (fun s => (s <= deg + 1)%nat) (shp t) /\
  (forall idx, inrange (shp t) idx -> (deg < list_sum idx)%nat -> tget t idx = 0%R) /\
  (exists idx, inrange (shp t) idx /\ tget t idx <> 0%R).
(** w^T M = lambda w^T *)
Definition leftEigen (n : nat) (M : nat -> nat -> R) (lambda : C) (w : nat -> C) : Prop :=
  forall j, (j < n)%nat -> csum n (fun i => w i * RtoC (M i j)) = lambda * w j.

(** ** What the library routines compute, for an r x c matrix A *)
From Verif Require Import RSum.
Local Open Scope R_scope.
Definition rmatrix := nat -> nat -> R.
Definition orthogonal (n : nat) (Q : rmatrix) : Prop :=
  forall i j, (i < n)%nat -> (j < n)%nat ->
    sumn n (fun k => Q k i * Q k j) = (if Nat.eqb i j then 1 else 0) /\ sumn n (fun k => Q i k * Q j k) = (if Nat.eqb i j then 1 else 0).
Definition upper (r c : nat) (A : rmatrix) : Prop := forall i j, (i < r)%nat -> (j < c)%nat -> (j < i)%nat -> A i j = 0.
(** A = Q R *)
Definition qrFactors (r c : nat) (A Q U : rmatrix) : Prop :=
  orthogonal r Q /\ upper r c U /\ forall i j, (i < r)%nat -> (j < c)%nat -> A i j = sumn r (fun k => Q i k * U k j).
(** V is the right factor of a singular value decomposition: A V = U diag(s) *)
Definition rightSingular (r c : nat) (A V : rmatrix) : Prop :=
  orthogonal c V /\ exists (U : rmatrix) (s : nat -> R), orthogonal r U /\
    (forall i j, (i <= j)%nat -> (j < c)%nat -> (j < r)%nat -> 0 <= s j <= s i) /\
    forall i j, (i < r)%nat -> (j < c)%nat -> sumn c (fun k => A i k * V k j) = if (j <? r)%nat then U i j * s j else 0.
(** A[:, P] = Q R *)
Definition pivotedQR (r c : nat) (A Q U : rmatrix) (P : list nat) : Prop :=
  Permutation P (seq 0 c) /\ orthogonal r Q /\ upper r c U /\
  (forall i j, (i < r)%nat -> (j < c)%nat -> A i (nth j P 0%nat) = sumn r (fun k => Q i k * U k j)) /\
  (** the pivots: no remaining column is longer than the chosen one *)
  (forall k j, (k < r)%nat -> (k <= j)%nat -> (j < c)%nat -> sumn (r - k) (fun i => U (k + i)%nat j * U (k + i)%nat j) <= U k k * U k k).
(** U X = B with k columns, for the upper triangle of U *)
Definition triSolved (r k : nat) (U B E : rmatrix) : Prop :=
  forall i c, (i < r)%nat -> (c < k)%nat -> sumn r (fun j => if (i <=? j)%nat then U i j * E j c else 0) = B i c.
Definition columnsIndependent (r c : nat) (A : rmatrix) : Prop :=
  forall x : nat -> R, (forall i, (i < r)%nat -> sumn c (fun j => A i j * x j) = 0) -> forall j, (j < c)%nat -> x j = 0.
(** any n+1 vectors of the null space are linearly dependent *)
Definition nullityAtMost (r c : nat) (A : rmatrix) (n : nat) : Prop :=
  forall F : nat -> nat -> R, (forall q i, (q <= n)%nat -> (i < r)%nat -> sumn c (fun j => A i j * F q j) = 0) ->
    exists a : nat -> R, (exists q, (q <= n)%nat /\ a q <> 0) /\ forall j, (j < c)%nat -> sumn (S n) (fun q => a q * F q j) = 0.
