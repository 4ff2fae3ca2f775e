(** * What the eigenvalue routines return.  Independent of the model. *)
From Coq Require Import List Arith Reals Permutation.
From Coquelicot Require Import Complex.
From Coq Require Import List.
From Verif Require Import OneDSpec MacaulaySpec.
Import ListNotations.
Local Open Scope R_scope.
Local Open Scope C_scope.

(** X Y = I *)
Definition inverseOf (n : nat) (X Y : nat -> nat -> C) : Prop :=
  forall i j, (i < n)%nat -> (j < n)%nat -> csum n (fun k => X i k * Y k j) = if Nat.eqb i j then 1 else 0.
Definition unitary (n : nat) (U : nat -> nat -> C) : Prop :=
  inverseOf n (fun i j => Cconj (U j i)) U /\ inverseOf n U (fun i j => Cconj (U j i)).
(** the rows of W are left eigenvectors of A with eigenvalues lam, and W has the inverse Wi: A = Wi diag(lam) W *)
Definition diagonalizes (n : nat) (A : nat -> nat -> R) (lam : nat -> C) (W Wi : nat -> nat -> C) : Prop :=
  inverseOf n W Wi /\ inverseOf n Wi W /\ forall k, (k < n)%nat -> leftEigen n A (lam k) (W k).
(** scipy.linalg.eig(A, right=False): the eigenvalues of a diagonalizable matrix with their multiplicities, in any order *)
Definition eigOK (eig : nat -> (nat -> nat -> R) -> list C) : Prop :=
  forall n A lam W Wi, diagonalizes n A lam W Wi -> Permutation (eig n A) (map lam (seq 0 n)).
(** A has n different eigenvalues *)
Definition simpleSpectrum (n : nat) (A : nat -> nat -> R) : Prop :=
  exists (lam : nat -> C) (W : nat -> nat -> C),
    (forall k l, (k < n)%nat -> (l < n)%nat -> lam k = lam l -> k = l) /\
    forall k, (k < n)%nat -> (exists j, (j < n)%nat /\ W k j <> 0) /\ leftEigen n A (lam k) (W k).
(** scipy.linalg.schur(A, output='complex')[1]: unitary, and U^H A U is upper triangular.  Asked only for matrices with n different eigenvalues. *)
Definition schurOK (schur : nat -> (nat -> nat -> R) -> nat -> nat -> C) : Prop :=
  forall n A, simpleSpectrum n A -> unitary n (schur n A) /\
    forall r s, (r < n)%nat -> (s < r)%nat ->
      csum n (fun q => csum n (fun p => Cconj (schur n A p r) * RtoC (A p q)) * schur n A q s) = 0.
