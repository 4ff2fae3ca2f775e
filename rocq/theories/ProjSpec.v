(** * Roots at infinity of a polynomial in two variables.  Independent of the model. *)
From Coq Require Import List Arith Reals.
From Coquelicot Require Import Complex.
From Verif Require Import Num Tensor OneDSpec.
Import ListNotations.
Local Open Scope R_scope.
Local Open Scope C_scope.

(** the coefficient of x^i y^j, and the total degree *)
Definition coef (c : tensor R) (i j : nat) : R := tget c [i; j].
Definition degreeIs (m n : nat) (c : tensor R) (d : nat) : Prop :=
  (exists i j, (i < m)%nat /\ (j < n)%nat /\ coef c i j <> 0%R /\ (i + j = d)%nat) /\
  (forall i j, (i < m)%nat -> (j < n)%nat -> coef c i j <> 0%R -> (i + j <= d)%nat).
(** z^d f(x/z, y/z): the sum of the c_ij x^i y^j z^(d-i-j) *)
Definition homogenised (m n : nat) (c : tensor R) (d : nat) (x y z : C) : C :=
  csum m (fun i => csum n (fun j => RtoC (coef c i j) * cpow x i * cpow y j * cpow z (d - i - j))).
(** (x : y : 0) is a root of the homogenised polynomial *)
Definition rootAtInfinity (m n : nat) (c : tensor R) (d : nat) (x y : C) : Prop :=
  (x <> 0 \/ y <> 0) /\ homogenised m n c d x y 0 = 0.
(** two pairs name the same projective point *)
Definition samePoint (p q : C * C) : Prop := exists s : C, s <> 0 /\ fst p = s * fst q /\ snd p = s * snd q.
