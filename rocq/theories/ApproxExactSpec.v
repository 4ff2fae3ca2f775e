(** * Polynomials of low degree in every variable: vocabulary for property C113 *)
From Coq Require Import List Arith Reals.
From Verif Require Import Num RSum Tensor PolySpec CombinedSpec.
Import ListNotations.
Local Open Scope R_scope.

(** the sum of the absolute values of the coefficients whose index in variable d is k *)
Definition sliceSum (P : tensor R) (d k : nat) : R :=
  Rsum (map (fun L => Rabs (tget P L)) (filter (fun L => Nat.eqb (nth d L 0%nat) k) (indices (shp P)))).
(** the degree of the series P in variable d *)
Definition degreeIn (P : tensor R) (d : nat) : nat := (nth d (shp P) 0 - 1)%nat.
(** a series in n variables whose degree in every variable is at most 5, at most 2 when there are more than 5 variables *)
Definition lowDegree (n : nat) (P : tensor R) : Prop :=
  wf P /\ ndim P = n /\ Forall (fun s => (1 <= s <= (if (n <=? 5)%nat then 6 else 3))%nat) (shp P).
(** the coefficients of the top degree in each variable are not negligible: their sum exceeds 6^(n-1) 2^-51, and it is
    at least 6^(n-1) times the tolerance [rel] relative to the sum of all the coefficients *)
Definition significant (n : nat) (rel : R) (P : tensor R) : Prop :=
  forall d, (d < n)%nat -> 6 ^ (n - 1) * / 2251799813685248 < sliceSum P d (degreeIn P d) /\
    ((1 <= degreeIn P d)%nat -> 6 ^ (n - 1) * (rel * sumabs P) <= sliceSum P d (degreeIn P d)).
(** on the box [a,b] the function g is the series P in the coordinates of the box *)
Definition equalsOn (n : nat) (g : list R -> R) (a b : list R) (P : tensor R) : Prop :=
  forall y, in_cube n y -> g (boxPoint a b y) = cheb_eval P y.
(** the point of [-1,1]^n at which the approximator tests whether a variable matters *)
Definition testPoint (n : nat) : list R := map (fun i => (8984743990614998 / 10000000000000000) ^ (i + 1)) (seq 0 n).
(** through that point, two of the values of P at -1, 0 and 1 in variable d differ by more than the tolerance *)
Definition variesIn (n : nat) (rel : R) (P : tensor R) (d : nat) : Prop :=
  exists v w, In v [-1; 0; 1] /\ In w [-1; 0; 1] /\
    let p := cheb_eval P (upd (testPoint n) d v) in let q := cheb_eval P (upd (testPoint n) d w) in rel * (Rabs p + Rabs q) < Rabs (p - q).
(** a polynomial of low degree, not constant, none of whose degrees is an artefact of the tolerances *)
Definition lowPoly (n : nat) (rel : R) (P : tensor R) : Prop :=
  lowDegree n P /\ significant n rel P /\ (exists d, (d < n)%nat /\ (1 <= degreeIn P d)%nat) /\
  forall d, (d < n)%nat -> (1 <= degreeIn P d)%nat -> variesIn n rel P d.
