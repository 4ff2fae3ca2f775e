(** * What eigensolve of polyroots.py is for, in one variable.  Independent of the model's control flow. *)
From Coq Require Import List Arith Reals Sorting.Sorted.
From Coquelicot Require Import Complex.
From Coq Require Import List.
From Verif Require Import OneDSpec OneDModel.
Import ListNotations.
Local Open Scope R_scope.

(** the value of a polynomial in the power or in the Chebyshev basis *)
Definition valueAt (p : kind * dtype * list R) (z : C) : C := let '(k, _, coeff) := p in match k with Power => powerValue coeff z | Chebyshev => chebValue coeff z end.
(** floating-point coefficients with a nonzero last one *)
Definition goodPoly (p : kind * dtype * list R) : Prop := let '(_, d, coeff) := p in d = Floats /\ last coeff 0 <> 0.
(** one zero of each polynomial, each within 1e-10 of the one before *)
Definition chain (polys : list (kind * dtype * list R)) (zs : list C) : Prop :=
  Forall2 (fun p z => valueAt p z = RtoC 0) polys zs /\ forall i, (S i < length zs)%nat -> Cmod (nth i zs (RtoC 0) - nth (S i) zs (RtoC 0))%C < 1 / 10 ^ 10.
(** the order of numpy: by real part, then by imaginary part *)
Definition before (x y : C) : Prop := fst x < fst y \/ fst x = fst y /\ snd x < snd y.
