(** * What it means that the solver in several variables of subdivision.py has solved a box.  Independent of its control flow. *)
From Coq Require Import Reals List Permutation.
From Verif Require Import Num Tensor PolySpec CombinedModel CombinedSpec ApproxModel ApproxDct MakerProps LinAlgSpec TrimcProps SubNdModel SubNdSpec.
Import ListNotations.
Local Open Scope R_scope.

(** P is a linear polynomial on the cube and takes the place of f on the box [a, b]: at the Chebyshev points of degree 4, and on the whole box if f is a
    polynomial of degree at most 4 in each variable there, they differ by no more than the tolerance and the coefficient of T_2(y_1)...T_2(y_n) in the
    interpolating polynomial of degree 2. *)
Definition nearly (n : nat) (tol rel : R) (a b : list R) (f : fobj R) (P : tensor R) : Prop :=
  shp P = repeat 2%nat n /\ isLinear P /\ exists N m, interpolant (callAt f) a b (repeat 2%nat n) N /\ gridMax (callAt f) a b (repeat 4%nat n) m /\
    let E := tol + rel * m + Rabs (topCoeff N) in
    (forall y, gridNode (repeat 4%nat n) y -> Rabs (callAt f (boxPoint a b y) - cheb_eval P y) <= E) /\
    (forall Q, ndim Q = n -> Forall (fun s => (s <= 5)%nat) (shp Q) -> (forall y, in_cube n y -> callAt f (boxPoint a b y) = cheb_eval Q y) ->
       forall y, in_cube n y -> Rabs (callAt f (boxPoint a b y) - cheb_eval P y) <= E).
(** The box of l (already widened) was solved: every function has its linear polynomial.  Nothing was handed over if they have no common zero; if they have
    one, it is the only one, and it was handed over if it is in the box before widening, and nothing else was. *)
Definition solvedBox (n : nat) (funcs : list (fobj R)) (tol rel : R) (l : leaf) : Prop :=
  exists order polys, Permutation funcs order /\ Forall2 (nearly n tol rel (low l) (high l)) order polys /\
    ((forall y, ~ commonZero n polys y) /\ points l = [] \/
     exists y, commonZero n polys y /\ (forall y', commonZero n polys y' -> y' = y) /\
       (points l = [] \/ points l = [boxPoint (low l) (high l) y]) /\
       ((forall i, (i < n)%nat -> Rabs (nth i y 0) <= 1 / (1 + 1 / 10 ^ 9)) -> points l = [boxPoint (low l) (high l) y])).
