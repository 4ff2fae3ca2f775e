(** * What solve() is asked to do: vocabulary for the statements about Combined_Solver.solve *)
From Coq Require Import List Arith Bool ZArith Reals.
From Verif Require Import Num Tensor PolySpec IntervalModel IntervalProofs SolverModel CombinedModel.
Import ListNotations.
Local Open Scope R_scope.

(** the value of a function object at a point *)
Definition valueOf (f : fobj R) (x : list R) : R :=
  match f with NotCallable => 0 | Plain g => g x | MPower t => power_eval t x | MCheb t => cheb_eval t x end.
(** the point of the box [a,b] at relative position y in [-1,1]^n *)
Definition boxPoint (a b y : list R) : list R :=
  map (fun p => ((snd (snd p) - fst (snd p)) * fst p + (snd (snd p) + fst (snd p))) / 2) (combine y (combine a b)).
(** coordinatewise a <= b *)
Definition ordered (a b : list R) : Prop := length a = length b /\ Forall (fun p => fst p <= snd p) (combine a b).
(** B is a box (lower bounds at most upper bounds) inside the box C *)
Definition subBox (B C : box R) : Prop := Forall2 (fun p q => fst q <= fst p /\ fst p <= snd p /\ snd p <= snd q) B C.
(** an n-dimensional coefficient tensor of a size the solver is known to handle (see sizesOK) *)
Definition goodShape (exact : bool) (n : nat) (M : tensor R) : Prop :=
  wf M /\ ndim M = n /\ Forall (fun N => if exact then INR N <= 1000000000000000 else (N <= 7)%nat) (shp M).
(** (M, e) approximates f on [a,b]: M has a good shape and is within e of f; strictly within e in
    dimension at most 3, where the quadratic checks run *)
Definition closeOn (exact : bool) (n : nat) (f : fobj R) (a b : list R) (M : tensor R) (e : R) : Prop :=
  goodShape exact n M /\
  forall y, in_cube n y -> let d := Rabs (valueOf f (boxPoint a b y) - cheb_eval M y) in if (n <=? 3)%nat then d < e else d <= e.
(** x is a zero of all the functions *)
Definition commonZero (l : list (fobj R)) (x : list R) : Prop := forall f, In f l -> valueOf f x = 0.
