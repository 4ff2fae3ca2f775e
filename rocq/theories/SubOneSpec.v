(** * Words for the one-variable solver of subdivision.py.  Independent of the model. *)
From Coq Require Import Reals List.
From Coquelicot Require Import Complex.
From Coq Require Import List.
From Verif Require Import Num RSum Cheb TrackerModel SubOneModel.
From Verif Require OneDSpec.
Import ListNotations.
Local Open Scope R_scope.

(** c_0 T_0(y) + c_1 T_1(y) + ... *)
Definition chebSum (c : list R) (y : R) : R := sumn (length c) (fun k => nth k c 0 * chebT k y).
(** the point of [u, v] that belongs to y in [-1, 1] *)
Definition pointOf (u v y : R) : R := ((v - u) * y + (v + u)) / 2.
(** f is a polynomial of degree at most d *)
Definition isPolynomial (f : R -> R) (d : nat) : Prop := exists p, (length p <= S d)%nat /\ forall x, f x = sumn (length p) (fun k => nth k p 0 * x ^ k).
(** m is the largest |f| at the Chebyshev points of degree d in [u, v] *)
Definition largestAt (f : R -> R) (u v : R) (d : nat) (m : R) : Prop :=
  (forall j, (j <= d)%nat -> Rabs (f (pointOf u v (cos (INR j * PI / INR d)))) <= m) /\ exists j, (j <= d)%nat /\ Rabs (f (pointOf u v (cos (INR j * PI / INR d)))) = m.
(** intervals one after the other from a to b *)
Fixpoint chain (a b : R) (l : list (R * R)) : Prop := match l with [] => a = b | (u, v) :: r => u = a /\ u < v /\ chain v b r end.
(** x is the image in [u, v] of the real part of a complex zero of the series q that is within tol of being real and in [-1, 1] *)
Definition nearRealZero (q : list R) (tol u v x : R) : Prop :=
  exists w : C, OneDSpec.chebValue q w = RtoC 0 /\ Cmod w <= 1 + tol /\ Rabs (Im w) < tol /\ x = pointOf u v (Re w).

(** How a search ends on one interval: given up, or solved with some zeros handed to the root tracker. *)
Inductive leaf := Deep (u v : R) | Solved (u v : R) (zs : list R).
Definition span (l : leaf) : R * R := match l with Deep u v => (u, v) | Solved u v _ => (u, v) end.
(** what interval_results keeps *)
Definition stored (l : leaf) : reason * (R * R) := match l with Deep u v => (TooDeep, (u, v)) | Solved u v _ => (Macaulay, (u, v)) end.
(** what the root tracker is told *)
Definition calls (l : leaf) : list (call R reason) := match l with Deep _ _ => [] | Solved u v zs => [AddRoots (map (fun x => [x]) zs) [u] [v] Macaulay] end.
(** [zs] are the zeros of a polynomial q of degree at most deg near [-1, 1], moved to [u, v].  q is within [error] of f at the
    Chebyshev points of degree 2 deg, and on all of [u, v] if f is a polynomial of degree at most 2 deg; [error] is within the tolerances. *)
Definition solvedOK (f : R -> R) (tols : tolset) (deg : nat) (trusted : bool) (u v : R) (zs : list R) : Prop :=
  exists q error m, (1 <= length q <= deg + 1)%nat /\ largestAt f u v (2 * deg) m /\
    (let allowed := abs_approx_tol tols + rel_approx_tol tols * m in error <= if trusted then allowed else Rmax allowed macheps) /\
    (forall j, (j <= 2 * deg)%nat -> let y := cos (INR j * PI / INR (2 * deg)) in Rabs (f (pointOf u v y) - chebSum q y) <= error) /\
    (isPolynomial f (2 * deg) -> forall y, -1 <= y <= 1 -> Rabs (f (pointOf u v y) - chebSum q y) <= error) /\
    let tol := Rmax (min_good_zeros_tol tols) (error * good_zeros_factor tols) in
    if Nat.leb (length q) 1 then zs = [] else if Req_EM_T (last q 0) 0 then zs = [] else forall x, In x zs <-> nearRealZero q tol u v x.
Definition leafOK (f : R -> R) (tols : tolset) (deg : nat) (trusted : bool) (width : R) (l : leaf) : Prop :=
  match l with Deep u v => v - u <= width | Solved u v zs => solvedOK f tols deg trusted u v zs end.
