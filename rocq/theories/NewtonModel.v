(** * Model of utils.py lines 1260-1310 (newton_polish) and 1311-1343 (getRootSample) *)
From Coq Require Import List Arith Bool ZArith.
From Verif Require Import Num Tensor PolyModel.
Import ListNotations.

(** Outcome: an array, the ValueError of a polynomial called at a point it cannot take (or of an empty list of
    polynomials), or numpy's LinAlgError. *)
Inductive nres (A : Type) := NOk (a : A) | NValueError | NLinAlg.
Arguments NOk {A}. Arguments NValueError {A}. Arguments NLinAlg {A}.
Definition nbind {A B} (x : nres A) (f : A -> nres B) : nres B :=
  match x with NOk a => f a | NValueError => NValueError | NLinAlg => NLinAlg end.

(** a MultiCheb or a MultiPower object *)
Inductive pobj (T : Type) := OCheb (t : tensor T) | OPower (t : tensor T).
Arguments OCheb {T}. Arguments OPower {T}.
Definition otensor {T} (p : pobj T) : tensor T := match p with OCheb t | OPower t => t end.

Section Newton.
  Context {T : Type} {NT : Num T}.
  Local Open Scope num_scope.
  (** np.linalg.solve of a square matrix given by its rows; [None] is LinAlgError *)
  Variable solve : list (list T) -> list T -> option (list T).
  (** np.linalg.norm *)
  Variable norm : list T -> T.

  (** f_x[i] = poly(x), line 1289: an array of one value is converted, a longer one is a ValueError *)
  Definition valueAt (p : pobj T) (x : list T) : nres T :=
    match (match p with OCheb t => polyCall chebval t (PVec x) | OPower t => polyCall polyval t (PVec x) end) with
    | Val [v] => NOk v
    | _ => NValueError
    end.
  (** jac[i] = poly.grad(x), line 1295: a single entry is spread over the row.  The derivatives kept by the polynomial (C45) are
      computed afresh. *)
  Definition gradRow (dim : nat) (p : pobj T) (x : list T) : nres (list T) :=
    match (match p with OCheb t => grad chebval chebder t None x | OPower t => grad polyval polyder t None x end) with
    | Val (out, _) =>
        if Nat.eqb (length out) dim then NOk out
        else match out with [v] => NOk (repeat v dim) | _ => NValueError end
    | ValueError => NValueError
    end.
  Fixpoint collect {A B} (f : A -> nres B) (l : list A) : nres (list B) :=
    match l with [] => NOk [] | a :: l' => nbind (f a) (fun b => nbind (collect f l') (fun bs => NOk (b :: bs))) end.
  Definition vadd (x y : list T) : list T := map (fun p => fst p + snd p) (combine x y).
  Definition vsub (x y : list T) : list T := map (fun p => fst p - snd p) (combine x y).
  (** line 1303: Df first, then f; numpy's solve wants a square matrix *)
  Definition newtonDelta (polys : list (pobj T)) (dim : nat) (x0 : list T) : nres (list T) :=
    nbind (collect (fun p => gradRow dim p x0) polys) (fun J =>
    nbind (collect (fun p => valueAt p x0) polys) (fun v =>
    if Nat.eqb (length polys) dim then match solve J (map nopp v) with Some d => NOk d | None => NLinAlg end else NLinAlg)).
  (** the loop of lines 1298-1309; x0 and x1 are equal at its head *)
  Fixpoint newtonLoop (polys : list (pobj T)) (dim : nat) (tol : T) (niter : nat) (x0 : list T) : nres (list T) :=
    match niter with
    | O => NOk x0
    | S k =>
        nbind (newtonDelta polys dim x0) (fun delta =>
        let x1 := vadd delta x0 in
        if nltb (norm delta) tol then NOk x1 else newtonLoop polys dim tol k x1)
    end.
  (** newton_polish, lines 1260-1310.  Arrays are complex in the code; here they are of type T. niter is not negative. *)
  Definition newton_polish (polys : list (pobj T)) (root : list T) (niter : nat) (tol : T) : nres (list T) :=
    match polys with
    | [] => NValueError
    | _ => newtonLoop polys (fold_left Nat.max (map (fun p => ndim (otensor p)) polys) 0%nat) tol niter root
    end.

  (** getRootSample, lines 1311-1343; [samples] are the answers of np.random.rand(len(polys)), as many as [tests] *)
  Definition sampleStep (polys : list (pobj T)) (acc : nres (list (list T))) (r : list T) : nres (list (list T)) :=
    nbind acc (fun roots =>
    nbind (newton_polish polys (map (fun v => v * n2 - n1) r) 100 (nlit 1 10000000000)) (fun x =>
    if existsb (fun v => ngtb (nabs v) n1) x then NOk roots
    else if existsb (fun root => nltb (norm (vsub x root)) (nlit 1 100000)) roots then NOk roots
    else NOk (roots ++ [x]))).
  Definition getRootSample (polys : list (pobj T)) (samples : list (list T)) : nres (list (list T)) :=
    fold_left (sampleStep polys) samples (NOk []).
End Newton.
