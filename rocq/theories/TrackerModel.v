(** * Model of yroots/RootTracker.py *)
From Coq Require Import List Arith Bool.
From Verif Require Import Num.
Import ListNotations.

(** Points and box corners are lists of coordinates, all of the length of the problem's dimension.
    numpy's array bookkeeping (vstack in several dimensions, hstack in one, the empty array of the right
    shape, lines 129-141 and 160-173) is simplified to appending to a list.  The attributes conds and
    grads (lines 60-61) are never used by the class and are left out. *)
Section Tracker.
  Context {T : Type} {NT : Num T} {M : Type}.
  Local Open Scope num_scope.
  Definition point := list T.

  (** rootInBox, lines 3-19 *)
  Definition rootInBox (root a b : point) : bool :=
    forallb (fun p => ngtb (fst p) (snd p)) (combine root a) && forallb (fun p => nltb (fst p) (snd p)) (combine root b).

  (** RootTracker.__init__, lines 53-61 *)
  Record tracker := mkTracker {
    roots : list point;
    possible_duplicates : list (point * point * point * M);
    potential_roots : list point;
    intervals : list (point * point);
    methods : list M }.
  Definition init : tracker := mkTracker [] [] [] [] [].

  (** add_root, lines 115-143 *)
  Definition add_root (s : tracker) (zero a b : point) (method : M) : tracker :=
    mkTracker (roots s ++ [zero]) (possible_duplicates s) (potential_roots s) (intervals s ++ [(a, b)]) (methods s ++ [method]).
  (** the body of the loop of lines 77-87 *)
  Definition add_one (a b : point) (method : M) (s : tracker) (zero : point) : tracker :=
    if rootInBox zero a b then add_root s zero a b method
    else if existsb (fun p => rootInBox zero (fst p) (snd p)) (intervals s) then s
    else mkTracker (roots s) (possible_duplicates s ++ [(zero, a, b, method)]) (potential_roots s) (intervals s) (methods s).
  (** lines 89-95: possible duplicates inside the box just searched are dropped *)
  Definition drop_inside (a b : point) (s : tracker) : tracker :=
    mkTracker (roots s) (filter (fun d => let '(zero, _, _, _) := d in negb (rootInBox zero a b)) (possible_duplicates s))
      (potential_roots s) (intervals s) (methods s).
  (** add_roots, lines 63-95 *)
  Definition add_roots (s : tracker) (zeros : list point) (a b : point) (method : M) : tracker :=
    drop_inside a b (fold_left (add_one a b method) zeros s).
  (** add_potential_roots, lines 145-175 *)
  Definition add_potential_roots (s : tracker) (potentials : list point) (a b : point) (method : M) : tracker :=
    mkTracker (roots s) (possible_duplicates s) (potential_roots s ++ potentials)
      (intervals s ++ repeat (a, b) (length potentials)) (methods s ++ repeat method (length potentials)).
  (** np.unique with axis=0: the distinct rows in lexicographic order *)
  Fixpoint lexlt (u v : point) : bool :=
    match u, v with x :: u', y :: v' => if nltb x y then true else if nltb y x then false else lexlt u' v' | _, _ => false end.
  Definition rowOf (p : point * point) : point := fst p ++ snd p.
  Fixpoint insertRow (p : point * point) (l : list (point * point)) : list (point * point) :=
    match l with
    | [] => [p]
    | q :: l' => if lexlt (rowOf p) (rowOf q) then p :: q :: l' else if lexlt (rowOf q) (rowOf p) then q :: insertRow p l' else q :: l'
    end.
  Definition uniqueRows (l : list (point * point)) : list (point * point) := fold_right insertRow [] l.
  (** get_polish_intervals, lines 177-191 *)
  Definition get_polish_intervals (s : tracker) : list (point * point) * tracker :=
    (uniqueRows (intervals s), mkTracker [] (possible_duplicates s) (potential_roots s) [] []).
  (** keep_possible_duplicates, lines 193-199 *)
  Definition keep_possible_duplicates (s : tracker) : tracker :=
    let s' := fold_left (fun s d => let '(zero, a, b, method) := d in add_root s zero a b method) (possible_duplicates s) s in
    mkTracker (roots s') [] (potential_roots s') (intervals s') (methods s').

  (** a call of a method, and a history of calls on a new tracker *)
  Inductive call :=
  | AddRoots (zeros : list point) (a b : point) (method : M)
  | AddRoot (zero a b : point) (method : M)
  | AddPotential (potentials : list point) (a b : point) (method : M)
  | Polish
  | Keep.
  Definition step (s : tracker) (c : call) : tracker :=
    match c with
    | AddRoots zs a b m => add_roots s zs a b m
    | AddRoot z a b m => add_root s z a b m
    | AddPotential ps a b m => add_potential_roots s ps a b m
    | Polish => snd (get_polish_intervals s)
    | Keep => keep_possible_duplicates s
    end.
  Definition run (h : list call) : tracker := fold_left step h init.
End Tracker.
Arguments tracker : clear implicits.
Arguments call : clear implicits.
