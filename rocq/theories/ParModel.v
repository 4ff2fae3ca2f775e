(** * Model of LinearProjection.py lines 89-92 (the map T of project_down) and 153-226 (bounding_parallelepiped) *)
From Coq Require Import List Arith Bool ZArith.
From Verif Require Import Num Tensor LinAlgModel.
Import ListNotations.
Local Open Scope nat_scope.
Local Open Scope num_scope.

Section Par.
  Context {T : Type} {NT : Num T}.

  (** product of the rows of coord, all equal to (-1, 1), lines 181-182 and 194 *)
  Fixpoint corners (k : nat) : list (list T) :=
    match k with O => [[]] | S k' => map (cons (- n1)) (corners k') ++ map (cons n1) (corners k') end.
  (** pt[:i] + (v,) + pt[i:], line 194 *)
  Definition insertAt (i : nat) (v : T) (pt : list T) : list T := firstn i pt ++ v :: skipn i pt.
  (** np.isclose(c, 0): |c - 0| <= 1e-8 + 1e-5 * |0|, line 200 *)
  Definition closeTo0 (c : T) : bool := nleb (nabs c) (nlit 1 100000000).
  (** lines 195-199 for one point: -const minus c_j * pt_j over all j other than i *)
  Definition restOf (const : T) (coeff : list T) (i : nat) (pt : list T) : T :=
    fold_left (fun val j => if i =? j then val else val - nth j coeff n0 * nth j pt n0) (seq 0 (length coeff)) (- const).
  (** the points of pts[mask], lines 194-206: with coeff[i] close to 0 the entries are nan and no comparison holds *)
  Definition edgePoints (const : T) (coeff : list T) (i : nat) : list (list T) :=
    if closeTo0 (nth i coeff n0) then []
    else filter (forallb (fun v => nleb (- n1) v && nleb v n1))
           (map (fun pt => insertAt i (restOf const coeff i (insertAt i n0 pt) / nth i coeff n0) pt) (corners (length coeff - 1))).

  (** np.unique(_, axis=0), line 216: the different rows in lexicographic order *)
  Fixpoint lexCompare (p q : list T) : comparison :=
    match p, q with
    | a :: p', b :: q' => if nltb a b then Lt else if nltb b a then Gt else lexCompare p' q'
    | [], [] => Eq | [], _ => Lt | _, [] => Gt
    end.
  Fixpoint insertRow (p : list T) (l : list (list T)) : list (list T) :=
    match l with
    | [] => [p]
    | q :: l' => match lexCompare p q with Lt => p :: l | Eq => l | Gt => q :: insertRow p l' end
    end.
  Definition uniqueRows (l : list (list T)) : list (list T) := fold_right insertRow [] l.

  (** lines 183-187: None is the IndexError of an axis that is too short *)
  Definition linearPart (linear : tensor T) : option (T * list T) :=
    match item linear (repeat 0 (ndim linear)), optAll (map (fun i => item linear (unitIdx (ndim linear) i)) (seq 0 (ndim linear))) with
    | Some c, Some l => Some (c, l)
    | _, _ => None
    end.

  (** np.min, np.max of a non-empty row, lines 221-222 *)
  Definition minOf (f : nat -> T) (k : nat) : T := fold_left (fun a c => nmin a (f c)) (seq 1 (k - 1)) (f 0%nat).
  Definition maxOf (f : nat -> T) (k : nat) : T := fold_left (fun a c => nmax a (f c)) (seq 1 (k - 1)) (f 0%nat).

  (** vert after line 216, and the columns of vert_shift.T, line 218, the argument of qr *)
  Definition vertices (const : T) (coeff : list T) : list (list T) := uniqueRows (flat_map (edgePoints const coeff) (seq 0 (length coeff))).
  Definition shiftedBy (v0 : list T) (vs : list (list T)) : list (list T) := map (fun v => map (fun p => fst p - snd p) (combine v v0)) vs.

  (** bounding_parallelepiped, lines 153-226.  [qr] is scipy's qr(_, pivoting=True) of the matrix with the given columns, [qr0] is
      np.linalg.qr; both give Q and R as functions of row and column.  The result is p0 and edges[:, r] for every r.
      For two and more variables: with one variable the array of line 194 holds integers and line 201 cuts the fraction off. *)
  Definition bounding_parallelepiped (qr qr0 : nat -> list (list T) -> @matrix T * @matrix T) (linear : tensor T) : option (list T * list (list T)) :=
    match linearPart linear with
    | None => None
    | Some (const, coeff) =>
        let dim := length coeff in
        match vertices const coeff with
        | [] =>
            let s := nsum (map (fun c => c * c) coeff) in
            let Q := fst (qr0 dim (coeff :: map (fun j => upd (repeat n0 dim) j n1) (seq 0 (dim - 1)))) in
            Some (map (fun c => (- const) / s * c) coeff, map (fun r => map (fun j => Q j r) (seq 0 dim)) (seq 1 (dim - 1)))
        | v0 :: vs =>
            let shifted := shiftedBy v0 (v0 :: vs) in
            let '(Q, U) := qr dim shifted in
            let k := length shifted in
            let lo := fun r => minOf (U r) k in
            let hi := fun r => maxOf (U r) k in
            Some (map (fun j => nsum (map (fun r => Q j r * lo r) (seq 0 (dim - 1))) + nth j v0 n0) (seq 0 dim),
                  map (fun r => map (fun j => Q j r * (hi r - lo r)) (seq 0 dim)) (seq 0 (dim - 1)))
        end
    end.

  (** the map T of project_down, lines 89-92: np.dot(A, x) + v with A = edges/2 and v = p0 + np.mean(edges, axis=1) *)
  Definition projectionMap (p0 : list T) (edges : list (list T)) (x : list T) : list T :=
    map (fun j => nsum (map (fun p => nth j (fst p) n0 / n2 * snd p) (combine edges x))
                  + (nth j p0 n0 + nsum (map (fun e => nth j e n0) edges) / nofnat (length edges))) (seq 0 (length p0)).
End Par.
