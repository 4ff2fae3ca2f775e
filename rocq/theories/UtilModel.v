(** * Model of small helpers of yroots/utils.py: clean_zeros_from_matrix, divides, quotient, sorted_polys_monomial,
    row_swap_matrix, match_poly_dimensions and sortRoots *)
From Coq Require Import List Arith Bool ZArith.
From Verif Require Import Num Tensor PolyModel.
Import ListNotations.

(** fancy indexing [l[order]] of a list of rows; np.argsort gives positions below [length l] *)
Definition takeAt {A} (d : A) (l : list A) (order : list nat) : list A := map (fun i => nth i l d) order.

Section Util.
  Context {T : Type} {NT : Num T}.
  Local Open Scope num_scope.

  (** clean_zeros_from_matrix, lines 131-146, on the data of the array: [array[(array < acc) & (array > -acc)] = 0].
      (The array is changed in place and returned.) *)
  Definition cleanEntry (acc v : T) : T := if nltb v acc && ngtb v (- acc) then n0 else v.
  Definition clean_zeros (acc : T) (t : tensor T) : tensor T := mkT (shp t) (map (cleanEntry acc) (dat t)).

  (** row_swap_matrix, lines 264-289.  [np.where(row!=0)[0][0]]: the first nonzero column; IndexError ([None])
      if there is none. *)
  Fixpoint leadCol (row : list T) : option nat :=
    match row with
    | [] => None
    | v :: r => if negb (neqb v n0) then Some 0%nat else option_map S (leadCol r)
    end.
  Fixpoint leadCols (rows : list (list T)) : option (list nat) :=
    match rows with
    | [] => Some []
    | r :: rs => match leadCol r, leadCols rs with Some c, Some cs => Some (c :: cs) | _, _ => None end
    end.
  Definition row_swap (argsort : list nat -> list nat) (rows : list (list T)) : option (list (list T)) :=
    match leadCols rows with None => None | Some cs => Some (takeAt [] rows (argsort cs)) end.

  (** sorted_polys_monomial, lines 237-262; [len(np.where(coeff != 0)[0])] is the number of nonzero entries *)
  Definition numMonomials (t : tensor T) : nat := length (filter (fun v => negb (neqb v n0)) (dat t)).
  Definition sorted_polys_monomial (argsort : list nat -> list nat) (polys : list (tensor T)) : list (tensor T) :=
    takeAt (mkT [] []) polys (argsort (map numMonomials polys)).

  (** match_poly_dimensions, lines 572-594.  The polynomials are objects: the list holds references into a store,
      and [poly.__init__] overwrites the object (its coefficients are cleaned, polynomial.py:137-153).
      [None]: max() of an empty list raises ValueError. *)
  Definition store := list (tensor T).
  Definition noTens : tensor T := mkT [] [].
  Definition matchOne (dim : nat) (st : store) (p : nat) : store :=
    let t := nth p st noTens in
    if negb (Nat.eqb (ndim t) dim) then upd st p (clean (mkT (repeat 1%nat (dim - ndim t) ++ shp t) (dat t))) else st.
  Definition maxDim (st : store) (polys : list nat) : nat := fold_right Nat.max 0%nat (map (fun p => ndim (nth p st noTens)) polys).
  Definition match_poly_dimensions (st : store) (polys : list nat) : option (list nat * store) :=
    match polys with
    | [] => None
    | _ => Some (polys, fold_left (matchOne (maxDim st polys)) polys st)
    end.

  (** sortRoots, lines 1499-1510.  [G] is the state of numpy's global generator, [seedG] is np.random.seed and
      [drawG] is np.random.rand. *)
  Definition dotRow (x r : list T) : T := nsum (map (fun p => fst p * snd p) (combine x r)).
  Definition sortRoots {G S : Type} (argsort : list T -> list nat) (seedG : S -> G) (drawG : G -> nat -> list T * G)
      (seed : S) (g : G) (ncols : nat) (roots : list (list T)) : list (list T) * G :=
    match roots with
    | [] => (roots, g)
    | _ =>
        let '(r, g') := drawG (seedG seed) ncols in
        (takeAt [] roots (argsort (map (fun x => dotRow x r) roots)), g')
    end.
End Util.

(** divides, lines 148-162, and quotient, lines 202-214, on exponent tuples of the same length.  (np.subtract
    broadcasts a tuple of length 1 and raises for other lengths.) *)
Definition quotient (a b : list Z) : list Z := map (fun p => (fst p - snd p)%Z) (combine a b).
Definition divides (m1 m2 : list Z) : bool := forallb (fun d => (0 <=? d)%Z) (quotient m2 m1).
