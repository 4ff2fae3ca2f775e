(** * Model of TrackedInterval (yroots/ChebyshevSubdivisionSolver.py, lines 376-576)

    A tracked interval is a record; a method that mutates the object returns the new
    record.  (Sharing of arrays between objects is the subject of [HeapModel].)
    Per-dimension pairs are lists of pairs: [interval] is the list of rows
    [(lower, upper)], a transform is the list of [(alpha, beta)] of all dimensions. *)
From Coq Require Import List Arith Bool ZArith.
From Verif Require Import Num Tensor PolySpec TransformModel.
Import ListNotations.

Section Model.
  Context {T : Type} {NT : Num T}.
  Local Open Scope num_scope.

  Definition box := list (T * T).

  Record tint := mkTint {
    top : box;                     (* topInterval *)
    ivl : box;                     (* interval *)
    trs : list box;                (* transforms, oldest first *)
    empt : bool;                   (* empty *)
    fin : bool;                    (* finalStep *)
    cthr : bool;                   (* canThrowOutFinalStep *)
    dups : list (list T);          (* possibleDuplicateRoots *)
    extra : bool;                  (* possibleExtraRoot *)
    npts : list T;                 (* nextTransformPoints *)
    preI : box;                    (* preFinalInterval (meaningful when finalStep) *)
    preT : list box                (* preFinalTransforms (meaningful when finalStep) *)
  }.

  (** TrackedInterval.__init__, lines 404-414. *)
  Definition newInterval (interval : box) : tint :=
    mkTint interval interval [] false false false [] false
      (repeat (nlit 394555475981047 10000000000000000) (length interval)) [] [].

  (** canThrowOut, lines 416-418. *)
  Definition canThrowOut (t : tint) : bool := negb (fin t) || cthr t.

  (** [np.any(subInterval[:,0] > subInterval[:,1])] *)
  Definition anyInverted (s : box) : bool := existsb (fun p => ngtb (fst p) (snd p)) s.

  (** the clamping of lines 432-437 *)
  Definition clampRow (p : T * T) : T * T :=
    let a := nmin (fst p) n1 in
    let a := nmax a (- n1) in
    let b := nmin (snd p) n1 in
    let b := nmax b a in
    (a, b).

  (** alpha, beta of a row: lines 438-442 *)
  Definition alphaBeta (p : T * T) : T * T := ((snd p - fst p) / n2, (snd p + fst p) / n2).

  (** the new bounds of one dimension, lines 444-454: lower bound first, then the upper bound,
      reading the already updated row. *)
  Definition newRow (s old : T * T) : T * T :=
    let '(alpha2, beta2) := alphaBeta old in
    let nb := fun x (row : T * T) =>
      if neqb x (- n1) then fst row else if neqb x n1 then snd row else alpha2 * x + beta2 in
    let row := (nb (fst s) old, snd old) in
    (fst row, nb (snd s) row).

  (** addTransform, lines 420-454.  (The clamped sub-interval is also written back into the
      caller's array; no caller uses it afterwards.) *)
  Definition addTransform (t : tint) (sub : box) : tint :=
    if anyInverted sub && canThrowOut t then
      mkTint (top t) (ivl t) (trs t) true (fin t) (cthr t) (dups t) (extra t) (npts t) (preI t) (preT t)
    else
      let sub := if anyInverted sub then map clampRow sub else sub in
      mkTint (top t) (map (fun p => newRow (fst p) (snd p)) (combine sub (ivl t)))
        (trs t ++ [map alphaBeta sub])
        (empt t) (fin t) (cthr t) (dups t) (extra t) (npts t) (preI t) (preT t).

  (** getLastTransform, lines 456-458; [None]: IndexError on an empty list. *)
  Definition getLastTransform (t : tint) : option box :=
    match rev (trs t) with [] => None | x :: _ => Some x end.

  (** One step of the loops of lines 475-479 and 508-512 on one bound: value and error term. *)
  Definition applyEF (ab : T * T) (ve : T * T) : T * T :=
    let '(alpha, beta) := ab in
    let '(v, e) := ve in
    let '(v1, temp) := TwoProd v alpha in
    let e1 := alpha * e + temp in
    let '(v2, temp2) := TwoSum v1 beta in
    (v2, e1 + temp2).

  (** a column of the transform list: the (alpha,beta) pairs of dimension d *)
  Definition trCol (trs : list box) (d : nat) : list (T * T) := map (fun tr => nth d tr (n0, n0)) trs.

  (** bound [v] of dimension [d] pushed through all recorded transforms, last one first *)
  Definition pushEF (trs : list box) (d : nat) (v : T) : T * T :=
    fold_left (fun ve ab => applyEF ab ve) (rev (trCol trs d)) (v, n0).

  (** the final interval of a list of transforms: finalInterval + finalIntervalError *)
  Definition finalBox (tp : box) (trs : list box) : box :=
    map (fun p => let '(d, (lo, hi)) := p in
           let '(l, le) := pushEF trs d lo in
           let '(h, he) := pushEF trs d hi in (l + le, h + he))
        (combine (seq 0 (length tp)) tp).

  (** getFinalInterval, lines 460-489 (finalAlpha and finalBeta, set at lines 485-488, are
      never read by the package and are left out). *)
  Definition getFinalInterval (t : tint) : box :=
    finalBox (top t) (if fin t then preT t else trs t).

  Definition midpoint (b : box) : list T := map (fun p => (fst p + snd p) / n2) b.

  (** getFinalPoint, lines 491-514.  Without the final step it reads the attribute set by the
      last getFinalInterval call, which is what [getFinalInterval] returns. *)
  Definition getFinalPoint (t : tint) : list T :=
    if negb (fin t) then midpoint (getFinalInterval t)
    else midpoint (finalBox (top t) (trs t)).

  (** size, lines 516-518; dimSize, lines 520-522; finalDimSize, lines 524-526. *)
  Definition boxDims (b : box) : list T := map (fun p => snd p - fst p) b.
  Definition size (t : tint) : T := nprod (boxDims (ivl t)).
  Definition dimSize (t : tint) : list T := boxDims (ivl t).
  Definition finalDimSize (t : tint) : list T := boxDims (getFinalInterval t).

  (** copy, lines 528-542.  The fields that only exist in the final step are copied only then. *)
  Definition copyT (t : tint) : tint :=
    mkTint (top t) (ivl t) (trs t) (empt t) (fin t)
      (if fin t then cthr t else false) (if fin t then dups t else [])
      (if fin t then extra t else false) (npts t)
      (if fin t then preI t else []) (if fin t then preT t else []).

  (** __contains__, lines 544-546. *)
  Definition containsPt (t : tint) (pt : list T) : bool :=
    forallb (fun p => ngeb (fst p) (fst (snd p))) (combine pt (ivl t)) &&
    forallb (fun p => nleb (fst p) (snd (snd p))) (combine pt (ivl t)).

  (** getIntervalForCombining, lines 568-570. *)
  Definition getIntervalForCombining (t : tint) : box := if fin t then preI t else ivl t.

  (** overlapsWith, lines 548-556. *)
  Definition boxesOverlap (b1 b2 : box) : bool :=
    forallb (fun p => negb (ngtb (fst (fst p)) (snd (snd p)) || ngtb (fst (snd p)) (snd (fst p)))) (combine b1 b2).
  Definition overlapsWith (t1 t2 : tint) : bool :=
    boxesOverlap (getIntervalForCombining t1) (getIntervalForCombining t2).

  (** isPoint, lines 558-560. *)
  Definition isPoint (t : tint) : bool :=
    forallb (fun p => nltb (nabs (fst p - snd p)) (nlit 1 100000000000000000000000000000000)) (ivl t).

  (** startFinalStep, lines 562-566. *)
  Definition startFinalStep (t : tint) : tint :=
    mkTint (top t) (ivl t) (trs t) (empt t) true (cthr t) (dups t) (extra t) (npts t) (ivl t) (trs t).

  (** attribute assignments used by the solver *)
  Definition setEmpty (t : tint) : tint :=
    mkTint (top t) (ivl t) (trs t) true (fin t) (cthr t) (dups t) (extra t) (npts t) (preI t) (preT t).
  Definition setCanThrow (t : tint) : tint :=
    mkTint (top t) (ivl t) (trs t) (empt t) (fin t) true (dups t) (extra t) (npts t) (preI t) (preT t).
  Definition setExtra (t : tint) : tint :=
    mkTint (top t) (ivl t) (trs t) (empt t) (fin t) (cthr t) (dups t) true (npts t) (preI t) (preT t).
  Definition setDups (t : tint) (d : list (list T)) : tint :=
    mkTint (top t) (ivl t) (trs t) (empt t) (fin t) (cthr t) d (extra t) (npts t) (preI t) (preT t).
  Definition setInterval (t : tint) (b : box) : tint :=
    mkTint (top t) b (trs t) (empt t) (fin t) (cthr t) (dups t) (extra t) (npts t) (preI t) (preT t).
  Definition setTransforms (t : tint) (l : list box) : tint :=
    mkTint (top t) (ivl t) l (empt t) (fin t) (cthr t) (dups t) (extra t) (npts t) (preI t) (preT t).
  Definition setNext (t : tint) (l : list T) : tint :=
    mkTint (top t) (ivl t) (trs t) (empt t) (fin t) (cthr t) (dups t) (extra t) l (preI t) (preT t).
End Model.
Arguments box : clear implicits.
Arguments tint : clear implicits.
