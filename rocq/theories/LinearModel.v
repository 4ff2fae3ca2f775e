(** * Model of the linear reduction (yroots/ChebyshevSubdivisionSolver.py, lines 578-753) and of the
    constant-term test (lines 1213-1217). *)
From Coq Require Import List Arith Bool ZArith.
From Verif Require Import Num Tensor PolySpec TransformModel IntervalModel.
Import ListNotations.

Section Model.
  Context {T : Type} {NT : Num T}.
  Local Open Scope num_scope.

  (** getLinearTerms, lines 602-607: walk over the reversed shape; [spot] is the flat position. *)
  Fixpoint linTerms (dat : list T) (rshape : list nat) (spot : nat) : list T :=
    match rshape with
    | [] => []
    | i :: r => (if i =? 1 then n0 else nth spot dat n0) :: linTerms dat r (spot * i)
    end.
  Definition getLinearTerms (M : tensor T) : list T := rev (linTerms (dat M) (rev (shp M)) 1).

  (** the constant-term test of solvePolyRecursive, lines 1213-1217:
      [np.any(np.abs(consts) > err)] with err = sum|M| - |c| + e *)
  Definition constantCheck (Ms : list (tensor T)) (errors : list T) : bool :=
    existsb (fun p => let '(M, e) := p in
               let c := tconst M in ngtb (nabs c) (tsumabs M - nabs c + e)) (combine Ms errors).

  (** [np.max] of a list of absolute values (the lists here are never empty) *)
  Definition maxAbs (l : list T) : T := match map nabs l with [] => n0 | x :: r => nmaxl x r end.

  (** -inf / +inf bounds are [None] *)
  Definition omax (a : option T) (v : T) : option T := match a with None => Some v | Some x => Some (nmax x v) end.
  Definition omin (b : option T) (v : T) : option T := match b with None => Some v | Some x => Some (nmin x v) end.

  (** the two bounds of lines 618-623 *)
  Definition lcBounds (tE a c : T) : T * T :=
    let v1 := tE / nabs a - n1 in
    let v2 := n2 * c / a in
    if ngeb v2 n0 then (- v1, v1 - v2) else ((- v2) - v1, v1).

  (** One row of the linear system while it is being scaled: linear coefficients, constant,
      total error, error of everything but constant and linear part, approximation error. *)
  Record lrow := mkRow { lA : list T; lc : T; ltot : T; lerr : T; le : T }.

  (** linearCheck1, lines 609-626.  The loops over (row, col) are regrouped by column: column [col]
      sees the rows in the same order. *)
  Definition linCol (rows : list lrow) (col : nat) : option T * option T :=
    fold_left (fun ab r =>
        let x := nth col (lA r) n0 in
        if neqb x n0 then ab
        else let '(a_, b_) := lcBounds (ltot r) x (lc r) in (omax (fst ab) a_, omin (snd ab) b_))
      rows (None, None).
  Definition linearCheck1 (rows : list lrow) (dim : nat) : list (option T * option T) :=
    map (linCol rows) (seq 0 dim).

  (** lines 653-661: linear terms, constants, total errors *)
  Definition mkLRow (p : tensor T * T) : lrow :=
    let '(M, e) := p in
    let A := getLinearTerms M in
    let c := tconst M in
    let tE := tsumabs M + e in
    mkRow A c tE (tE - nabs c - nsumabs A) e.

  (** row scaling, lines 665-675 (linear_sums is not used afterwards) *)
  Definition scaleRow (r : lrow) : lrow :=
    let m := maxAbs (lA r) in
    if ngtb m n0 then
      let s := npow2fl (nabs m) in
      mkRow (map (fun x => x / s) (lA r)) (lc r / s) (ltot r / s) (lerr r / s) (le r / s)
    else r.

  (** column scaling, lines 677-684: one column; [2**(-floor(log2 m))] is written as 1/2^floor(log2 m),
      the same power of two. *)
  Definition scaleCol (st : list lrow * list T) (i : nat) : list lrow * list T :=
    let '(rows, cs) := st in
    let m := maxAbs (map (fun r => nth i (lA r) n0) rows) in
    if ngtb m n0 then
      let s := n1 / npow2fl (nabs m) in
      (map (fun r => mkRow (upd (lA r) i (nth i (lA r) n0 * s)) (lc r)
                       (ltot r + nabs (nth i (lA r) n0) * (s - n1)) (lerr r) (le r)) rows,
       upd cs i s)
    else (rows, cs).

  (** [Ainv = (1/S * Vh.T) @ U.T], line 694 *)
  Definition mget (A : list (list T)) (i j : nat) : T := nth j (nth i A []) n0.
  Definition invMat (dim : nat) (U : list (list T)) (Sv : list T) (Vh : list (list T)) : list (list T) :=
    map (fun i => map (fun k => nsum (map (fun j => n1 / nth j Sv n0 * mget Vh j i * mget U k j) (seq 0 dim))) (seq 0 dim)) (seq 0 dim).

  (** one pass of the loop of lines 698-728: bounds before scaling, well-conditioned refinement,
      column scaling, widening, throw-out test, clipping.  Returns the box and throwOut. *)
  Definition passBounds (wellConditioned : bool) (center width : list T) (cs : list T) (w : T)
      (ab : list (option T * option T)) : list (option T * option T) :=
    map (fun p => let '(i, (a, b)) := p in
           let a := if wellConditioned then omax a (nth i center n0 - nth i width n0) else a in
           let b := if wellConditioned then omin b (nth i center n0 + nth i width n0) else b in
           let s := nth i cs n0 in
           (option_map (fun v => v * s - w) a, option_map (fun v => v * s + w) b))
        (combine (seq 0 (length ab)) ab).
  Definition rowOut (p : option T * option T) : bool :=
    match p with
    | (Some a, Some b) => ngtb a b || ngtb a n1 || nltb b (- n1)
    | (Some a, None) => ngtb a n1
    | (None, Some b) => nltb b (- n1)
    | (None, None) => false
    end.
  Definition clipv (v : T) : T :=
    let v := if nltb v (- n1) then - n1 else v in if ngtb v n1 then n1 else v.
  Definition clipRow (p : option T * option T) : T * T :=
    (match fst p with None => - n1 | Some a => clipv a end, match snd p with None => n1 | Some b => clipv b end).
  Definition volRatio (dim : nat) (b : box T) : T := nprod (boxDims b) / nlit (2 ^ Z.of_nat dim) 1.

  (** The result of BoundingIntervalLinearSystem; [blNan]: every bound of the interval is NaN *)
  Record blRes := mkBL { blBox : box T; blNan : bool; blChanged : bool; blStop : bool; blThrow : bool }.

  (** line 692: the width added on both sides, as a function of condNum = S[-1]/S[0] *)
  Definition widthToAdd (condNum : T) : T := nmax condNum n2 * nlit 1 4503599627370496.

  (** BoundingIntervalLinearSystem, lines 628-753.  [svd] is np.linalg.svd.
      - If the largest singular value is 0, condNum and widthToAdd are NaN, every bound becomes NaN,
        all comparisons are false, and the call returns changed = False, throwOut = False and
        should_stop = finalStep; [blNan] is set and [blBox] holds a dummy.
      - When not wellConditioned, [a = a_init] (no copy), so the in-place operations of the first pass
        change a_init, the second pass starts from the clipped values, and a_orig is the array the
        second pass overwrites.  When wellConditioned, np.maximum allocates new arrays.
      - The write to the file "num_of_times" (lines 714-716) is not modelled.
      The function is parametrised by the rule [wid] for the added width; the code's rule is
      [widthToAdd] (see [boundingInterval] below). *)
  Definition boundingIntervalW (wid : T -> T) (svd : list (list T) -> list (list T) * list T * list (list T))
      (Ms : list (tensor T)) (errors : list T) (finalStep : bool) : blRes :=
    let errors := if finalStep then map (fun _ => n0) errors else errors in
    let dim := ndim (nth 0 Ms (mkT [] [])) in
    let rows := map scaleRow (map mkLRow (combine Ms errors)) in
    let '(rows, cs) := fold_left scaleCol (seq 0 dim) (rows, repeat n1 dim) in
    let '(U, Sv, Vh) := svd (map lA rows) in
    let S0 := nth 0 Sv n0 in
    if negb (ngtb S0 n0) then mkBL (repeat (n0, n0) dim) true false finalStep false
    else
      let condNum := nth (dim - 1) Sv n0 / S0 in
      let wellConditioned := ngtb condNum (nlit 1 10000000000) in
      let w := wid condNum in
      let Ainv := invMat dim U Sv Vh in
      let center := map (fun i => nsum (map (fun k => (- mget Ainv i k) * nth k (map lc rows) n0) (seq 0 dim))) (seq 0 dim) in
      let widthOf := fun err : list T => map (fun i => nsum (map (fun k => nabs (mget Ainv i k * nth k err n0)) (seq 0 dim))) (seq 0 dim) in
      let init := linearCheck1 rows dim in
      let force := finalStep && negb wellConditioned in
      (* first pass *)
      let ab1 := passBounds wellConditioned center (widthOf (map lerr rows)) cs w init in
      let thr1 := existsb rowOut ab1 in
      let box1 := map clipRow ab1 in
      let changed1 := thr1 || nltb (volRatio dim box1) (nlit 99 100) in
      if changed1 then mkBL box1 false true force thr1
      else
        (* second pass, with only the approximation errors *)
        let init2 := if wellConditioned then init else map (fun p => (Some (fst p), Some (snd p))) box1 in
        let ab2 := passBounds wellConditioned center (widthOf (map le rows)) cs w init2 in
        let thr2 := existsb rowOut ab2 in
        let box2 := map clipRow ab2 in
        let changed2 := thr2 || nltb (volRatio dim box2) (npow (nlit 4 10) dim) in
        let orig := if wellConditioned then box1 else box2 in
        if changed2 then mkBL orig false false force false
        else mkBL orig false false (wellConditioned || force) false.
  Definition boundingInterval := boundingIntervalW widthToAdd.
End Model.
Arguments lrow : clear implicits.
Arguments blRes : clear implicits.
