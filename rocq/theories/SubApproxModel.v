(** * Model of yroots/subdivision.py, lines 210-519: Chebyshev approximation with a shared work array *)
From Coq Require Import List Arith Bool.
From Verif Require Import Num Tensor LinearModel CombinedModel ApproxModel MakerModel.
Import ListNotations.

(** l[i] = x *)
Fixpoint lset {A} (i : nat) (x : A) (l : list A) : list A :=
  match l, i with [], _ => [] | _ :: l', O => x :: l' | y :: l', S i' => y :: lset i' x l' end.

Section SubApprox.
  Context {T : Type} {NT : Num T}.
  Local Open Scope num_scope.
  (** [cosn m d] is np.cos(m*np.pi/d) *)
  Variable cosn : nat -> nat -> T.
  (** what the k-th np.empty of the process holds *)
  Variable junk : nat -> list nat -> T.

  (** The arrays made by np.empty, by number; initialize_values_arr.memo, (dim, deg) with the number of the array, in
      insertion order; values_arr.memo, dim with the number of the array. *)
  Record wstate := mkW { arrays : list (tensor T); initM : list ((nat * nat) * nat); valM : list (nat * nat) }.
  (** at the start of the process *)
  Definition wstart : wstate := mkW [] [] [].
  Definition theArray (st : wstate) (id : nat) : tensor T := nth id (arrays st) (mkT [] []).
  Definition pairEqb (x y : nat * nat) : bool := Nat.eqb (fst x) (fst y) && Nat.eqb (snd x) (snd y).
  Fixpoint vget (dim : nat) (m : list (nat * nat)) : option nat :=
    match m with [] => None | (k, v) :: m' => if Nat.eqb dim k then Some v else vget dim m' end.
  Fixpoint vput (dim v : nat) (m : list (nat * nat)) : list (nat * nat) :=
    match m with [] => [(dim, v)] | (k, w) :: m' => if Nat.eqb dim k then (k, v) :: m' else (k, w) :: vput dim v m' end.
  (** np.empty((side,)*dim) *)
  Definition npEmpty (dim side : nat) (st : wstate) : wstate :=
    mkW (arrays st ++ [tbuild (repeat side dim) (junk (length (arrays st)))]) (initM st) (valM st).
  (** initialize_values_arr, lines 210-229, with Memoize (utils.py 11-22) *)
  Definition initialize_values_arr (dim deg : nat) (st : wstate) : wstate :=
    if existsb (fun e => pairEqb (fst e) (dim, deg)) (initM st) then st
    else let id := length (arrays st) in
         let st' := npEmpty dim (2 * deg) st in mkW (arrays st') (initM st' ++ [((dim, deg), id)]) (valM st').
  (** lines 143-144 of subdivide_to_linear *)
  Definition startSolve (dim deg : nat) (st : wstate) : wstate := initialize_values_arr dim (deg + 3) (mkW (arrays st) (initM st) []).
  (** lines 248-252: the first key of this dimension, else the last key *)
  Fixpoint firstKey (dim : nat) (m : list ((nat * nat) * nat)) : option nat :=
    match m with
    | [] => None
    | ((d, _), id) :: m' => if Nat.eqb d dim then Some id else match m' with [] => Some id | _ => firstKey dim m' end
    end.
  (** values_arr, lines 231-252, with Memoize; [None]: no key at all, UnboundLocalError *)
  Definition values_arr (dim : nat) (st : wstate) : option (nat * wstate) :=
    match vget dim (valM st) with
    | Some id => Some (id, st)
    | None => match firstKey dim (initM st) with
              | Some id => Some (id, mkW (arrays st) (initM st) (vput dim id (valM st)))
              | None => None
              end
    end.

  (** block_copy_slicers, lines 254-288: the positions slice(0, deg+1) or slice(deg+1, 2*deg) selects on an axis of the work
      array of length [side]; the positions of the block are [blockIdx] (MakerModel) *)
  Definition dstIdx (deg side : nat) (flip : bool) : list nat :=
    if flip then seq (deg + 1) (Nat.min (2 * deg) side - (deg + 1)) else seq 0 (Nat.min (deg + 1) side).
  (** numpy: an axis of the source broadcasts if it has the length of the target or length 1 *)
  Definition axisFits (deg side : nat) (flip : bool) : bool :=
    Nat.eqb (length (blockIdx deg flip)) (length (dstIdx deg side flip)) || Nat.eqb (length (blockIdx deg flip)) 1.
  Fixpoint allFit (deg : nat) (sides : list nat) (block : list bool) : bool :=
    match sides, block with s :: sides', f :: block' => axisFits deg s f && allFit deg sides' block' | _, _ => true end.
  (** the entry of the value block that values_cheb[cheb_idx] = values_block[block_idx] writes at [idx], if it writes there *)
  Fixpoint source (deg : nat) (sides : list nat) (block : list bool) (idx : list nat) : option (list nat) :=
    match sides, block, idx with
    | s :: sides', f :: block', i :: idx' =>
        match findPos i (dstIdx deg s f), source deg sides' block' idx' with
        | Some p, Some r => Some (nth (if Nat.eqb (length (blockIdx deg f)) 1 then 0 else p)%nat (blockIdx deg f) 0%nat :: r)
        | _, _ => None
        end
    | _, _, _ => Some []
    end.
  (** line 312; [None] is numpy's "could not broadcast input array" *)
  Definition assign (deg : nat) (vb arr : tensor T) (block : list bool) : option (tensor T) :=
    if allFit deg (shp arr) block
    then Some (tbuild (shp arr) (fun idx => match source deg (shp arr) block idx with Some src => tget vb src | None => tget arr idx end))
    else None.
  Definition setArray (id : nat) (t : tensor T) (st : wstate) : wstate := mkW (lset id t (arrays st)) (initM st) (valM st).
  (** lines 310-319; [id] is the array values_cheb names *)
  Fixpoint copyLoop (dim deg : nat) (vb : tensor T) (bls : list (list bool)) (id : nat) (st : wstate) : option (nat * wstate) :=
    match bls with
    | [] => Some (id, st)
    | bl :: bls' =>
        match assign deg vb (theArray st id) bl with
        | Some t => copyLoop dim deg vb bls' id (setArray id t st)
        | None =>
            let id' := length (arrays st) in
            let st1 := npEmpty dim (2 * deg) st in
            let st2 := mkW (arrays st1) (initM st1) (vput dim id' (valM st1)) in
            match values_arr dim st2 with
            | Some (id2, st3) =>
                match assign deg vb (theArray st3 id2) bl with
                | Some t => copyLoop dim deg vb bls' id2 (setArray id2 t st3)
                | None => None
                end
            | None => None
            end
        end
    end.
  (** chebyshev_block_copy, lines 290-320, on blocks with the same length along every axis (the code calls it with no other).
      The result is a view of the work array; the caller divides it into a new array (line 434) before the next call.
      [None]: an exception, which here can come only from a work array of another dimension. *)
  Definition chebyshev_block_copy (vb : tensor T) (st : wstate) : option (tensor T * wstate) :=
    let dim := ndim vb in
    let deg := pred (nth 0 (shp vb) 0%nat) in
    match values_arr dim st with
    | None => None
    | Some (id, st) =>
        if Nat.eqb (ndim (theArray st id)) dim then
          match copyLoop dim deg vb (blocks dim) id st with
          | None => None
          | Some (id, st) => let arr := theArray st id in Some (tbuild (map (Nat.min (2 * deg)) (shp arr)) (tget arr), st)
          end
        else None
    end.

  (** interval_approximate_nd, lines 391-441, with get_cheb_grid (365-388) and interval_approx_slicers (443-471); len(a) =
      len(b). evaluate_grid gives the values at the points of the grid. Coefficients and np.max(np.abs(values_block)). *)
  Definition interval_approximate_nd (f : fobj T) (a b : list T) (deg : nat) (st : wstate) : option (tensor T * T * wstate) :=
    let degs := repeat deg (length a) in
    let values_block := gridValues cosn f degs a b in
    match chebyshev_block_copy values_block st with
    | None => None
    | Some (values, st) => Some (coeffsOf cosn degs values, maxAbs (dat values_block), st)
    end.
  (** full_cheb_approximate, lines 473-519: (coeff or None, inf_norm, error) *)
  Definition full_cheb_approximate (f : fobj T) (a b : list T) (deg : nat) (abs_tol rel_tol : T) (good_deg : option nat) (st : wstate)
    : option ((option (tensor T) * T * T) * wstate) :=
    let good_deg := match good_deg with None => deg | Some g => g end in
    match interval_approximate_nd f a b good_deg st with
    | None => None
    | Some (coeff, _, st) =>
        match interval_approximate_nd f a b (good_deg * 2) st with
        | None => None
        | Some (coeff2, inf_norm, st) =>
            let error := get_err coeff coeff2 in
            Some ((if ngtb error (abs_tol + rel_tol * inf_norm) then None else Some coeff, inf_norm, error), st)
        end
    end.

  (** interval_approximate_1d, lines 322-362: coefficients, sign_change, inf_norm *)
  Definition extrema1 (a b : T) (deg : nat) : list T := map (fun j => transformPt (cosn j deg) a b) (seq 0 (2 * deg)).
  Definition interval_approximate_1d (f : T -> T) (a b : T) (deg : nat) : list T * bool * T :=
    let values := map f (extrema1 a b deg) in
    let fft := map (fun k => nsum (map (fun j => nth j values n0 / nofnat deg * cosn (j * k)%nat deg) (seq 0 (2 * deg)))) (seq 0 (2 * deg)) in
    let halved := map (fun k => let c := nth k fft n0 in let c := if Nat.eqb k 0 then c / n2 else c in if Nat.eqb k deg then c / n2 else c) (seq 0 (2 * deg)) in
    (firstn (deg + 1) halved,
     existsb (fun v => nltb n0 v) values && existsb (fun v => negb (nltb n0 v)) values,
     maxAbs values).
End SubApprox.
