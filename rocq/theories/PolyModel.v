(** * Model of yroots/polynomial.py: MultiCheb and MultiPower objects *)
From Coq Require Import List ZArith Arith Bool.
From Verif Require Import Num Tensor PolySpec TransformModel.
Import ListNotations.
Local Open Scope num_scope.

(** A result or the Python exception that is raised instead. *)
Inductive pyres (A : Type) := Val (v : A) | ValueError.
Arguments Val {A} v.
Arguments ValueError {A}.

Section Poly.
  Context {T : Type} {NT : Num T}.

  (** ** Evaluation kernels on the list of coefficients along one axis
      numpy evaluates them on whole slices at once; every operation is elementwise, so the model runs
      them on each fibre. *)

  (** polyval / polyval2, polynomial.py:47-57 (Horner).  The tensor has at least one coefficient per
      axis; [cc[-1]] of an empty array would raise IndexError. *)
  Definition polyval (x : T) (cc : list T) : T :=
    match rev cc with
    | [] => n0
    | c :: r => fold_left (fun c0 ci => ci + c0 * x) r c
    end.

  (** chebval / chebval2, polynomial.py:59-91 (Clenshaw). *)
  Definition chebval (x : T) (cc : list T) : T :=
    let '(c0, c1) :=
      match rev cc with
      | [] => (n0, n0)
      | [c] => (c, n0)
      | [c1; c0] => (c0, c1)
      | c1 :: c0 :: r =>
          let x2 := n2 * x in
          fold_left (fun c ci => let '(c0, c1) := c in (ci - c1, c0 + c1 * x2)) r (c0, c1)
      end in
    c0 + c1 * x.

  (** One evaluation step: the first axis is evaluated away at [x]; the other axes stay.
      MultiCheb.__call__ / MultiPower.__call__ lines 333-338 and 519-524. *)
  Definition evalAxis0 (ev : T -> list T -> T) (x : T) (t : tensor T) : tensor T :=
    tbuild (tl (shp t)) (fun r => ev x (fibre t 0 (0%nat :: r))).
  (** one point: axis after axis *)
  Fixpoint evalPoint (ev : T -> list T -> T) (t : tensor T) (x : list T) : tensor T :=
    match x with
    | [] => t
    | x0 :: xs => evalPoint ev (evalAxis0 ev x0 t) xs
    end.
  (** the value at one point: [c[0]] at the end *)
  Definition evalAt (ev : T -> list T -> T) (t : tensor T) (x : list T) : T := tconst (evalPoint ev t x).

  (** what a caller may pass as points: a number, a 1-D array, or a 2-D array with [ncols] columns *)
  Inductive points := PScalar (x : T) | PVec (l : list T) | PMat (ncols : nat) (rows : list (list T)).

  (** Polynomial.__call__, polynomial.py:176-205: normalise the points to rows and check their width. *)
  Definition normPoints (dim : nat) (p : points) : pyres (list (list T)) :=
    let '(ncols, rows) :=
      match p with
      | PMat nc rows => (nc, rows)
      | PScalar x => if Nat.ltb 1 dim then (1%nat, [[x]]) else (1%nat, map (fun v => [v]) [x])
      | PVec l => if Nat.ltb 1 dim then (length l, [l]) else (1%nat, map (fun v => [v]) l)
      end in
    if Nat.eqb ncols dim then Val rows else ValueError.

  (** MultiCheb.__call__ (polynomial.py:317-342) and MultiPower.__call__ (503-528): the array has one
      value per row.  (The final test [len(c) == 1] always holds: the leading axis of [c] comes from the
      [(1,)*points.ndim] in the reshape and has length 1.) *)
  Definition polyCall (ev : T -> list T -> T) (t : tensor T) (p : points) : pyres (list T) :=
    match normPoints (ndim t) p with
    | ValueError => ValueError
    | Val rows => Val (map (evalAt ev t) rows)
    end.

  (** one step of evaluate_grid, polynomial.py:364-366 / 550-552: the first axis is evaluated at all the
      points [xs] and the results become a new last axis. *)
  Definition gridAxis0 (ev : T -> list T -> T) (xs : list T) (t : tensor T) : tensor T :=
    tbuild (tl (shp t) ++ [length xs])
           (fun r => ev (nth (last r 0%nat) xs n0) (fibre t 0 (0%nat :: removelast r))).
  (** evaluate_grid, polynomial.py:344-371 / 530-557, for given columns (the last two lines only turn a
      one-element array into its element). *)
  Fixpoint gridEval (ev : T -> list T -> T) (t : tensor T) (cols : list (list T)) : tensor T :=
    match cols with
    | [] => t
    | xs :: cols' => gridEval ev (gridAxis0 ev xs t) cols'
    end.
  (** [xyz] is normalised as in a call, then its columns are used *)
  Definition evaluateGrid (ev : T -> list T -> T) (t : tensor T) (p : points) : pyres (tensor T) :=
    match normPoints (ndim t) p with
    | ValueError => ValueError
    | Val rows => Val (gridEval ev t (map (fun i => map (fun r => nth i r n0) rows) (seq 0 (ndim t))))
    end.

  (** ** Cleaning, sizes and arithmetic *)

  (** the entries of the last slice along [ax] *)
  Definition lastSlice (ax : nat) (t : tensor T) : list T :=
    map (fun r => tget t (upd r ax (nth ax (shp t) 0%nat - 1)%nat)) (indices (upd (shp t) ax 1%nat)).
  (** np.delete(coeff, -1, axis) *)
  Definition dropLast (ax : nat) (t : tensor T) : tensor T :=
    tbuild (upd (shp t) ax (nth ax (shp t) 0%nat - 1)%nat) (tget t).
  (** the while loop of clean_coeff on one axis, polynomial.py:160-174; it makes at most as many rounds
      as the axis is long, which is the recursion measure here *)
  Fixpoint cleanAxis (fuel : nat) (ax : nat) (t : tensor T) : tensor T :=
    match fuel with
    | O => t
    | S fuel' =>
        if Nat.eqb (nth ax (shp t) 0%nat) 1 then t
        else if neqb (nsumabs (lastSlice ax t)) n0 then cleanAxis fuel' ax (dropLast ax t) else t
    end.
  (** clean_coeff, polynomial.py:155-174 *)
  Definition clean (t : tensor T) : tensor T :=
    fold_left (fun t ax => cleanAxis (nth ax (shp t) 0%nat) ax t) (seq 0 (ndim t)) t.

  Fixpoint inrangeb (s idx : list nat) : bool :=
    match s, idx with
    | [], [] => true
    | n :: s', i :: idx' => Nat.ltb i n && inrangeb s' idx'
    | _, _ => false
    end.
  (** [new = zeros(shape); new[slice_top(t.shape)] = t], polynomial.py:6-21, 39-40 *)
  Definition pad (s : list nat) (t : tensor T) : tensor T :=
    tbuild s (fun idx => if inrangeb (shp t) idx then tget t idx else n0).
  Fixpoint maxShape (s1 s2 : list nat) : list nat :=
    match s1, s2 with
    | a :: s1', b :: s2' => Nat.max a b :: maxShape s1' s2'
    | _, _ => []
    end.
  (** match_size, polynomial.py:23-43, for arrays with the same number of axes.  (For different numbers
      of axes numpy raises or, if one operand is 1-D, broadcasts; the model raises.) *)
  Definition matchSize (a b : tensor T) : pyres (tensor T * tensor T) :=
    if Nat.eqb (ndim a) (ndim b) then
      let s := maxShape (shp a) (shp b) in Val (pad s a, pad s b)
    else ValueError.
  (** the common beginning of __add__, __sub__, __mul__ (polynomial.py:291-294 and copies) *)
  Definition sameSize (a b : tensor T) : pyres (tensor T * tensor T) :=
    if list_eq_dec Nat.eq_dec (shp a) (shp b) then Val (a, b) else matchSize a b.
  Definition pmap {A B} (f : A -> B) (r : pyres A) : pyres B :=
    match r with Val v => Val (f v) | ValueError => ValueError end.

  (** elementwise binary operation on arrays of one shape *)
  Definition tzip (f : T -> T -> T) (a b : tensor T) : tensor T :=
    tbuild (shp a) (fun idx => f (tget a idx) (tget b idx)).

  (** MultiCheb.__add__, polynomial.py:278-296 (cleans the result) *)
  Definition chebAdd (a b : tensor T) : pyres (tensor T) := pmap (fun p => clean (tzip nadd (fst p) (snd p))) (sameSize a b).
  (** MultiCheb.__sub__, polynomial.py:298-315 (does not clean) *)
  Definition chebSub (a b : tensor T) : pyres (tensor T) := pmap (fun p => tzip nsub (fst p) (snd p)) (sameSize a b).
  (** MultiPower.__add__, __sub__, polynomial.py:443-480 *)
  Definition powAdd (a b : tensor T) : pyres (tensor T) := pmap (fun p => tzip nadd (fst p) (snd p)) (sameSize a b).
  Definition powSub (a b : tensor T) : pyres (tensor T) := pmap (fun p => tzip nsub (fst p) (snd p)) (sameSize a b).

  (** componentwise difference of two multi-indices, if it is one *)
  Fixpoint subIdx (k i : list nat) : option (list nat) :=
    match k, i with
    | [], [] => Some []
    | a :: k', b :: i' => if Nat.leb b a then match subIdx k' i' with Some r => Some (Nat.sub a b :: r) | None => None end else None
    | _, _ => None
    end.
  Fixpoint convShape (s1 s2 : list nat) : list nat :=
    match s1, s2 with
    | a :: s1', b :: s2' => Nat.sub (a + b) 1 :: convShape s1' s2'
    | _, _ => []
    end.
  (** scipy.signal.convolve(a, b) ("full"): out[k] = sum_i a[i] b[k-i].  scipy may do this with an FFT,
      which differs from the direct sum by rounding only; the model is the direct sum. *)
  Definition convolve (a b : tensor T) : tensor T :=
    tbuild (convShape (shp a) (shp b)) (fun k =>
      nsum (map (fun i => match subIdx k i with
                          | Some j => if inrangeb (shp b) j then tget a i * tget b j else n0
                          | None => n0 end) (indices (shp a)))).
  (** MultiPower.__mul__, polynomial.py:482-501 (cleans the result) *)
  Definition powMul (a b : tensor T) : pyres (tensor T) := pmap (fun p => clean (convolve (fst p) (snd p))) (sameSize a b).

  (** np.allclose on arrays of one shape: |a-b| <= 1e-8 + 1e-5*|b| everywhere *)
  Definition allcloseT (a b : list T) : bool :=
    forallb (fun p => nleb (nabs (fst p - snd p)) (nlit 1 100000000 + nlit 1 100000 * nabs (snd p))) (combine a b).
  (** Polynomial.__eq__, polynomial.py:227-233 *)
  Definition polyEq (a b : tensor T) : bool :=
    if list_eq_dec Nat.eq_dec (shp a) (shp b) then allcloseT (dat a) (dat b) else false.

  (** ** MultiPower.to_cheb *)

  (** the positions start, start+2, ... below stop *)
  Definition evens (start stop : nat) : list nat :=
    map (fun k => start + 2 * k)%nat (seq 0 ((stop - start + 1) / 2)).
  (** get_new_As, polynomial.py:589-614.  [Bs[-1]] is index n, the stop [-2] is n-1 for Bs and n-2 for As. *)
  Definition getNewAs (As : list T) : list T :=
    let n := length As in
    match n with
    | 0 => [n1]
    | 1 => upd (repeat n0 2) 1 (g As 0)
    | _ =>
      let Bs := repeat n0 (n + 1) in
      let Bs := if Nat.eqb (n mod 2) 0 then upd Bs 0 (g As 1 / n2) else Bs in
      let Bs := upd Bs n (g As (n - 1) / n2) in
      if Nat.eqb n 2 then upd Bs 1 (g As 0)
      else
        let Bs := if Nat.eqb (n mod 2) 1 then upd Bs 1 (g As 0 + g As 2 / n2) else Bs in
        if Nat.ltb 3 n then
          let p := (n mod 2)%nat in
          fold_left (fun B v => upd B (fst v) (snd v))
            (combine (evens (2 + p) (n - 1))
               (map (fun v => (g As (fst v) + g As (snd v)) / n2) (combine (evens (1 + p) (n - 2)) (evens (3 + p) n)))) Bs
        else Bs
    end.
  (** to_cheb1D on one fibre, polynomial.py:615-626: [out[:i+1] += As * coeff] for each coefficient *)
  Definition toCheb1D (coeffs : list T) : list T :=
    snd (fold_left (fun st c =>
           let As := getNewAs (fst st) in
           (As, map (fun k => if Nat.ltb k (length As) then g (snd st) k + g As k * c else g (snd st) k) (seq 0 (length coeffs))))
         coeffs ([], repeat n0 (length coeffs))).
  (** to_chebND, polynomial.py:627-635 *)
  Definition toChebND (t : tensor T) (dim : nat) : tensor T :=
    let order := dim :: seq 0 dim ++ seq (dim + 1) (ndim t - (dim + 1)) in
    let backOrder := scatter order (seq 0 (ndim t)) in
    transpose (apply_axis0 toCheb1D (transpose t order)) backOrder.
  (** to_cheb, polynomial.py:587-640 *)
  Definition toCheb (t : tensor T) : tensor T := fold_left toChebND (seq 0 (ndim t)) t.

  (** ** Gradients *)

  (** numpy.polynomial.polynomial.polyder, first derivative, along one axis (numpy, not in /repo):
      a constant gives [c[:1]*0]. *)
  Definition polyder (c : list T) : list T :=
    match c with
    | [] => []
    | [a] => [a * n0]
    | _ :: r => map (fun k => nofnat (k + 1) * g r k) (seq 0 (length r))
    end.
  (** numpy.polynomial.chebyshev.chebder, first derivative (numpy, not in /repo):
      for j in range(n, 2, -1): der[j-1] = (2*j)*c[j]; c[j-2] += (j*c[j])/(j-2)
      if n > 1: der[1] = 4*c[2];   der[0] = c[1] *)
  Definition chebder (c : list T) : list T :=
    match c with
    | [] => []
    | [a] => [a * n0]
    | _ =>
      let n := Nat.sub (length c) 1 in
      let '(c, der) := fold_left (fun st j =>
          let '(c, der) := st in
          (upd c (j - 2) (g c (j - 2) + (nofnat j * g c j) / nofnat (j - 2)), upd der (j - 1) (nofnat (2 * j) * g c j)))
        (rev (seq 3 (n - 2))) (c, repeat n0 n) in
      let der := if Nat.ltb 1 n then upd der 1 (nlit 4 1 * g c 2) else der in
      upd der 0 (g c 1)
    end.
  (** a 1-D map along axis [ax] of a tensor (numpy does this with moveaxis) *)
  Definition alongAxis (F : list T -> list T) (ax : nat) (t : tensor T) : tensor T :=
    tbuild (upd (shp t) ax (length (F (fibre t ax (repeat 0%nat (ndim t))))))
           (fun idx => g (F (fibre t ax idx)) (nth ax idx 0%nat)).
  (** MultiCheb.grad (polynomial.py:373-400) and MultiPower.grad (559-586): the derivative tensors are
      computed on the first call and kept in [jac]; [point] is checked like the argument of a call and
      then used coordinate by coordinate (chebvalnd / polyvalnd, 647-691). *)
  Definition jacobian (der : list T -> list T) (t : tensor T) : list (tensor T) :=
    map (fun i => alongAxis der i t) (seq 0 (ndim t)).
  Definition grad (ev : T -> list T -> T) (der : list T -> list T) (t : tensor T) (jac : option (list (tensor T))) (point : list T)
    : pyres (list T * option (list (tensor T))) :=
    match normPoints (ndim t) (PVec point) with
    | ValueError => ValueError
    | Val _ =>
      let jac := match jac with None => jacobian der t | Some j => j end in
      Val (map (fun d => evalAt ev d (firstn (ndim t) point)) jac, Some jac)
    end.
End Poly.
