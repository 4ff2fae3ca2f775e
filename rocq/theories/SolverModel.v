(** * Model of the subdivision solver (yroots/ChebyshevSubdivisionSolver.py, lines 12-44, 896-1464) *)
From Coq Require Import List Arith Bool ZArith.
From Verif Require Import Num Tensor PolySpec TransformModel IntervalModel LinearModel QuadModel.
Import ListNotations.

(** Outcome of a call: a value, an exception, or the recursion bound of the model reached. *)
Inductive res (A : Type) := Ok (a : A) | Raise | OutOfFuel.
Arguments Ok {A}. Arguments Raise {A}. Arguments OutOfFuel {A}.
Definition bindR {A B} (r : res A) (f : A -> res B) : res B :=
  match r with Ok a => f a | Raise => Raise | OutOfFuel => OutOfFuel end.
Notation "'do' x <- r ; e" := (bindR r (fun x => e)) (at level 200, x pattern, right associativity).

(** The external routines the solver calls. *)
Record ext (T : Type) := mkExt {
  xsvd : list (list T) -> list (list T) * list T * list (list T);   (* np.linalg.svd *)
  xrank : list (list T) -> bool;                                    (* matrix_rank(A) == size *)
  xsolve : list (list T) -> list T -> list T;                       (* scipy.linalg.solve *)
  xargsort : list nat -> list nat;                                  (* np.argsort *)
  xset : list nat -> list nat                                       (* iteration order of a Python set of ints *)
}.
Arguments mkExt {T}. Arguments xsvd {T}. Arguments xrank {T}. Arguments xsolve {T}. Arguments xargsort {T}. Arguments xset {T}.

(** SolverOptions, lines 12-44 (verbose only prints; level is passed separately);
    useFinalStep is set at line 1433. *)
Record opts := mkOpts { oexact : bool; occheck : bool; olowq : bool; oallq : bool; omaxZoom : nat; ofinal : bool }.
Definition defaultOpts (exact constant_check low_dim all_dim : bool) : opts :=
  mkOpts exact constant_check low_dim all_dim 25 true.

Definition listdel {A} (l : list A) (i : nat) : list A := firstn i l ++ skipn (S i) l.

Section Model.
  Context {T : Type} {NT : Num T}.
  Variable X : ext T.
  Local Open Scope num_scope.

  (** ** trimMs, lines 1131-1171 *)
  (** [Ms[polyNum][tuple(slices)]] with slices[d] = -1: the entries of the last slice along axis d *)
  Definition lastSlice (M : tensor T) (d : nat) : list T :=
    map (fun idx => tget M (upd idx d (nth d (shp M) 0%nat - 1)%nat)) (indices (upd (shp M) d 1%nat)).
  (** the same with slices[d] = slice(None,-1): the tensor without that slice *)
  Definition dropLast (M : tensor T) (d : nat) : tensor T :=
    tbuild (upd (shp M) d (nth d (shp M) 0%nat - 1)%nat) (tget M).
  (** the while loop of lines 1160-1169; [k] bounds the number of passes (the axis size is enough) *)
  Fixpoint trimAxis (k : nat) (d : nat) (M : tensor T) (allowed err : T) : tensor T * T * T :=
    match k with
    | O => (M, allowed, err)
    | S k' =>
        let lastSum := nsumabs (lastSlice M d) in
        if nltb lastSum allowed && (3 <? nth d (shp M) 0%nat)%nat
        then trimAxis k' d (dropLast M d) (allowed - lastSum) (err + lastSum)
        else (M, allowed, err)
    end.
  Definition trimM (dim : nat) (M : tensor T) (err rel abs : T) : tensor T * T :=
    let '(M', _, err') :=
      fold_left (fun st d => let '(M, al, e) := st in trimAxis (nth d (shp M) 0%nat) d M al e)
        (seq 0 dim) (M, abs + err * rel, err) in
    (M', err').
  (** relApproxTol = 1e-3, absApproxTol = 0 are the defaults used by the solver *)
  Definition trimMsTol (rel abs : T) (Ms : list (tensor T)) (errors : list T) : list (tensor T) * list T :=
    let dim := ndim (nth 0 Ms (mkT [] [])) in
    let r := map (fun p => trimM dim (fst p) (snd p) rel abs) (combine Ms errors) in
    (map fst r, map snd r).
  Definition trimMs := trimMsTol (nlit 1 1000) n0.

  (** ** zoomInOnIntervalIter, lines 896-956 *)
  (** lines 932-935: dimensions in which the interval is a point are left alone *)
  Definition keepPoints (iv sub : box T) : box T :=
    map (fun p => if neqb (fst (fst p)) (snd (fst p)) then (- n1, n1) else snd p) (combine iv sub).
  (** Result: polynomials, errors, interval, changed, should_stop. *)
  Definition zoomIter (exact : bool) (Ms : list (tensor T)) (errors : list T) (ti : tint T)
    : res (list (tensor T) * list T * tint T * bool * bool) :=
    let r := boundingInterval (xsvd X) Ms errors (fin ti) in
    let sub := keepPoints (ivl ti) (blBox r) in
    let forced := blThrow r && negb (canThrowOut ti) in
    let throwOut := if forced then false else blThrow r in
    let should_stop := if forced then true else blStop r in
    let changed := if forced then true else blChanged r in
    if throwOut then Ok (Ms, errors, setEmpty ti, true, true)
    else if negb changed then Ok (Ms, errors, ti, changed, should_stop)
    else
      let ti := addTransform ti sub in
      match getLastTransform ti with
      | None => Raise       (* IndexError *)
      | Some ab =>
          let '(Ms, errors) := transformChebToInterval Ms ab errors exact in
          let pt := fin ti && isPoint ti in
          Ok (Ms, errors, ti, (if pt then false else changed), (if pt then true else should_stop))
      end.

  (** the zoom loop of lines 1243-1252; [None]: the interval became empty.
      The loop body runs at least once.  [k] bounds the number of passes. *)
  Fixpoint zoomLoop (k : nat) (o : opts) (Ms : list (tensor T)) (errors : list T) (ti : tint T)
      (zoomCount : nat) (lastSizes : list T) : res (option (list (tensor T) * list T * tint T * bool)) :=
    match k with
    | O => OutOfFuel
    | S k' =>
        do (Ms, errors, ti, changed, should_stop) <- zoomIter (oexact o) Ms errors ti ;
        if empt ti then Ok None
        else
          let newSizes := dimSize ti in
          let zoomCount := if forallb (fun p => ngeb (fst p) (snd p / n2)) (combine newSizes lastSizes)
                           then S zoomCount else zoomCount in
          if changed && (zoomCount <=? omaxZoom o)%nat
          then zoomLoop k' o Ms errors ti zoomCount newSizes
          else Ok (Some (Ms, errors, ti, should_stop))
    end.

  (** ** getSubdivisionDims, lines 1013-1049 *)
  (** np.isclose with the default tolerances (finite values) *)
  Definition isclose (a b : T) : bool := nleb (nabs (a - b)) (nlit 1 100000000 + nlit 1 100000 * nabs b).
  (** [np.delete(l, np.argwhere(l == i))] *)
  Definition delVal (l : list nat) (i : nat) : list nat := filter (fun j => negb (j =? i)%nat) l.
  (** lines 1031-1035 *)
  Definition dimsNotClose (iv : box T) (dim : nat) : list nat :=
    fold_left (fun dims i => let p := nth i iv (n0, n0) in
                 if isclose (fst p) (snd p) then (if (length dims =? 1)%nat then dims else delVal dims i) else dims)
              (seq 0 dim) (seq 0 dim).
  (** one row of the result: [dims[np.argsort(shape[dims])[::-1]]] *)
  Definition orderFor (dims : list nat) (M : tensor T) : list nat :=
    map (fun k => nth k dims 0%nat) (rev (xargsort X (map (fun d => nth d (shp M) 0%nat) dims))).
  (** lines 1039-1048; the comparison with np.floor(total_sum/(dim+1)) is on integers *)
  Definition dimsLarge (Ms : list (tensor T)) (iv : box T) (dim : nat) (dims : list nat) : list nat :=
    let lens := boxDims iv in
    let mx := match map (fun i => nth i lens n0) dims with [] => n0 | x :: r => nmaxl x r end in
    let dims := filter (fun i => ngtb (nth i lens n0) (mx / nlit 5 1)) dims in
    if (1 <? length dims)%nat then
      let degs := fun i => fold_right Nat.add 0%nat (map (fun M => nth i (shp M) 0%nat) Ms) in
      let total := fold_right Nat.add 0%nat (map degs (seq 0 dim)) in
      fold_left (fun ds i => if (1 <? length ds)%nat && (degs i <? Nat.div total (dim + 1))%nat then delVal ds i else ds)
                dims dims
    else dims.
  Definition subdivisionDims (Ms : list (tensor T)) (ti : tint T) (level : nat) : list nat :=
    let dim := length Ms in
    let dims := dimsNotClose (ivl ti) dim in
    if (5 <? level)%nat then dims else dimsLarge Ms (ivl ti) dim dims.
  Definition getSubdivisionDims (Ms : list (tensor T)) (ti : tint T) (level : nat) : list (list nat) :=
    map (orderFor (subdivisionDims Ms ti level)) Ms.

  (** ** getInverseOrder, lines 981-1011 *)
  (** [product([0,1], repeat=k)] *)
  Fixpoint bitLists (k : nat) : list (list nat) :=
    match k with O => [[]] | S k' => map (cons 0%nat) (bitLists k') ++ map (cons 1%nat) (bitLists k') end.
  Definition dotn (a b : list nat) : nat := fold_right Nat.add 0%nat (map (fun p => (fst p * snd p)%nat) (combine a b)).
  (** [t[idx] = vals] on a zero array of length [len] *)
  Definition assignAt (len : nat) (idx vals : list nat) : list nat :=
    fold_left (fun t p => upd t (fst p) (snd p)) (combine idx vals) (repeat 0%nat len).
  Definition getInverseOrder (order : list nat) : list nat :=
    let k := length order in
    let t := assignAt k (xargsort X order) (seq 0 k) in
    let w := map (fun r => Nat.pow 2 (k - 1 - r)%nat) t in
    let newOrder := map (fun i => dotn i w) (bitLists k) in
    assignAt (length newOrder) newOrder (seq 0 (length newOrder)).

  (** ** getSubdivisionIntervals, lines 1051-1129 *)
  (** one pass of the loop of lines 1085-1098 *)
  Definition splitAxis (exact : bool) (npt : list T) (cur : list (tensor T * T)) (d : nat) : list (tensor T * T) :=
    let m := nth d npt n0 in
    let alpha := (m + n1) / n2 in
    let beta := (m - n1) / n2 in
    flat_map (fun p => let '(M, E) := p in
      let E1 := getTransformationError M d in
      [(chebTransform1D M alpha beta d exact, E1 + E); (chebTransform1D M (- beta) alpha d exact, E1 + E)]) cur.
  (** the sub-polynomials of one polynomial, reordered (lines 1083-1107) *)
  Definition splitPoly (exact : bool) (npt : list T) (M : tensor T) (error : T) (order : list nat) : list (tensor T * T) :=
    let cur := fold_left (splitAxis exact npt) order [(M, error)] in
    if (ndim M =? 1)%nat then cur
    else map (fun i => nth i cur (M, error)) (getInverseOrder order).
  (** the intervals: one pass of the loop of lines 1112-1128 *)
  Definition unitRows (n : nat) : box T := repeat (- n1, n1) n.
  Definition splitInterval (npt : list T) (cur : list (tint T)) (d : nat) : list (tint T) :=
    let m := nth d npt n0 in
    flat_map (fun t =>
      let t1 := addTransform (copyT t) (upd (unitRows (length (ivl t))) d (- n1, m)) in
      let t2 := addTransform (copyT t) (upd (unitRows (length (ivl t))) d (m, n1)) in
      [setNext t1 (upd (npts t1) d n0); setNext t2 (upd (npts t2) d n0)]) cur.
  (** [transposed l]: [[l[i][j] for i] for j in range(len(l[0]))] *)
  Definition transposed {A} (dflt : A) (l : list (list A)) : list (list A) :=
    map (fun j => map (fun r => nth j r dflt) l) (seq 0 (length (nth 0 l []))).
  (** the distinct values of the flattened array, in first-seen order *)
  Definition dedup (l : list nat) : list nat := rev (fold_left (fun acc i => if existsb (Nat.eqb i) acc then acc else i :: acc) l []).
  Definition children := list (list (tensor T) * list T * tint T).
  Definition getSubdivisionIntervals (exact : bool) (Ms : list (tensor T)) (errors : list T) (ti : tint T) (level : nat)
    : res children :=
    let rows := getSubdivisionDims Ms ti level in
    let dimSet := xset X (concat rows) in
    let width := length (nth 0 rows []) in
    if negb (length dimSet =? width)%nat then Raise                     (* ValueError, line 1077 *)
    else if (width =? 0)%nat && negb (length Ms =? 1)%nat then Raise      (* IndexError in getInverseOrder *)
    else
      let polys := map (fun p => let '((M, e), o) := p in splitPoly exact (npts ti) M e o) (combine (combine Ms errors) rows) in
      let cols := transposed (mkT [] [], n0) polys in
      let ints := fold_left (splitInterval (npts ti)) dimSet [ti] in
      Ok (map (fun p => (map fst (fst p), map snd (fst p), snd p)) (combine cols ints)).

  (** ** isExteriorInterval, lines 1173-1175 *)
  Definition isExterior (orig t : tint T) : bool :=
    existsb (fun p => neqb (fst (fst p)) (fst (snd p)) || neqb (snd (fst p)) (snd (snd p)))
      (combine (getIntervalForCombining t) (getIntervalForCombining orig)).

  (** ** merging of touching intervals, lines 1318-1365 *)
  Definition minBounds (a b : box T) : list T := map (fun p => nmin (fst (fst p)) (fst (snd p))) (combine a b).
  Definition maxBounds (a b : box T) : list T := map (fun p => nmax (snd (fst p)) (snd (snd p))) (combine a b).
  Definition hull (a b : box T) : box T := combine (minBounds a b) (maxBounds a b).
  (** one row of currSubinterval, lines 1345-1352 *)
  Definition subRow (newF oldF new old : T * T) : T * T :=
    let '(nA, nB) := newF in
    let '(oA, oB) := oldF in
    let equal := neqb oB oA in
    let oB' := if equal then oB + n1 else oB in
    let lo := if equal then - n1 else (n2 * nA - oA - oB') / (oB' - oA) in
    let hi := if equal then n1 else (n2 * nB - oA - oB') / (oB' - oA) in
    ((if neqb (fst old) (fst new) then - n1 else lo), (if neqb (snd old) (snd new) then n1 else hi)).
  Definition currSub (newF oldF new old : box T) : box T :=
    map (fun p => let '((a, b), (c, d)) := p in subRow a b c d) (combine (combine newF oldF) (combine new old)).
  Definition combineIntervals (orig t1 t2 : tint T) : tint T :=
    let c := copyT orig in
    let c := if fin c then setTransforms (setInterval c (preI c)) (preT c) else c in
    let new := hull (getIntervalForCombining t1) (getIntervalForCombining t2) in
    let newF := hull (getFinalInterval t1) (getFinalInterval t2) in
    let c := addTransform c (currSub newF (getFinalInterval orig) new (ivl orig)) in
    setInterval c new.
  (** the two while loops of lines 1326-1365 as one step function; [k] bounds the number of steps
      ([mergeFuel] is enough, C24) *)
  Definition flagged := (bool * tint T)%type.       (* reRun flag *)
  Definition dint : tint T := newInterval [].
  Fixpoint mergeLoop (k : nat) (orig : tint T) (i1 i2 : nat) (l : list flagged) : res (list flagged) :=
    match k with
    | O => OutOfFuel
    | S k' =>
        if (i1 <? length l)%nat then
          if (i2 <? length l)%nat then
            let t1 := snd (nth i1 l (false, dint)) in
            let t2 := snd (nth i2 l (false, dint)) in
            if overlapsWith t1 t2
            then mergeLoop k' orig i1 (S i1) (listdel (listdel l i2) i1 ++ [(true, combineIntervals orig t1 t2)])
            else mergeLoop k' orig i1 (S i2) l
          else mergeLoop k' orig (S i1) (S (S i1)) l
        else Ok l
    end.
  Definition mergeFuel (n : nat) : nat := S (S n * S (S n * S (S n)))%nat.
  Definition mergeExterior (orig : tint T) (ext : list (tint T)) : res (list flagged) :=
    mergeLoop (mergeFuel (length ext)) orig 0 1 (map (fun t => (false, t)) ext).

  Definition sameBox (a b : box T) : bool :=
    forallb (fun p => neqb (fst (fst p)) (fst (snd p)) && neqb (snd (fst p)) (snd (snd p))) (combine a b).

  (** lines 1282-1289: keep the first result for every lower corner *)
  Definition samePoint (a b : list T) : bool :=
    (length a =? length b)%nat && forallb (fun p => neqb (fst p) (snd p)) (combine a b).
  Definition corner (t : tint T) : list T := map fst (ivl t).
  Definition distinctResults (l : list (tint T)) : list (tint T) :=
    rev (fold_left (fun acc t => if existsb (fun u => samePoint (corner u) (corner t)) acc then acc else t :: acc) l []).
  (** lines 1290-1294 *)
  Definition rootsOf (t : tint T) : list (list T) :=
    match dups t with [] => [getFinalPoint t] | d => d end.
  Definition collectDups (d0 : list (list T)) (l : list (tint T)) : list (list T) := d0 ++ flat_map rootsOf l.

  (** [return [], [t]] if exterior, [return [t], []] otherwise *)
  Definition report (orig t : tint T) : list (tint T) * list (tint T) :=
    if isExterior orig t then ([], [t]) else ([t], []).

  (** the quadratic test of lines 1221-1224 *)
  Definition quadCheck (o : opts) (Ms : list (tensor T)) (errors : list T) : bool :=
    ((olowq o && (ndim (nth 0 Ms (mkT [] [])) <=? 3)%nat) || oallq o) &&
    existsb (fun p => quadratic_check (xrank X) (xsolve X) (fst p) (snd p) false) (combine Ms errors).

  (** run [f] on every element and concatenate the two result lists *)
  Fixpoint runAll {A} (f : A -> res (list (tint T) * list (tint T))) (l : list A) : res (list (tint T) * list (tint T)) :=
    match l with
    | [] => Ok ([], [])
    | a :: r =>
        do (i1, e1) <- f a ;
        do (i2, e2) <- runAll f r ;
        Ok (i1 ++ i2, e1 ++ e2)
    end.
  (** [resultsAll += newInterior + newExterior], lines 1269-1272 *)
  Fixpoint runFlat {A} (f : A -> res (list (tint T) * list (tint T))) (l : list A) : res (list (tint T)) :=
    match l with
    | [] => Ok []
    | a :: r =>
        do (i1, e1) <- f a ;
        do rest <- runFlat f r ;
        Ok (i1 ++ e1 ++ rest)
    end.
  (** lines 1366-1384 *)
  Fixpoint rerun (f : tint T -> res (list (tint T) * list (tint T))) (orig : tint T) (l : list flagged)
    : res (list (tint T) * list (tint T)) :=
    match l with
    | [] => Ok ([], [])
    | (flag, t) :: r =>
        do (i1, e1) <-
          (if flag then
             if sameBox (ivl t) (ivl orig) then Ok ([], [t])
             else f t
           else Ok (report orig t)) ;
        do (i2, e2) <- rerun f orig r ;
        Ok (i1 ++ i2, e1 ++ e2)
    end.

  (** ** solvePolyRecursive, lines 1177-1385.
      Returns (interior, exterior).  [fuel] bounds the recursion depth and the zoom loop.
      The two depth warnings (lines 1302-1309) and the timing calls are left out. *)
  Fixpoint solvePoly (fuel : nat) (o : opts) (level : nat) (Ms : list (tensor T)) (ti : tint T) (errors : list T)
    : res (list (tint T) * list (tint T)) :=
    match fuel with
    | O => OutOfFuel
    | S fuel' =>
        if isPoint ti then Ok ([], [ti])
        else
          let level := S level in
          if occheck o && constantCheck Ms errors then Ok ([], [])
          else if quadCheck o Ms errors then Ok ([], [])
          else
            let originalMs := Ms in
            let ti := copyT ti in
            let '(Ms, errors) := trimMs Ms errors in
            let orig := copyT ti in
            do z <- zoomLoop fuel' o Ms errors ti 0 (dimSize ti) ;
            match z with
            | None => Ok ([], [])
            | Some (Ms, errors, ti, should_stop) =>
                if should_stop then
                  if fin ti || negb (ofinal o) then Ok (report orig ti)
                  else solvePoly fuel' o level Ms (startFinalStep ti) errors
                else if fin ti then
                  let ti := setCanThrow ti in
                  do ch <- getSubdivisionIntervals (oexact o) Ms errors ti level ;
                  do all <- runFlat (fun c => let '(M, e, t) := c in solvePoly fuel' o level M t e) ch ;
                  match all with
                  | [] => Ok (report orig (setExtra ti))
                  | _ => Ok (report orig (setDups ti (collectDups (dups ti) (distinctResults all))))
                  end
                else
                  do ch <- getSubdivisionIntervals (oexact o) Ms errors ti level ;
                  do (ri, re) <- runAll (fun c => let '(M, e, t) := c in solvePoly fuel' o level M t e) ch ;
                  do merged <- mergeExterior orig re ;
                  do (ri2, re2) <- rerun (fun t =>
                      match getLastTransform t with
                      | None => Raise
                      | Some ab =>
                          let '(M, e) := transformChebToInterval originalMs ab errors (oexact o) in
                          solvePoly fuel' o level M t e
                      end) orig merged ;
                  Ok (ri ++ ri2, re2)
            end
    end.

  (** ** solveChebyshevSubdivision, lines 1387-1464.
      Result: the roots, the bounding intervals, and the two warnings (extra roots, duplicate roots). *)
  Record solution := mkSol { sRoots : list (list T); sBoxes : list (tint T); sExtra : bool; sDup : bool }.
  Definition solveChebyshevSubdivision (fuel : nat) (o : opts) (Ms : list (tensor T)) (errors : list T) : res solution :=
    if existsb (fun M => negb (ndim M =? length Ms)%nat) Ms then Raise
    else if negb (length Ms =? length errors)%nat then Raise
    else match Ms with
    | [] => Raise                                   (* Ms[0]: IndexError *)
    | M0 :: _ =>
        do (b1, b2) <- solvePoly fuel o 0 Ms (newInterval (repeat (- n1, n1) (ndim M0))) errors ;
        let bs := b1 ++ b2 in
        Ok (mkSol (flat_map rootsOf bs) bs
              (existsb extra bs)
              (existsb (fun t => (0 <? length (dups t))%nat) bs))
    end.
End Model.
