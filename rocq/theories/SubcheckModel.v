(** * Model of yroots/IntervalChecks.py (lines 20-284 and 396-1401)

    The plotting and printing methods (print_progress, print_results, plot_results) and the unfinished
    slices_max_min_check are not modelled.  Arrays of shape [2]*dim (the masks and the 2^dim
    sub-intervals) are flat lists in row-major order, the order in which the code enumerates them.  *)
From Coq Require Import List Arith Bool ZArith.
From Verif Require Import Num Tensor PolySpec TransformModel QuadModel.
Import ListNotations.

(** the entries of the list intervalReductions (lines 20, 132-135, 597-598) *)
Inductive reduction := ImproveBound | Parallelogram.

(** what a call can end with: a value, an IndexError (a coefficient array without linear terms,
    lines 607-612 and 633), or the LinAlgError of scipy.linalg.solve (line 588) *)
Inductive outcome (A : Type) := Done (a : A) | IndexError | SingularMatrix.
Arguments Done {A} a. Arguments IndexError {A}. Arguments SingularMatrix {A}.

Section Model.
  Context {T : Type} {NT : Num T}.
  Local Open Scope num_scope.

  (** an interval is a pair [lower bounds, upper bounds] *)
  Definition sbox := (list T * list T)%type.
  Definition lo (b : sbox) (i : nat) : T := nth i (fst b) n0.
  Definition hi (b : sbox) (i : nat) : T := nth i (snd b) n0.

  (** ** constant_term_check, lines 649-671 *)
  Definition constant_term_check (M : tensor T) (tol : T) : bool :=
    if ngtb (nabs (tget M (repeat 0%nat (ndim M))) * n2) (tsumabs M + tol) then false else true.

  (** ** quadratic_check_2D, lines 702-857, on one sub-interval: True means "throw it out".
      The coefficients, other_sum and eval_func are those of QuadraticCheck.py. *)
  Definition between (l h v : T) : bool := nltb l v && nltb v h.
  Definition sub2_points (c : list T) (b : sbox) : list (T * T) :=
    let c_ i := nth i c n0 in
    let x0 := lo b 0 in let x1 := hi b 0 in let y0 := lo b 1 in let y1 := hi b 1 in
    let det := n16 * c_ 3%nat * c_ 5%nat - c_ 4%nat * c_ 4%nat in
    [(x0, y0); (x1, y0); (x0, y1); (x1, y1)]
    ++ (if negb (neqb (c_ 5%nat) n0) then
          let cc5 := n4 * c_ 5%nat in
          flat_map (fun x => let y := - (c_ 2%nat + c_ 4%nat * x) / cc5 in if between y0 y1 y then [(x, y)] else []) [x0; x1]
        else [])
    ++ (if negb (neqb (c_ 3%nat) n0) then
          let cc3 := n4 * c_ 3%nat in
          flat_map (fun y => let x := - (c_ 1%nat + c_ 4%nat * y) / cc3 in if between x0 x1 x then [(x, y)] else []) [y0; y1]
        else [])
    ++ (if negb (neqb det n0) then
          let ix := (c_ 2%nat * c_ 4%nat - n4 * c_ 1%nat * c_ 5%nat) / det in
          let iy := (c_ 1%nat * c_ 4%nat - n4 * c_ 2%nat * c_ 3%nat) / det in
          if between x0 x1 ix && between y0 y1 iy then [(ix, iy)] else []
        else []).
  Definition throw2 (M : tensor T) (tol : T) (b : sbox) : bool :=
    let c := qc2_coeff M in
    scan (other_sum_low M c tol) false false (map (fun p => qc2_eval c (fst p) (snd p)) (sub2_points c b)).

  (** ** quadratic_check_3D, lines 859-1202, on one sub-interval *)
  Definition sub3_points (c : list T) (b : sbox) : list (T * T * T) :=
    let c_ i := nth i c n0 in
    let x0 := lo b 0 in let x1 := hi b 0 in let y0 := lo b 1 in let y1 := hi b 1 in let z0 := lo b 2 in let z1 := hi b 2 in
    let kk7 := n2 * (n2 * c_ 7%nat) in
    let kk8 := n2 * (n2 * c_ 8%nat) in
    let kk9 := n2 * (n2 * c_ 9%nat) in
    let fix_x_det := kk8 * kk9 - c_ 6%nat * c_ 6%nat in
    let fix_y_det := kk7 * kk9 - c_ 5%nat * c_ 5%nat in
    let fix_z_det := kk7 * kk8 - c_ 4%nat * c_ 4%nat in
    let minor_1_2 := kk9 * c_ 4%nat - c_ 5%nat * c_ 6%nat in
    let minor_1_3 := c_ 4%nat * c_ 6%nat - kk8 * c_ 5%nat in
    let minor_2_3 := kk7 * c_ 6%nat - c_ 4%nat * c_ 5%nat in
    let det := n4 * c_ 7%nat * fix_x_det - c_ 4%nat * minor_1_2 + c_ 5%nat * minor_1_3 in
    (* corners *)
    [(x0,y0,z0); (x1,y0,z0); (x0,y1,z0); (x0,y0,z1); (x1,y1,z0); (x1,y0,z1); (x0,y1,z1); (x1,y1,z1)]
    (* x and y constant *)
    ++ (if negb (neqb (c_ 9%nat) n0) then
          flat_map (fun xy => let '(x, y) := xy in
            let z := - (c_ 5%nat * x + c_ 3%nat + c_ 6%nat * y) / kk9 in
            if between z0 z1 z then [(x, y, z)] else []) [(x0, y0); (x0, y1); (x1, y0); (x1, y1)]
        else [])
    (* x and z constant *)
    ++ (if negb (neqb (c_ 8%nat) n0) then
          flat_map (fun xz => let '(x, z) := xz in
            let y := - (c_ 2%nat + c_ 4%nat * x + c_ 6%nat * z) / kk8 in
            if between y0 y1 y then [(x, y, z)] else []) [(x0, z0); (x0, z1); (x1, z0); (x1, z1)]
        else [])
    (* y and z constant *)
    ++ (if negb (neqb (c_ 7%nat) n0) then
          flat_map (fun yz => let '(y, z) := yz in
            let x := - (c_ 1%nat + c_ 4%nat * y + c_ 5%nat * z) / kk7 in
            if between x0 x1 x then [(x, y, z)] else []) [(y0, z0); (y0, z1); (y1, z0); (y1, z1)]
        else [])
    (* x constant *)
    ++ (if negb (neqb fix_x_det n0) then
          flat_map (fun x =>
            let u := c_ 2%nat + c_ 4%nat * x in
            let v := c_ 3%nat + c_ 5%nat * x in
            let y := (- kk9 * u + c_ 6%nat * v) / fix_x_det in
            let z := (c_ 6%nat * u - kk8 * v) / fix_x_det in
            if between y0 y1 y && between z0 z1 z then [(x, y, z)] else []) [x0; x1]
        else [])
    (* y constant *)
    ++ (if negb (neqb fix_y_det n0) then
          flat_map (fun y =>
            let u := c_ 1%nat + c_ 4%nat * y in
            let v := c_ 3%nat + c_ 6%nat * y in
            let x := (- kk9 * u + c_ 5%nat * v) / fix_y_det in
            let z := (c_ 5%nat * u - kk7 * v) / fix_y_det in
            if between x0 x1 x && between z0 z1 z then [(x, y, z)] else []) [y0; y1]
        else [])
    (* z constant *)
    ++ (if negb (neqb fix_z_det n0) then
          flat_map (fun z =>
            let u := c_ 1%nat + c_ 5%nat * z in
            let v := c_ 2%nat + c_ 6%nat * z in
            let x := (- kk8 * u + c_ 4%nat * v) / fix_z_det in
            let y := (c_ 4%nat * u - kk7 * v) / fix_z_det in
            if between x0 x1 x && between y0 y1 y then [(x, y, z)] else []) [z0; z1]
        else [])
    (* interior *)
    ++ (if negb (neqb det n0) then
          let ix := (c_ 1%nat * - fix_x_det + c_ 2%nat * minor_1_2 + c_ 3%nat * - minor_1_3) / det in
          let iy := (c_ 1%nat * minor_1_2 + c_ 2%nat * - fix_y_det + c_ 3%nat * minor_2_3) / det in
          let iz := (c_ 1%nat * - minor_1_3 + c_ 2%nat * minor_2_3 + c_ 3%nat * - fix_z_det) / det in
          if between x0 x1 ix && between y0 y1 iy && between z0 z1 iz then [(ix, iy, iz)] else []
        else []).
  Definition throw3 (M : tensor T) (tol : T) (b : sbox) : bool :=
    let c := qc3_coeff M in
    scan (other_sum_low M c tol) false false (map (fun p => let '(x, y, z) := p in qc3_eval c x y z) (sub3_points c b)).

  (** ** quadratic_check_nd, lines 1224-1401, on one sub-interval.
      [cornersOf b k]: [itertools.product([0,1],repeat=k)] with entry i turned into
      [interval[j][i]], bound number j of variable number i.  The corners use it with k = dim
      (line 1326).  The faces use it with k = len(fixed) (line 1354), so the value given to the
      variable fixed[i] is a bound of variable i. *)
  Fixpoint cornersFrom (b : sbox) (i k : nat) : list (list T) :=
    match k with
    | O => [[]]
    | S k' => flat_map (fun v => map (cons v) (cornersFrom b (S i) k')) [lo b i; hi b i]
    end.
  Definition cornersOf (b : sbox) (k : nat) : list (list T) := cornersFrom b 0 k.
  (** lines 1357-1362 and 1386-1390: closed bounds of the unfixed variables *)
  Definition insideOf (b : sbox) (unfixed : list nat) (X_ : list T) : bool :=
    forallb (fun p => nleb (lo b (fst p)) (snd p) && nleb (snd p) (hi b (fst p))) (combine unfixed X_).

  Section Oracles.
    Variable rank_full : list (list T) -> bool.
    Variable solve : list (list T) -> list T -> list T.

    Definition subFace (M : tensor T) (b : sbox) (fixed : list nat) : list (list T) :=
      let dim := ndim M in
      let A := ndA M in
      let unfixed := unfixedOf dim fixed in
      let A_ := submat A unfixed unfixed in
      if signChange (map (fun i => mij A i i) unfixed) then []
      else if rank_full A_ then
        flat_map (fun X0 =>
            let rhs := map (fun i => - nth i (ndB M) n0 - nsum (map (fun p => mij A i (fst p) * snd p) (combine fixed X0))) unfixed in
            let X_ := solve A_ rhs in
            if insideOf b unfixed X_ then [scatter dim fixed X0 unfixed X_] else [])
          (cornersOf b (length fixed))
      else [].
    Definition subInterior (M : tensor T) (b : sbox) : list (list T) :=
      if signChange (ndP M) then []
      else if rank_full (ndA M) then
        let X := solve (ndA M) (map (fun v => - v) (ndB M)) in
        if insideOf b (seq 0 (ndim M)) X then [X] else []
      else [].
    Definition subPoints (M : tensor T) (b : sbox) : list (list T) :=
      cornersOf b (ndim M) ++ flat_map (subFace M b) (get_fixed_vars (ndim M)) ++ subInterior M b.
    Definition throwN (M : tensor T) (tol : T) (b : sbox) : bool :=
      scan (ndOther M tol) false false (map (ndEval M) (subPoints M b)).

    (** ** quadratic_check, lines 673-700, and the loops over the sub-intervals: the positions still
        set in mask are examined, the result is set where the sub-interval is thrown out *)
    Definition throwOne (M : tensor T) (tol : T) (b : sbox) : bool :=
      if ndim M =? 2 then throw2 M tol b
      else if ndim M =? 3 then throw3 M tol b
      else throwN M tol b.
    Definition quadratic_check (M : tensor T) (mask : list bool) (tol : T) (subs : list sbox) : list bool :=
      map (fun p : bool * sbox => if fst p then throwOne M tol (snd p) else false) (combine mask subs).
  End Oracles.

  (** ** Bounding intervals, lines 396-647 *)
  Definition pairT := (T * T)%type.
  (** min([..]) of a nonempty list *)
  Definition nminl (x : T) (l : list T) : T := fold_left nmin l x.
  (** mergeIntervals, lines 408-414 *)
  Definition mergeIntervals (l : list pairT) : pairT :=
    match l with
    | [] => (- n1, n1)
    | p :: r =>
        let a := nmaxl (fst p) (map fst r) in
        let b := nminl (snd p) (map snd r) in
        if ngtb a b then (n0, n0) else (a, b)
    end.
  Definition clamp1 (v : T) : T := nmax (nmin v n1) (- n1).
  (** boundingIntervalWidthAndBoundCheck, lines 416-436; MIN_WIDTH = .01 *)
  Definition minWidth : T := nlit 1 100.
  Definition widthCheck (p : pairT) : pairT :=
    let a := clamp1 (fst p) in
    let b := clamp1 (snd p) in
    if neqb a b then (n0, n0)
    else if nltb (b - a) minWidth then
      let center := (a + b) / n2 in
      (clamp1 (center - minWidth / n2), clamp1 (center + minWidth / n2))
    else (a, b).

  (** one equation of the 2-D system: x term, y term, constant term, error *)
  Record lin2 := mkLin2 { xt : T; yt : T; ct : T; et : T }.
  Definition around (center width : T) : pairT := (center - width, center + width).
  (** improveBound2D, lines 438-482: the intervals appended for x and for y *)
  Definition improveX (e : lin2) : list pairT :=
    if negb (neqb (xt e) n0) then [around (- ct e / xt e) ((nabs (et e) + nabs (yt e)) / nabs (xt e))] else [].
  Definition improveY (e : lin2) : list pairT :=
    if negb (neqb (yt e) n0) then [around (- ct e / yt e) ((nabs (et e) + nabs (xt e)) / nabs (yt e))] else [].
  (** getBoundingParallelogram2D, lines 521-556 *)
  Definition parallelX (p q : lin2) : list pairT :=
    let denom := xt p * yt q - xt q * yt p in
    if negb (neqb denom n0) then
      [around ((yt p * ct q - yt q * ct p) / denom) ((nabs (yt q * et p) + nabs (yt p * et q)) / nabs denom)] else [].
  Definition parallelY (p q : lin2) : list pairT :=
    let denom := xt p * yt q - xt q * yt p in
    if negb (neqb denom n0) then
      [around ((xt q * ct p - xt p * ct q) / denom) ((nabs (xt q * et p) + nabs (xt p * et q)) / nabs denom)] else [].
  (** getBoundingInterval2D, lines 600-624: P[1,0] and P[0,1] raise IndexError when a dimension has
      size 1 *)
  Definition linOf (M : tensor T) (err : T) : lin2 :=
    let a := tget M [1;0]%nat in let b := tget M [0;1]%nat in let c := tget M [0;0]%nat in
    mkLin2 a b c (tsumabs M - nabs a - nabs b - nabs c + err).
  Definition hasLinear (M : tensor T) : bool := forallb (fun s => 1 <? s) (shp M).
  Definition bounding2D (P1 P2 : tensor T) (e1 e2 : T) (methods : list reduction) : outcome sbox :=
    if hasLinear P1 && hasLinear P2 then
      let p := linOf P1 e1 in let q := linOf P2 e2 in
      let xs := flat_map (fun m => match m with ImproveBound => improveX p ++ improveX q | Parallelogram => parallelX p q end) methods in
      let ys := flat_map (fun m => match m with ImproveBound => improveY p ++ improveY q | Parallelogram => parallelY p q end) methods in
      let x := widthCheck (mergeIntervals xs) in
      let y := widthCheck (mergeIntervals ys) in
      Done ([fst x; fst y], [snd x; snd y])
    else IndexError.

  (** one equation of the n-D system: linear terms, constant term, error *)
  Record linN := mkLinN { lt_ : list T; cn_ : T; er_ : T }.
  (** getBoundingIntervalND, lines 626-637: [coeff[tuple(get_var_list(dim))]] picks the coefficients of x_1 .. x_n *)
  Definition linNOf (p : tensor T * T) : linN :=
    let '(M, tol) := p in
    let A := map (fun i => tget M (spot1 (ndim M) i 1)) (seq 0 (ndim M)) in
    let c := tget M (repeat 0%nat (ndim M)) in
    mkLinN A c (tsumabs M + tol - nabs c - nsumabs A).
  (** improveBoundND, lines 484-519: the intervals appended for variable [var] *)
  Definition improveN (rows : list linN) (var : nat) : list pairT :=
    flat_map (fun r =>
        let total := nsumabs (lt_ r) + nabs (er_ r) in
        let a := nth var (lt_ r) n0 in
        if neqb (nabs a) n0 then [] else [around (- cn_ r / a) (total / nabs a - n1)]) rows.
  (** getBoundingParallelogramND, lines 558-595.  [signsOf errs]: the product over the errors e of the pairs (e, -e).
      [lasolve A b] is scipy.linalg.solve(A, b) for one right-hand side, None being its LinAlgError. *)
  Fixpoint signsOf (errs : list T) : list (list T) :=
    match errs with [] => [[]] | e :: r => flat_map (fun v => map (cons v) (signsOf r)) [e; - e] end.
  Definition rhsOf (rows : list linN) : list (list T) :=
    map (fun s => map (fun p => - cn_ (fst p) + snd p) (combine rows s)) (signsOf (map er_ rows)).
  Fixpoint allSome {A B} (f : A -> option B) (l : list A) : option (list B) :=
    match l with [] => Some [] | x :: r => match f x, allSome f r with Some y, Some ys => Some (y :: ys) | _, _ => None end end.
  Section Bounding.
    Variable lasolve : list (list T) -> list T -> option (list T).
    Definition parallelN (rows : list linN) (cols : list (list T)) (var : nat) : list pairT :=
      match map (fun X => nth var X n0) cols with
      | [] => []
      | v :: r => [(nminl v r, nmaxl v r)]
      end.
    Fixpoint reduceN (rows : list linN) (methods : list reduction) (acc : list (list pairT)) : outcome (list (list pairT)) :=
      match methods with
      | [] => Done acc
      | ImproveBound :: ms => reduceN rows ms (map (fun p => snd p ++ improveN rows (fst p)) (combine (seq 0 (length acc)) acc))
      | Parallelogram :: ms =>
          match allSome (lasolve (map lt_ rows)) (rhsOf rows) with
          | None => SingularMatrix
          | Some cols => reduceN rows ms (map (fun p => snd p ++ parallelN rows cols (fst p)) (combine (seq 0 (length acc)) acc))
          end
      end.
    Definition boundingND (ps : list (tensor T * T)) (methods : list reduction) : outcome sbox :=
      if forallb (fun p => hasLinear (fst p)) ps then
        match reduceN (map linNOf ps) methods (repeat [] (length ps)) with
        | Done acc => let l := map (fun c => widthCheck (mergeIntervals c)) acc in Done (map fst l, map snd l)
        | IndexError => IndexError
        | SingularMatrix => SingularMatrix
        end
      else IndexError.
    (** getBoundingInterval, lines 396-406; [Done None] is the None of the code *)
    Definition getBoundingInterval (polys : list (tensor T)) (errors : list T) (methods : list reduction) : outcome (option sbox) :=
      match polys with
      | [] => Done None
      | P :: _ =>
          if negb (length polys =? ndim P) then Done None
          else
            let r := if length polys =? 2 then bounding2D P (nth 1 polys P) (nth 0 errors n0) (nth 1 errors n0) methods
                     else boundingND (combine polys errors) methods in
            match r with Done b => Done (Some b) | IndexError => IndexError | SingularMatrix => SingularMatrix end
      end.

    (** ** IntervalData: the part of the state that get_subintervals reads or writes *)
    Record idata := mkData {
      mask : list bool;             (* self.mask, flat *)
      area : T;                     (* self.current_area *)
      polishing : bool;             (* self.polishing *)
      quadLog : list sbox;          (* interval_results["quadratic_check"] *)
      boundLog : list sbox          (* interval_results["getBoundingInterval"] *)
    }.
    (** __init__, lines 117-135: RAND, middleVal and the 2^dim sub-intervals of [-1,1]^dim *)
    Definition RAND : T := nlit 5139303900908738 10000000000000000.
    Definition middleVal : T := n2 * RAND - n1.
    Definition unitSubs (dim : nat) : list sbox :=
      map (fun spot => (map (fun v => if v =? 0 then - n1 else middleVal) spot, map (fun v => if v =? 0 then middleVal else n1) spot))
          (indices (repeat 2%nat dim)).
    Definition newData (dim : nat) : idata := mkData (repeat true (2 ^ dim)) n0 false [] [].

    (** utils.transform, utils.py lines 1241-1258, coordinate by coordinate *)
    Definition transform1 (a b x : T) : T := ((b - a) * x + (b + a)) / n2.
    Definition mapBounds (f : T -> T -> T -> T) (a b x : list T) : list T :=
      map (fun p => f (fst (fst p)) (snd (fst p)) (snd p)) (combine (combine a b) x).
    Definition transformBox (a b : list T) (s : sbox) : sbox := (mapBounds transform1 a b (fst s), mapBounds transform1 a b (snd s)).
    (** lines 201-208: (x * (b - a) + (b + a)) / 2 *)
    Definition scale1 (a b x : T) : T := (x * (b - a) + (b + a)) / n2.
    Definition scaleBox (a b : list T) (s : sbox) : sbox := (mapBounds scale1 a b (fst s), mapBounds scale1 a b (snd s)).
    (** np.prod(interval[1] - interval[0]) *)
    Definition boxArea (s : sbox) : T := nprod (map (fun p => snd p - fst p) (combine (fst s) (snd s))).

    (** track_interval (lines 257-269) and track_interval_bounded (271-284) *)
    Definition track (d : idata) (s : sbox) : idata :=
      mkData (mask d) (area d + boxArea s) (polishing d) (if polishing d then quadLog d else quadLog d ++ [s]) (boundLog d).
    Definition trackBounded (d : idata) (s bound : sbox) : idata :=
      mkData (mask d) (area d + (boxArea s - boxArea bound)) (polishing d) (quadLog d) (if polishing d then boundLog d else boundLog d ++ [s]).

    (** check_interval, lines 232-255: the first check that says the polynomial cannot be zero throws
        the interval out.  Simplified: of track_interval only the area is kept, the list that gets the
        interval (the one named after the check) is not. *)
    Fixpoint check_interval (checks : list (tensor T -> T -> bool)) (M : tensor T) (err : T) (a b : list T) (d : idata) : bool * idata :=
      match checks with
      | [] => (false, d)
      | check :: r =>
          if check M err then check_interval r M err a b d
          else (true, if polishing d then d else mkData (mask d) (area d + boxArea (a, b)) (polishing d) (quadLog d) (boundLog d))
      end.

    Definition select {A} (m : list bool) (l : list A) : list A := map snd (filter fst (combine m l)).
    (** lines 210-221: the checks of one polynomial after the other; thrownOuts is built up *)
    Section Checks.
      Variable rank_full : list (list T) -> bool.
      Variable solve : list (list T) -> list T -> list T.
      Fixpoint runChecks (subs news : list sbox) (ps : list (tensor T * T)) (m : list bool) : list bool * list sbox :=
        match ps with
        | [] => (m, [])
        | (P, err) :: r =>
            let out := quadratic_check rank_full solve P m err subs in
            let '(m', l) := runChecks subs news r (map (fun p : bool * bool => fst p && negb (snd p)) (combine m out)) in
            (m', select out news ++ l)
        end.
      (** get_subintervals, lines 159-230 *)
      Definition get_subintervals (methods : list reduction) (a b : list T) (polys : list (tensor T)) (errors : list T)
          (checks : bool) (d : idata) : outcome (list sbox * idata) :=
        let dim := length a in
        let bound := match methods with [] => Done None | _ => getBoundingInterval polys errors methods end in
        match bound with
        | IndexError => IndexError
        | SingularMatrix => SingularMatrix
        | Done bo =>
            let size := option_map boxArea bo in
            let tb := option_map (transformBox a b) bo in
            match size, tb with
            | Some s, Some t =>
                if neqb s n0 then Done ([], trackBounded d (a, b) t)
                else if nltb s (nlit 1 2) then Done ([t], trackBounded d (a, b) t)
                else
                  let d := mkData (repeat true (length (mask d))) (area d) (polishing d) (quadLog d) (boundLog d) in
                  let news := map (scaleBox a b) (unitSubs dim) in
                  let '(m, thrown) := if checks then runChecks (unitSubs dim) news (combine polys errors) (mask d) else (mask d, []) in
                  let d := mkData m (area d) (polishing d) (quadLog d) (boundLog d) in
                  if nltb s (nofnat (length (filter (fun x => x) m))) && nltb s (nlit 3 1) then Done ([t], trackBounded d (a, b) t)
                  else Done (select m news, fold_left track thrown d)
            | _, _ =>
                let d := mkData (repeat true (length (mask d))) (area d) (polishing d) (quadLog d) (boundLog d) in
                let news := map (scaleBox a b) (unitSubs dim) in
                let '(m, thrown) := if checks then runChecks (unitSubs dim) news (combine polys errors) (mask d) else (mask d, []) in
                let d := mkData m (area d) (polishing d) (quadLog d) (boundLog d) in
                Done (select m news, fold_left track thrown d)
            end
        end.
    End Checks.
  End Bounding.
End Model.
