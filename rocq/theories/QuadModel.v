(** * Model of yroots/QuadraticCheck.py (lines 1-687) *)
From Coq Require Import List Arith Bool ZArith.
From Verif Require Import Num Tensor PolySpec TransformModel.
Import ListNotations.

(** itertools.combinations(l, r): the r-element subsequences of l in lexicographic order of positions *)
Fixpoint combinations {A} (l : list A) (r : nat) : list (list A) :=
  match r, l with
  | O, _ => [[]]
  | S _, [] => []
  | S r', x :: l' => map (cons x) (combinations l' r') ++ combinations l' (S r')
  end.

(** get_fixed_vars, lines 6-23: range(dim-1,0,-1) is dim-1, ..., 1 *)
Definition get_fixed_vars (dim : nat) : list (list nat) :=
  flat_map (fun r => combinations (seq 0 dim) r) (rev (seq 1 (dim - 1))).

Section Model.
  Context {T : Type} {NT : Num T}.
  Local Open Scope num_scope.

  (** The pattern
        min_satisfied = min_satisfied or eval < other_sum
        max_satisfied = max_satisfied or eval > -other_sum
        if min_satisfied and max_satisfied: return False
      applied to the values [evals] one after the other; True when the end is reached. *)
  Fixpoint scan (other_sum : T) (mn mx : bool) (evals : list T) : bool :=
    match evals with
    | [] => true
    | e :: r =>
        let mn := mn || nltb e other_sum in
        let mx := mx || ngtb e (- other_sum) in
        if mn && mx then false else scan other_sum mn mx r
    end.

  (** Python's sum([...]) over floats: starts with the int 0 *)
  Definition inside (v : T) : bool := nltb (- n1) v && nltb v n1.
  Definition n4 : T := nlit 4 1.
  Definition n16 : T := nlit 16 1.

  (** quadratic_check_2D, lines 34-182.  [np.inf] for int_x, int_y (det = 0) makes the last guard
      False, so the interior point is then simply not a candidate. *)
  Definition qc2_coeff (M : tensor T) : list T :=
    let s0 := nth 0 (shp M) 0%nat in
    let s1 := nth 1 (shp M) 0%nat in
    [ tget M [0;0]%nat;
      if 1 <? s0 then tget M [1;0]%nat else n0;
      if 1 <? s1 then tget M [0;1]%nat else n0;
      if 2 <? s0 then tget M [2;0]%nat else n0;
      if (1 <? s0) && (1 <? s1) then tget M [1;1]%nat else n0;
      if 2 <? s1 then tget M [0;2]%nat else n0 ].
  Definition other_sum_low (M : tensor T) (c : list T) (tol : T) : T := tsumabs M - nsumabs c + tol.
  Definition qc2_eval (c : list T) (x y : T) : T :=
    let c_ i := nth i c n0 in
    let k0 := c_ 0%nat - c_ 3%nat - c_ 5%nat in
    let k3 := n2 * c_ 3%nat in
    let k5 := n2 * c_ 5%nat in
    k0 + (c_ 1%nat + k3 * x + c_ 4%nat * y) * x + (c_ 2%nat + k5 * y) * y.
  Definition qc2_points (c : list T) : list (T * T) :=
    let c_ i := nth i c n0 in
    let m := - n1 in
    let det := n16 * c_ 3%nat * c_ 5%nat - c_ 4%nat * c_ 4%nat in
    [(m, m); (n1, m); (m, n1); (n1, n1)]
    ++ (if negb (neqb (c_ 5%nat) n0) then
          let cc5 := n4 * c_ 5%nat in
          flat_map (fun x => let y := - (c_ 2%nat + c_ 4%nat * x) / cc5 in if inside y then [(x, y)] else []) [m; n1]
        else [])
    ++ (if negb (neqb (c_ 3%nat) n0) then
          let cc3 := n4 * c_ 3%nat in
          flat_map (fun y => let x := - (c_ 1%nat + c_ 4%nat * y) / cc3 in if inside x then [(x, y)] else []) [m; n1]
        else [])
    ++ (if negb (neqb det n0) then
          let ix := (c_ 2%nat * c_ 4%nat - n4 * c_ 1%nat * c_ 5%nat) / det in
          let iy := (c_ 1%nat * c_ 4%nat - n4 * c_ 2%nat * c_ 3%nat) / det in
          if inside ix && inside iy then [(ix, iy)] else []
        else []).
  Definition quadratic_check_2D (M : tensor T) (tol : T) : bool :=
    if negb (ndim M =? 2) then false
    else let c := qc2_coeff M in
         scan (other_sum_low M c tol) false false (map (fun p => qc2_eval c (fst p) (snd p)) (qc2_points c)).

  (** quadratic_check_3D, lines 184-520 *)
  Definition qc3_coeff (M : tensor T) : list T :=
    let s0 := nth 0 (shp M) 0%nat in
    let s1 := nth 1 (shp M) 0%nat in
    let s2 := nth 2 (shp M) 0%nat in
    [ tget M [0;0;0]%nat;
      if 1 <? s0 then tget M [1;0;0]%nat else n0;
      if 1 <? s1 then tget M [0;1;0]%nat else n0;
      if 1 <? s2 then tget M [0;0;1]%nat else n0;
      if (1 <? s0) && (1 <? s1) then tget M [1;1;0]%nat else n0;
      if (1 <? s0) && (1 <? s2) then tget M [1;0;1]%nat else n0;
      if (1 <? s1) && (1 <? s2) then tget M [0;1;1]%nat else n0;
      if 2 <? s0 then tget M [2;0;0]%nat else n0;
      if 2 <? s1 then tget M [0;2;0]%nat else n0;
      if 2 <? s2 then tget M [0;0;2]%nat else n0 ].
  Definition qc3_eval (c : list T) (x y z : T) : T :=
    let c_ i := nth i c n0 in
    let k0 := c_ 0%nat - c_ 7%nat - c_ 8%nat - c_ 9%nat in
    let k7 := n2 * c_ 7%nat in
    let k8 := n2 * c_ 8%nat in
    let k9 := n2 * c_ 9%nat in
    k0 + (c_ 1%nat + k7 * x + c_ 4%nat * y + c_ 5%nat * z) * x
       + (c_ 2%nat + k8 * y + c_ 6%nat * z) * y
       + (c_ 3%nat + k9 * z) * z.
  Definition qc3_points (c : list T) : list (T * T * T) :=
    let c_ i := nth i c n0 in
    let m := - n1 in
    let p := n1 in
    let kk7 := n2 * (n2 * c_ 7%nat) in
    let kk8 := n2 * (n2 * c_ 8%nat) in
    let kk9 := n2 * (n2 * c_ 9%nat) in
    let fix_x_det := kk8 * kk9 - c_ 6%nat * c_ 6%nat in
    let fix_y_det := kk7 * kk9 - c_ 5%nat * c_ 5%nat in
    let fix_z_det := kk7 * kk8 - c_ 4%nat * c_ 4%nat in
    let minor_1_2 := kk9 * c_ 4%nat - c_ 5%nat * c_ 6%nat in
    let minor_1_3 := c_ 4%nat * c_ 6%nat - kk8 * c_ 5%nat in
    let minor_2_3 := kk7 * c_ 6%nat - c_ 4%nat * c_ 5%nat in
    let det := n4 * c_ 7%nat * fix_x_det - c_ 4%nat * minor_1_2 + c_ 5%nat * minor_1_3 in
    let pairs := [(m, m); (m, p); (p, m); (p, p)] in
    (* corners *)
    [(m,m,m); (p,m,m); (m,p,m); (m,m,p); (p,p,m); (p,m,p); (m,p,p); (p,p,p)]
    (* x and y constant; order of the code: (x0,y0) (x0,y1) (x1,y0) (x1,y1) *)
    ++ (if negb (neqb (c_ 9%nat) n0) then
          flat_map (fun xy => let '(x, y) := xy in
            let z := - (c_ 5%nat * x + c_ 3%nat + c_ 6%nat * y) / kk9 in
            if inside z then [(x, y, z)] else []) pairs
        else [])
    (* x and z constant *)
    ++ (if negb (neqb (c_ 8%nat) n0) then
          flat_map (fun xz => let '(x, z) := xz in
            let y := - (c_ 2%nat + c_ 4%nat * x + c_ 6%nat * z) / kk8 in
            if inside y then [(x, y, z)] else []) pairs
        else [])
    (* y and z constant *)
    ++ (if negb (neqb (c_ 7%nat) n0) then
          flat_map (fun yz => let '(y, z) := yz in
            let x := - (c_ 1%nat + c_ 4%nat * y + c_ 5%nat * z) / kk7 in
            if inside x then [(x, y, z)] else []) pairs
        else [])
    (* x constant *)
    ++ (if negb (neqb fix_x_det n0) then
          flat_map (fun x =>
            let u := c_ 2%nat + c_ 4%nat * x in
            let v := c_ 3%nat + c_ 5%nat * x in
            let y := (- kk9 * u + c_ 6%nat * v) / fix_x_det in
            let z := (c_ 6%nat * u - kk8 * v) / fix_x_det in
            if inside y && inside z then [(x, y, z)] else []) [m; p]
        else [])
    (* y constant *)
    ++ (if negb (neqb fix_y_det n0) then
          flat_map (fun y =>
            let u := c_ 1%nat + c_ 4%nat * y in
            let v := c_ 3%nat + c_ 6%nat * y in
            let x := (- kk9 * u + c_ 5%nat * v) / fix_y_det in
            let z := (c_ 5%nat * u - kk7 * v) / fix_y_det in
            if inside x && inside z then [(x, y, z)] else []) [m; p]
        else [])
    (* z constant *)
    ++ (if negb (neqb fix_z_det n0) then
          flat_map (fun z =>
            let u := c_ 1%nat + c_ 5%nat * z in
            let v := c_ 2%nat + c_ 6%nat * z in
            let x := (- kk8 * u + c_ 4%nat * v) / fix_z_det in
            let y := (c_ 4%nat * u - kk7 * v) / fix_z_det in
            if inside x && inside y then [(x, y, z)] else []) [m; p]
        else [])
    (* interior *)
    ++ (if negb (neqb det n0) then
          let ix := (c_ 1%nat * - fix_x_det + c_ 2%nat * minor_1_2 + c_ 3%nat * - minor_1_3) / det in
          let iy := (c_ 1%nat * minor_1_2 + c_ 2%nat * - fix_y_det + c_ 3%nat * minor_2_3) / det in
          let iz := (c_ 1%nat * - minor_1_3 + c_ 2%nat * minor_2_3 + c_ 3%nat * - fix_z_det) / det in
          if inside ix && inside iy && inside iz then [(ix, iy, iz)] else []
        else []).
  Definition quadratic_check_3D (M : tensor T) (tol : T) : bool :=
    if negb (ndim M =? 3) then false
    else let c := qc3_coeff M in
         scan (other_sum_low M c tol) false false
           (map (fun p => let '(x, y, z) := p in qc3_eval c x y z) (qc3_points c)).

  (** quadratic_check_nd, lines 522-687.  The padded copy is read through [pget]: entries outside
      the original tensor are the padding zeros.  [rank_full A] is
      [np.linalg.matrix_rank(A,hermitian=True) == A.shape[0]] and [solve A b] is
      [la.solve(A, b, assume_a='sym')]. *)
  Definition inrangeb (s idx : list nat) : bool := forallb (fun p => fst p <? snd p) (combine idx s).
  Definition pget (M : tensor T) (idx : list nat) : T := if inrangeb (shp M) idx then tget M idx else n0.
  (** multi-indices e_i, 2 e_i, e_i + e_j *)
  Definition spot1 (dim i v : nat) : list nat := upd (repeat 0%nat dim) i v.
  Definition spot2 (dim i j : nat) : list nat := upd (upd (repeat 0%nat dim) i 1%nat) j 1%nat.
  Definition degree (idx : list nat) : nat := fold_right Nat.add 0%nat idx.

  Definition ndB (M : tensor T) : list T := map (fun i => pget M (spot1 (ndim M) i 1)) (seq 0 (ndim M)).
  Definition ndP (M : tensor T) : list T := map (fun i => pget M (spot1 (ndim M) i 2)) (seq 0 (ndim M)).
  (** A: cross terms off the diagonal, 4 * pure quadratic coefficient on it *)
  Definition ndA (M : tensor T) : list (list T) :=
    map (fun i => map (fun j => if i =? j then n2 * (n2 * nth i (ndP M) n0) else pget M (spot2 (ndim M) (min i j) (max i j)))
                      (seq 0 (ndim M))) (seq 0 (ndim M)).
  Definition ndConst (M : tensor T) : T := pget M (repeat 0%nat (ndim M)).
  (** other_sum, line 617: what is left of the tensor after the entries of degree < 3 were zeroed *)
  Definition ndOther (M : tensor T) (tol : T) : T :=
    nsumabs (map (fun idx => if degree idx <? 3 then n0 else tget M idx) (indices (shp M))) + tol.
  Definition mij (A : list (list T)) (i j : nat) : T := nth j (nth i A []) n0.
  (** eval_func, lines 608-614 *)
  Definition ndEval (M : tensor T) (pt : list T) : T :=
    let dim := ndim M in
    fold_left (fun s i => s + (nth i (ndB M) n0 + n2 * nth i (ndP M) n0 * nth i pt n0
                               + nsum (map (fun j => mij (ndA M) i j * nth j pt n0) (seq (S i) (dim - S i)))) * nth i pt n0)
      (seq 0 dim) (ndConst M - nsum (ndP M)).
  (** [A[rows][:,cols]] *)
  Definition submat (A : list (list T)) (rows cols : list nat) : list (list T) :=
    map (fun i => map (fun j => mij A i j) cols) rows.
  (** itertools.product([0,1],repeat=k) turned into bounds *)
  Fixpoint sides (k : nat) : list (list T) :=
    match k with O => [[]] | S k' => flat_map (fun v => map (cons v) (sides k')) [- n1; n1] end.
  (** "if diagonal entries change sign": a negative product of neighbours *)
  Fixpoint signChange (d : list T) : bool :=
    match d with
    | a :: ((b :: _) as r) => nltb (a * b) n0 || signChange r
    | _ => false
    end.
  Definition insideC (v : T) : bool := nleb (- n1) v && nleb v n1.
  (** X[fixed] = X0; X[unfixed] = X_ *)
  Definition scatter (dim : nat) (fixed : list nat) (X0 : list T) (unfixed : list nat) (X_ : list T) : list T :=
    fold_left (fun X p => upd X (fst p) (snd p)) (combine unfixed X_)
      (fold_left (fun X p => upd X (fst p) (snd p)) (combine fixed X0) (repeat n0 dim)).
  Definition unfixedOf (dim : nat) (fixed : list nat) : list nat :=
    filter (fun i => negb (existsb (Nat.eqb i) fixed)) (seq 0 dim).

  Section Oracles.
    Variable rank_full : list (list T) -> bool.
    Variable solve : list (list T) -> list T -> list T.

    (** the points evaluated for one set of fixed variables, lines 633-665 *)
    Definition ndFace (M : tensor T) (fixed : list nat) : list (list T) :=
      let dim := ndim M in
      let A := ndA M in
      let unfixed := unfixedOf dim fixed in
      let A_ := submat A unfixed unfixed in
      if signChange (map (fun i => mij A i i) unfixed) then []
      else if rank_full A_ then
        let fixed_A := submat A unfixed fixed in
        flat_map (fun X0 =>
            let rhs := map (fun i => - nth i (ndB M) n0 - nsum (map (fun p => mij A i (fst p) * snd p) (combine fixed X0))) unfixed in
            let X_ := solve A_ rhs in
            if forallb insideC X_ then [scatter dim fixed X0 unfixed X_] else [])
          (sides (length fixed))
      else [].
    (** the interior, lines 668-685: the sign test uses the pure quadratic coefficients *)
    Definition ndInterior (M : tensor T) : list (list T) :=
      if signChange (ndP M) then []
      else if rank_full (ndA M) then
        let X := solve (ndA M) (map (fun b => - b) (ndB M)) in
        if forallb insideC X then [X] else []
      else [].
    Definition ndPoints (M : tensor T) : list (list T) :=
      sides (ndim M) ++ flat_map (ndFace M) (get_fixed_vars (ndim M)) ++ ndInterior M.
    Definition quadratic_check_nd (M : tensor T) (tol : T) : bool :=
      scan (ndOther M tol) false false (map (ndEval M) (ndPoints M)).

    (** quadratic_check, lines 25-32 *)
    Definition quadratic_check (M : tensor T) (tol : T) (nd_check : bool) : bool :=
      if (ndim M =? 2) && negb nd_check then quadratic_check_2D M tol
      else if (ndim M =? 3) && negb nd_check then quadratic_check_3D M tol
      else quadratic_check_nd M tol.
  End Oracles.
End Model.
