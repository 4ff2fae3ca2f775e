(** * Model of the linear-system helpers: utils.py lines 164-185 (inverse_P), 290-299 (get_var_list), 339-393 (triangular_solve),
    395-440 (solve_linear) and LinearProjection.py lines 228-276 (nullspace, rref) *)
From Coq Require Import List Arith Bool ZArith.
From Verif Require Import Num Tensor.
Import ListNotations.
Local Open Scope nat_scope.
Local Open Scope num_scope.

Section LinAlg.
  Context {T : Type} {NT : Num T}.
  (** a matrix is a function of row and column, its sides are given beside it *)
  Definition matrix := nat -> nat -> T.
  Definition swapIx (j k c : nat) : nat := if c =? j then k else if c =? k then j else c.
  Definition swapRows (j k : nat) (M : matrix) : matrix := fun i c => M (swapIx j k i) c.
  Definition swapCols (j k : nat) (M : matrix) : matrix := fun i c => M i (swapIx j k c).
  Definition sumFrom (a n : nat) (f : nat -> T) : T := nsum (map f (seq a (n - a))).

  (** first position of the largest value of [f] on a non-empty list (argmax, np.where(... == max)[0]) *)
  Definition argmax {P : Type} (f : P -> T) (p : P) (ps : list P) : P := fold_left (fun b q => if ngtb (f q) (f b) then q else b) ps p.

  (** back substitution: solve_triangular (utils.py line 383) and the last part of np.linalg.solve.  The m unknowns of
      U x = b, U upper triangular; entries under the diagonal are not read.  [backsub] lists x_(m-k), ..., x_(m-1).
      Exact arithmetic; LAPACK reads and combines the same entries in another order. *)
  Fixpoint backsub (m : nat) (U : matrix) (b : nat -> T) (k : nat) : list T :=
    match k with
    | O => []
    | S k' =>
        let x := backsub m U b k' in
        let i := (m - S k')%nat in
        (b i - nsum (map (fun c => U i (i + 1 + c)%nat * nth c x n0) (seq 0 k'))) / U i i :: x
    end.
  Definition solveUpper (m : nat) (U : matrix) (b : nat -> T) : list T := backsub m U b m.

  (** get_var_list(dim)[i], utils.py lines 290-299 *)
  Definition unitIdx (dim i : nat) : list nat := upd (repeat 0%nat dim) i 1%nat.
  (** coeff[idx]: None is IndexError *)
  Definition item (t : tensor T) (idx : list nat) : option T :=
    if (length idx =? ndim t) && forallb (fun p => fst p <? snd p) (combine idx (shp t)) then Some (tget t idx) else None.

  (** Gaussian elimination with partial pivoting on m rows (LAPACK getrf, called by np.linalg.solve and scipy.linalg.lu): the U factor.
      A zero pivot column is left as it is. *)
  Definition luStep (m j : nat) (M : matrix) : matrix :=
    let p := argmax (fun i => nabs (M i j)) j (seq (j + 1) (m - (j + 1))) in
    let M := swapRows j p M in
    if neqb (M j j) n0 then M
    else fun i c => if j <? i then (if c =? j then n0 else M i c - M i j / M j j * M j c) else M i c.
  Definition luU (m : nat) (M : matrix) : matrix := fold_left (fun M j => luStep m j M) (seq 0 m) M.

  (** solve_linear, utils.py lines 395-440.  The first result of the returned pair; [TooManyRoots] and [IndexError] are raised.
      coeffs[row] past the end of the list is IndexError too. *)
  Inductive linearResult := Root (x : list T) | NoRoots | TooManyRoots | IndexError.
  Fixpoint optAll {A} (l : list (option A)) : option (list A) :=
    match l with [] => Some [] | None :: _ => None | Some a :: l' => match optAll l' with Some r => Some (a :: r) | None => None end end.
  Definition linearRow (dim : nat) (coeff : tensor T) : option (list T * T) :=
    match item coeff (repeat 0%nat dim) with
    | None => None
    | Some b =>
        match optAll (map (fun col => if nth 0 (shp coeff) 0 =? 1 then Some n0 else item coeff (unitIdx dim col)) (seq 0 dim)) with
        | Some a => Some (a, b)
        | None => None
        end
    end.
  (** index of the first nonzero entry of a row of n entries *)
  Fixpoint leading (row : nat -> T) (cs : list nat) : option nat :=
    match cs with [] => None | c :: cs' => if neqb (row c) n0 then leading row cs' else Some c end.
  Definition solve_linear (coeffs : list (tensor T)) : linearResult :=
    let dim := match coeffs with [] => 0%nat | c :: _ => ndim c end in
    if length coeffs <? dim then IndexError
    else match optAll (map (linearRow dim) (firstn dim coeffs)) with
    | None => IndexError
    | Some rows =>
        let AB : matrix := fun i c => if c <? dim then nth c (fst (nth i rows ([], n0))) n0 else - snd (nth i rows ([], n0)) in
        let U := luU dim AB in
        if existsb (fun i => neqb (U i i) n0) (seq 0 dim) then
          let pivots := map (fun i => leading (U i) (seq 0 (dim + 1))) (seq 0 dim) in
          if existsb (fun p => match p with Some c => c =? dim | None => false end) pivots then NoRoots else TooManyRoots
        else Root (solveUpper dim U (fun i => U i dim))
    end.

  (** inverse_P, utils.py lines 164-185 *)
  Definition inverse_P (P : list nat) : list nat :=
    fold_left (fun inv i => upd inv (nth i P 0%nat) i) (seq 0 (length P)) (repeat 0%nat (length P)).
  (** the while loop of triangular_solve, lines 361-370: pivot columns and the others, in the order they are met *)
  Fixpoint walk (fuel m n : nat) (M : matrix) (j k : nat) : list nat * list nat :=
    match fuel with
    | O => ([], [])
    | S fuel' =>
        if (j <? m) && (k <? n) then
          if neqb (M j k) n0 then let '(c, d) := walk fuel' m n M j (k + 1) in (c, k :: d)
          else let '(c, d) := walk fuel' m n M (j + 1) (k + 1) in (k :: c, d)
        else ([], seq k (n - k))
    end.
  (** triangular_solve, lines 339-393.  None: solve_triangular raises ValueError, C is not square *)
  Definition triangular_solve (m n : nat) (M : matrix) : option matrix :=
    if m =? n then Some (fun i c => if i =? c then n1 else n0)
    else
      let '(order_c, order_d) := walk (n + 1) m n M 0 0 in
      if length order_c =? m then
        let C : matrix := fun i c => M i (nth c order_c 0%nat) in
        let X : matrix := fun i c => nth i (solveUpper m C (fun r => M r (nth c order_d 0%nat))) n0 in
        let solver : matrix := fun i c => if c <? m then (if i =? c then n1 else n0) else X i (c - m)%nat in
        let P := inverse_P (order_c ++ order_d) in
        Some (fun i c => solver i (nth c P 0%nat))
      else None.

  (** rref, LinearProjection.py lines 250-276, on m rows and n columns.  [np.float] does not exist from numpy 1.24 on: AttributeError.
      max() of an empty block is ValueError.  [Reduced r M Pc]: the first r rows of M, and the column order. *)
  Inductive rrefResult := Reduced (rows : nat) (M : matrix) (Pc : list nat) | ValueError | AttributeError.
  Definition rrefPivot (m n j : nat) (M : matrix) : nat * nat :=
    argmax (fun p => nabs (M (fst p) (snd p))) (j, j)
      (flat_map (fun i => map (fun c => (i, c)) (seq j (n - 1 - j))) (seq j (m - j))).
  Definition rrefEliminate (j : nat) (M : matrix) : matrix := fun i c =>
    if i =? j then M i c / M j j
    else if c <? j then M i c else M i c - M j c * M i j / M j j.
  Fixpoint rrefLoop (m n : nat) (js : list nat) (M : matrix) (Pc : list nat) : rrefResult :=
    match js with
    | [] => Reduced m M Pc
    | j :: js' =>
        if n - 1 <=? j then ValueError
        else
          let '(k, l) := rrefPivot m n j M in
          let M := swapCols j l (swapRows j k M) in
          let Pc := upd (upd Pc j (nth l Pc 0%nat)) l (nth j Pc 0%nat) in
          if neqb (M j j) n0 then Reduced j M Pc
          else rrefLoop m n js' (rrefEliminate j M) Pc
    end.
  Definition rref (numpyHasFloat : bool) (m n : nat) (A : matrix) : rrefResult :=
    if numpyHasFloat then rrefLoop m n (seq 0 m) A (seq 0 n) else AttributeError.
  (** nullspace, LinearProjection.py lines 228-248: one row per polynomial, its coefficients of x_1, ..., x_dim and its constant.
      [p.coeff[tuple(get_var_list(dim))]] picks coeff[e_1], ..., coeff[e_dim] (the index array is symmetric).  None: IndexError *)
  Definition nullspaceRow (dim : nat) (coeff : tensor T) : option (list T) :=
    optAll (map (fun col => item coeff (unitIdx dim col)) (seq 0 dim) ++ [item coeff (repeat 0%nat dim)]).
  Definition nullspace (numpyHasFloat : bool) (polys : list (tensor T)) : option rrefResult :=
    let dim := match polys with [] => 0%nat | c :: _ => ndim c end in
    match optAll (map (nullspaceRow dim) polys) with
    | None => None
    | Some rows => Some (rref numpyHasFloat (length polys) (dim + 1) (fun i c => nth c (nth i rows []) n0))
    end.
End LinAlg.
Arguments linearResult : clear implicits.
Arguments rrefResult : clear implicits.
