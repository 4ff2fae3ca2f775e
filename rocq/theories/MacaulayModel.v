(** * Model of the Macaulay-matrix solver: yroots/MacaulayReduce.py lines 18-204 and yroots/Multiplication.py lines 99-254, 424-486, 532-624
    Multiplication.py cannot be imported at this commit: it imports [is_power], which polynomial.py does not define, and the polynomial
    classes have neither an attribute [degree] nor a method [mon_mult].  The functions are modelled on objects that have them: the degree is
    a field, [mon_mult(mon, returnType='Matrix')] is utils.mon_mult2 applied to the coefficients, and whether the polynomials are in the
    power basis is an argument. *)
From Coq Require Import List Arith Bool ZArith.
From Verif Require Import Num Tensor PolyModel MonMultModel TermModel UtilModel.
Import ListNotations.
Local Open Scope nat_scope.

(** ** Multiplication.py 580-624: the monomials of the columns *)
(** the while loop of lines 601-603: d = degree-1, ..., 2 *)
Fixpoint otherMons (dim d : nat) : option (list (list nat)) :=
  match d with
  | O => Some []
  | S d' =>
      if d <=? 1 then Some []
      else match mon_combosHighest (repeat 0 dim) d, otherMons dim d' with Some (a, _), Some r => Some (rev a ++ r) | _, _ => None end
  end.
(** sorted_matrix_terms, lines 580-624.  None: mon_combos raises (dim = 0) *)
Definition sorted_matrix_terms (degree dim : nat) : option (list (list nat) * nat) :=
  match mon_combosHighest (repeat 0 dim) degree, otherMons dim (degree - 1), mon_combos (repeat 0 dim) 1 with
  | Some (highest, _), Some others, Some (xs, _) =>
      if degree =? 1 then Some (rev xs, 0) else Some (rev highest ++ others ++ rev xs, length highest)
  | _, _, _ => None
  end.

(** ** indexarray and indexarray_cheb, lines 99-156 *)
(** sum of |a_i - b_i| *)
Fixpoint dist1 (a b : list nat) : nat :=
  match a, b with x :: a', y :: b' => (x - y) + (y - x) + dist1 a' b' | _, _ => 0 end.
(** np.argmin: the first position of the least entry *)
Fixpoint argminFrom (l : list nat) (pos best bestPos : nat) : nat :=
  match l with [] => bestPos | v :: r => if v <? best then argminFrom r (S pos) v pos else argminFrom r (S pos) best bestPos end.
Definition argmin (l : list nat) : nat := match l with [] => 0 | v :: r => argminFrom r 1 v 0 end.
Definition nearest (terms : list (list nat)) (t : list nat) : nat := argmin (map (dist1 t) terms).
Definition upMon (var : nat) (t : list nat) : list nat := upd t var (nth var t 0 + 1).
(** an exponent -1 is replaced by 1 *)
Definition downMon (var : nat) (t : list nat) : list nat := upd t var (match nth var t 0 with O => 1 | S k => k end).
Definition indexarray (terms : list (list nat)) (m var : nat) : list nat := map (fun t => nearest terms (upMon var t)) (skipn m terms).
Definition indexarray_cheb (terms : list (list nat)) (m var : nat) : list nat * list nat :=
  (map (fun t => nearest terms (upMon var t)) (skipn m terms), map (fun t => nearest terms (downMon var t)) (skipn m terms)).

Section Macaulay.
  Context {T : Type} {NT : Num T}.
  Local Open Scope num_scope.

  Record mpoly := mkMP { mpCoeff : tensor T; mpDegree : nat }.
  Definition fmat := nat -> nat -> T.

  (** find_degree, MacaulayReduce.py lines 49-66 (all degrees are at least 1 here) *)
  Definition find_degree (polys : list mpoly) : nat := (list_sum (map mpDegree polys) + 1 - length polys)%nat.

  Fixpoint arrays (l : list (outcome T)) : option (list (tensor T)) :=
    match l with [] => Some [] | Array t :: r => option_map (cons t) (arrays r) | IndexError :: _ => None end.
  (** add_polys, lines 18-47: the arrays appended for one polynomial *)
  Definition add_polys (listIsTuple power : bool) (degree : nat) (p : mpoly) : option (list (tensor T)) :=
    match mon_combos (repeat 0%nat (ndim (mpCoeff p))) (degree - mpDegree p) with
    | None => None
    | Some (mons, _) => option_map (cons (mpCoeff p)) (arrays (map (fun mon => mon_mult2 listIsTuple (mpCoeff p) mon power) (tl mons)))
    end.
  Fixpoint add_all (listIsTuple power : bool) (degree : nat) (ps : list mpoly) : option (list (tensor T)) :=
    match ps with
    | [] => Some []
    | p :: r => match add_polys listIsTuple power degree p, add_all listIsTuple power degree r with Some a, Some b => Some (a ++ b) | _, _ => None end
    end.

  (** create_matrix, lines 532-578.  [added_zeros[slices] = coeff] raises ValueError if the array is too large. *)
  Definition fitsIn (degree : nat) (t : tensor T) : bool := forallb (fun s => s <=? degree + 1) (shp t).
  Definition flatRow (degree dim : nat) (terms : list (list nat)) (t : tensor T) : list T :=
    map (fun idx => tget (pad (repeat (degree + 1)%nat dim) t) idx) terms.
  Definition create_matrix (argsort : list nat -> list nat) (coeffs : list (tensor T)) (degree dim : nat) : option (list (list T) * list (list nat) * nat) :=
    match sorted_matrix_terms degree dim with
    | None => None
    | Some (terms, cut) =>
        if forallb (fitsIn degree) coeffs then
          match row_swap argsort (map (flatRow degree dim terms) coeffs) with Some M => Some (M, terms, cut) | None => None end
        else None
    end.
  (** build_macaulay, lines 424-486 *)
  Definition build_macaulay (listIsTuple power : bool) (argsort : list nat -> list nat) (polys : list mpoly) : option (list (list T) * list (list nat) * nat) :=
    match polys with
    | [] => None
    | p :: _ =>
        let degree := find_degree polys in
        match add_all listIsTuple power degree polys with Some coeffs => create_matrix argsort coeffs degree (ndim (mpCoeff p)) | None => None end
    end.

  (** ** MacaulayReduce.py lines 68-204 *)
  (** the library routines; the first arguments are the numbers of rows and columns *)
  Record lapack := mkLapack {
    (** np.linalg.cond; None is inf *)
    lcond : nat -> nat -> fmat -> option T;
    (** scipy.linalg.qr: the square factor and the triangular one *)
    lqr : nat -> nat -> fmat -> fmat * fmat;
    (** svd(M)[2].conj().T *)
    lsvdV : nat -> nat -> fmat -> fmat;
    (** qr(M.T, pivoting=True)[0] *)
    lqrT : nat -> nat -> fmat -> fmat;
    (** qr(M, mode='r', pivoting=True): the triangular factor and the pivots *)
    lqrP : nat -> nat -> fmat -> fmat * list nat;
    (** solve_triangular(R, B) for an r x r matrix R and k right-hand sides; None is LinAlgError *)
    ltri : nat -> nat -> fmat -> fmat -> option fmat }.
  Definition msum (n : nat) (f : nat -> T) : T := nsum (map f (seq 0 n)).
  Definition tooBig (c : option T) (max_cond : T) : bool := match c with None => true | Some v => ngtb v max_cond end.

  (** Done; the pair (None, message); or an exception *)
  Inductive mres (A : Type) := MOk (a : A) | MFail | MRaise.
  Arguments MOk {A}. Arguments MFail {A}. Arguments MRaise {A}.

  (** after the QR step of the highest-degree columns, lines 105-107, 156-158, 187-189 *)
  Definition qrStep (X : lapack) (rows cut : nat) (M : fmat) : fmat :=
    let '(Q, R) := lqr X rows cut M in
    fun i j => if j <? cut then R i j else msum rows (fun k => Q k i * M k j).
  (** the column transform, lines 114-115, 165-166 *)
  Definition colStep (cut l : nat) (V M : fmat) : fmat :=
    fun i j => if (i <? cut) && (cut <=? j) then msum l (fun k => M i (cut + k)%nat * V k (j - cut)%nat) else M i j.
  (** reduce_macaulay_qrt (68-118) and reduce_macaulay_svd (119-168) differ in the matrix Q of line 114 or 165.  The ranks of lines 89-97 only
      lead to warnings.  If the matrix is not tall, Q is None and Q[:,..] raises TypeError.  The result: E is cut x bezout_bound,
      the other matrix l x bezout_bound.  Here 1 <= bezout_bound <= l; python reads Q[:,-0:] as all of Q. *)
  Definition reduceWith (X : lapack) (getQ : nat -> nat -> fmat -> fmat) (rows N : nat) (M : fmat) (cut bezout : nat) (max_cond : T) : mres (fmat * fmat) :=
    let l := (N - cut)%nat in
    if tooBig (lcond X rows cut M) max_cond then MFail
    else
      let M := qrStep X rows cut M in
      if (cut <? rows)%nat then
        let Q := getQ (rows - cut)%nat l (fun i j => M (cut + i)%nat (cut + j)%nat) in
        let M := colStep cut l Q M in
        match ltri X cut bezout M (fun i j => M i (N - bezout + j)%nat) with
        | None => MRaise
        | Some E => MOk (E, fun i j => Q i (l - bezout + j)%nat)
        end
      else MRaise.
  Definition reduce_macaulay_qrt (X : lapack) := reduceWith X (lqrT X).
  Definition reduce_macaulay_svd (X : lapack) := reduceWith X (lsvdV X).
  (** reduce_macaulay_tvb, lines 170-204.  If the matrix is not tall, P is unbound (UnboundLocalError).  solve_triangular raises for a matrix that is
      not square. *)
  Definition reduce_macaulay_tvb (X : lapack) (rows N : nat) (M : fmat) (cut bezout : nat) (max_cond : T) : mres (fmat * list nat) :=
    let l := (N - cut)%nat in
    if tooBig (lcond X rows cut M) max_cond then MFail
    else
      let M := qrStep X rows cut M in
      if (cut <? rows)%nat then
        let '(R2, P) := lqrP X (rows - cut)%nat l (fun i j => M (cut + i)%nat (cut + j)%nat) in
        let M := fun i j =>
          if (cut <=? j)%nat then (if (cut <=? i)%nat then R2 (i - cut)%nat (j - cut)%nat else M i (cut + nth (j - cut) P 0)%nat) else M i j in
        let br := (N - bezout)%nat in
        if tooBig (lcond X (Nat.min br rows) br M) max_cond then MFail
        else if (rows <? br)%nat then MRaise
        else match ltri X br bezout M (fun i j => M i (br + j)%nat) with None => MRaise | Some E => MOk (E, P) end
      else MRaise.

  (** ** Multiplication.py lines 158-254: the Moller-Stetter matrices, one for each variable *)
  (** [A = np.hstack((-E.T, Q.T))] *)
  Definition hstackT (m : nat) (E Q : fmat) : fmat := fun r c => if (c <? m)%nat then - E c r else Q (c - m)%nat r.
  (** ms_matrices, lines 158-185: m and l are the numbers of rows of E and Q *)
  Definition ms_matrices (m l : nat) (E Q : fmat) (terms : list (list nat)) (var : nat) : fmat :=
    let A := hstackT m E Q in
    let arr := indexarray terms m var in
    fun r s => msum l (fun j => A r (nth j arr 0%nat) * Q j s).
  (** ms_matrices_cheb, lines 187-214 *)
  Definition ms_matrices_cheb (m l : nat) (E Q : fmat) (terms : list (list nat)) (var : nat) : fmat :=
    let A := hstackT m E Q in
    let '(arr1, arr2) := indexarray_cheb terms m var in
    fun r s => msum l (fun j => nlit 1 2 * (A r (nth j arr1 0%nat) + A r (nth j arr2 0%nat)) * Q j s).
  (** [matrix_terms[cut:] = matrix_terms[cut:][P]] *)
  Definition permuteTerms (terms : list (list nat)) (cut : nat) (P : list nat) : list (list nat) :=
    firstn cut terms ++ map (fun p => nth p (skipn cut terms) []) P.
  Definition eye : fmat := fun i j => if i =? j then n1 else n0.
  (** ms_matrices_p, lines 216-224, with the permuted terms; r is the number of rows of E *)
  Definition ms_matrices_p (r : nat) (E : fmat) (terms : list (list nat)) (var : nat) : fmat :=
    let A := hstackT r E eye in
    let arr := indexarray terms r var in
    fun i j => A i (nth j arr 0%nat).
  (** ms_matrices_p_cheb, lines 226-254 *)
  Definition ms_matrices_p_cheb (r : nat) (E : fmat) (terms : list (list nat)) (var : nat) : fmat :=
    let A := hstackT r E eye in
    let '(arr1, arr2) := indexarray_cheb terms r var in
    fun i j => nlit 1 2 * (A i (nth j arr1 0%nat) + A i (nth j arr2 0%nat)).

  (** ** multiplication, lines 15-97, up to the matrices handed to msroots *)
  Inductive method := Msvd | Mqrt | Mtvb.
  (** the case cut = 0 (all polynomials linear) is handled by solve_linear *)
  Inductive mstage := Linear | Matrices (n : nat) (M : nat -> fmat).
  Definition ent (rows : list (list T)) : fmat := fun i j => nth j (nth i rows []) n0.
  Definition bezout_bound (polys : list mpoly) : nat := fold_right Nat.mul 1%nat (map mpDegree polys).
  Definition multiplicationMatrices (X : lapack) (listIsTuple power : bool) (argsort : list nat -> list nat) (meth : method) (max_cond : T)
      (polys : list mpoly) : mres mstage :=
    match build_macaulay listIsTuple power argsort polys with
    | None => MRaise
    | Some (rows, terms, cut) =>
        if cut =? 0 then MOk Linear
        else
          let N := length terms in
          let bez := bezout_bound polys in
          match meth with
          | Msvd | Mqrt =>
              match (match meth with Msvd => reduce_macaulay_svd | _ => reduce_macaulay_qrt end) X (length rows) N (ent rows) cut bez max_cond with
              | MFail => MFail
              | MRaise => MRaise
              | MOk (E, Q) => MOk (Matrices bez ((if power then ms_matrices else ms_matrices_cheb) cut (N - cut)%nat E Q terms))
              end
          | Mtvb =>
              match reduce_macaulay_tvb X (length rows) N (ent rows) cut bez max_cond with
              | MFail => MFail
              | MRaise => MRaise
              | MOk (E, P) => MOk (Matrices bez ((if power then ms_matrices_p else ms_matrices_p_cheb) (N - bez)%nat E (permuteTerms terms cut P)))
              end
          end
    end.
End Macaulay.
Arguments mpoly : clear implicits.
Arguments lapack : clear implicits.
Arguments mstage : clear implicits.
Arguments MOk {A}. Arguments MFail {A}. Arguments MRaise {A}.
