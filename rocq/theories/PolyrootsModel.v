(** * Model of yroots/polyroots.py: eigensolve.  The module imports is_power from polynomial.py, which does not define it at this commit, so it is
      modelled as text; is_power only reports the common class of the polynomials. *)
From Coq Require Import List Arith Bool ZArith Reals.
From Coquelicot Require Import Complex.
From Coq Require Import List.
From Verif Require Import Num Tensor OneDModel MacaulayModel MsModel.
Import ListNotations.
Local Open Scope R_scope.

(** np.unique on the finite numbers of a complex array: sorted by real part, then imaginary part, without repetition.  Entries that are inf or nan
    (None) come last; how often does not matter, because they are never within tol of anything. *)
Definition lexLt (x y : C) : bool := if Rlt_dec (fst x) (fst y) then true else if Req_EM_T (fst x) (fst y) then (if Rlt_dec (snd x) (snd y) then true else false) else false.
Fixpoint insertC (z : C) (l : list C) : list C :=
  match l with [] => [z] | x :: l' => if lexLt z x then z :: l else if lexLt x z then x :: insertC z l' else l end.
Fixpoint finite (l : list (option C)) : list C := match l with [] => [] | Some z :: l' => z :: finite l' | None :: l' => finite l' end.
Definition unique (l : list (option C)) : list (option C) :=
  map Some (fold_right insertC [] (finite l)) ++ filter (fun o => match o with None => true | Some _ => false end) l.
(** lines 58-63: some entry of zeros is within tol of zero *)
Definition tolerance : R := 1 / 10 ^ 10.
Definition near (zeros : list (option C)) (zero : option C) : bool :=
  match zero with
  | None => false
  | Some z => existsb (fun o => match o with None => false | Some w => if Rlt_dec (Cmod (w - z)%C) tolerance then true else false end) zeros
  end.
(** what eigensolve returns or raises in one variable *)
Inductive eigen1 := Fails (r : result) | Finds (l : list (option C)).
Section OneVariable.
  Variables (eigvals : nat -> (nat -> nat -> R) -> list C) (eigLeft : nat -> (nat -> nat -> R) -> list (C * (nat -> C))).
  Definition solveOne (MSmatrix : Z) (useEigvals : bool) (p : kind * dtype * list R) : result := let '(k, d, coeff) := p in solve1D eigvals eigLeft k d coeff MSmatrix useEigvals.
  (** lines 52-65: the loop over polys[1:] *)
  Fixpoint commonLoop (MSmatrix : Z) (useEigvals : bool) (zeros : list (option C)) (polys : list (kind * dtype * list R)) : eigen1 :=
    match polys with
    | [] => Finds zeros
    | poly :: rest =>
        match zeros with
        | [] => Finds zeros
        | _ =>
            match solveOne MSmatrix useEigvals poly with
            | Other (Zeros l) => commonLoop MSmatrix useEigvals (filter (near zeros) (unique l)) rest
            | r => Fails r
            end
        end
    end.
  (** lines 46-66 with dim = 1; None: the list of polynomials is empty (ValueError of max in match_poly_dimensions), which otherwise leaves polynomials
      of the same dimension as they are *)
  Definition eigensolve1 (MSmatrix : Z) (useEigvals : bool) (polys : list (kind * dtype * list R)) : option eigen1 :=
    match polys with
    | [] => None
    | [p] => Some (match solveOne MSmatrix useEigvals p with Other (Zeros l) => Finds l | r => Fails r end)
    | p :: rest => Some (match solveOne MSmatrix useEigvals p with Other (Zeros l) => commonLoop MSmatrix useEigvals (unique l) rest | r => Fails r end)
    end.
End OneVariable.
(** lines 67-72 with dim > 1, polynomials already of the same dimension.  MSmatrix, eigvals and macaulay_zero_tol are not used.  res[0] of an array without rows
    raises IndexError; of np.array([roots]) with no root in it (MEmptyBlock) it is an empty array, and the array is returned. *)
Inductive eigenN := Returns (l : list (list C)) | ReturnsEmptyBlock | ConditioningError | IndexErrorN | OtherError.
Definition eigensolveN (X : @lapack R) (E : eigtools) (listIsTuple power : bool) (argsort : list nat -> list nat) (meth : option method) (max_cond : R)
    (return_all_roots : bool) (polys : list (mpoly R)) : eigenN :=
  match multiplication X E listIsTuple power argsort meth max_cond return_all_roots polys with
  | MRoots [] => IndexErrorN
  | MRoots l => Returns l
  | MEmptyBlock => ReturnsEmptyBlock
  | MGaveUp => ConditioningError
  | MTooMany | MError => OtherError
  end.
