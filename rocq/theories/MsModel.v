(** * Model of Multiplication.py lines 256-342 (sort_eigs, get_Q_c, msroots) and of multiplication (15-97) as a whole.
    Exact arithmetic: complex numbers, Coq reals. *)
From Coq Require Import List Arith Reals Bool.
From Coquelicot Require Import Complex.
From Coq Require Import List.
From Verif Require Import Num RSum Tensor OneDSpec LinAlgModel MacaulayModel.
Import ListNotations.
Local Open Scope R_scope.

(** np.argmin: the first position of the least entry; an empty array raises ValueError *)
Fixpoint argminRFrom (best : R) (at_ i : nat) (l : list R) : nat :=
  match l with [] => at_ | x :: l' => if Rlt_dec x best then argminRFrom x i (S i) l' else argminRFrom best at_ (S i) l' end.
Definition argminR (l : list R) : option nat := match l with [] => None | x :: l' => Some (argminRFrom x 0 1 l') end.
(** list.remove: the first occurrence *)
Fixpoint removeFirst (i : nat) (l : list nat) : list nat :=
  match l with [] => [] | x :: l' => if (x =? i)%nat then l' else x :: removeFirst i l' end.
(** the loop of sort_eigs, Multiplication.py lines 275-278 *)
Fixpoint matchEigs (diag : nat -> C) (eigs : list C) (lst : list nat) : option (list nat) :=
  match eigs with
  | [] => Some []
  | e :: eigs' =>
      match argminR (map (fun k => Cmod (diag k - e)%C) lst) with
      | None => None
      | Some a =>
          let i := nth a lst 0%nat in
          match matchEigs diag eigs' (removeFirst i lst) with Some arr => Some (i :: arr) | None => None end
      end
  end.
(** sort_eigs, lines 256-279, for a diagonal of n entries *)
Definition sort_eigs (argsort : list nat -> list nat) (eigs : list C) (n : nat) (diag : nat -> C) : option (list nat) :=
  match matchEigs diag eigs (seq 0 n) with Some arr => Some (argsort arr) | None => None end.

(** U^H A U for a real matrix A, line 335 *)
Definition conjugated (n : nat) (U : nat -> nat -> C) (A : nat -> nat -> R) : nat -> nat -> C :=
  fun r s => csum n (fun q => csum n (fun p => Cconj (U p r) * RtoC (A p q))%C * U q s)%C.
(** line 326: (Q @ M[...,np.newaxis])[...,0] *)
Definition rotated (dim : nat) (Q : nat -> nat -> R) (M : nat -> nat -> nat -> R) (i : nat) : nat -> nat -> R :=
  fun r s => sumn dim (fun j => Q i j * M j r s).
(** line 330: (M*c).sum(axis=-1) *)
Definition combined (dim : nat) (c : nat -> R) (M : nat -> nat -> nat -> R) : nat -> nat -> R :=
  fun r s => sumn dim (fun i => M i r s * c i).
(** msroots, lines 304-342.  The random rotation Q and the vector c (get_Q_c, lines 281-302: fixed by the seed, remembered by memoize), scipy's schur
    (its second result) and eig are parameters.  eigs[i] = w[arr] needs n values; a single value would be broadcast, which eig does not return for n > 1. *)
Definition msroots (eig : nat -> (nat -> nat -> R) -> list C) (schur : nat -> (nat -> nat -> R) -> nat -> nat -> C) (argsort : list nat -> list nat)
    (Q : nat -> nat -> R) (c : nat -> R) (dim n : nat) (M : nat -> nat -> nat -> R) : option (list (list C)) :=
  let M := rotated dim Q M in
  let U := schur n (combined dim c M) in
  match optAll (map (fun i =>
      let T := conjugated n U (M i) in
      let w := eig n (M i) in
      match sort_eigs argsort w n (fun p => T p p) with
      | Some arr => if (length arr =? n)%nat then Some (map (fun k => nth k w (RtoC 0)) arr) else None
      | None => None
      end) (seq 0 dim)) with
  | None => None
  | Some eigs => Some (map (fun p => map (fun j => csum dim (fun i => RtoC (Q i j) * nth p (nth i eigs []) (RtoC 0))%C) (seq 0 dim)) (seq 0 n))
  end.

(** ** multiplication, lines 15-97 *)
Record eigtools := { tEig : nat -> (nat -> nat -> R) -> list C; tSchur : nat -> (nat -> nat -> R) -> nat -> nat -> C;
  tQ : nat -> nat -> nat -> R; tc : nat -> nat -> R (** get_Q_c(dim) *) }.
(** what multiplication does: the array of roots, one per row; an array of shape (1, 0, dim), which holds no number but has length one;
    the pair (None, ...) of a reduction that gave up; TooManyRoots; any other exception *)
Inductive multResult := MRoots (l : list (list C)) | MEmptyBlock | MGaveUp | MTooMany | MError.
(** np.all(np.abs(root) <= 1) *)
Definition inUnitBox (z : list C) : bool := forallb (fun v => if Rle_dec (Cmod v) 1 then true else false) z.
Definition kept (return_all_roots : bool) (l : list (list C)) : list (list C) := if return_all_roots then l else filter inUnitBox l.
(** lines 51-55 and 92-96.  For an inconsistent system solve_linear returns an array of shape (0, dim); np.array([roots]) has shape (1, 0, dim), and
    the mask [np.all(...)] of its only entry is true. *)
Definition linearStage (return_all_roots : bool) (coeffs : list (tensor R)) : multResult :=
  match @solve_linear R R_num coeffs with
  | Root x => MRoots (kept return_all_roots [map RtoC x])
  | NoRoots => MEmptyBlock
  | TooManyRoots => MTooMany
  | IndexError => MError
  end.
(** The method is None for any string other than 'svd', 'qrt', 'tvb': ValueError, but only after the test cut == 0.  A single polynomial raises NameError:
    transform (line 39) is not defined.  [power]: the answer of is_power, which polynomial.py does not define at this commit. *)
Definition multiplication (X : @lapack R) (E : eigtools) (listIsTuple power : bool) (argsort : list nat -> list nat) (meth : option method) (max_cond : R)
    (return_all_roots : bool) (polys : list (mpoly R)) : multResult :=
  if (length polys =? 1)%nat then MError
  else
    let dim := match polys with [] => 0%nat | p :: _ => ndim (mpCoeff p) end in
    match @multiplicationMatrices R R_num X listIsTuple power argsort (match meth with Some m => m | None => Msvd end) max_cond polys with
    | MOk Linear => linearStage return_all_roots (map mpCoeff polys)
    | MOk (Matrices n M) =>
        match meth with
        | None => MError
        | Some _ => match msroots (tEig E) (tSchur E) argsort (tQ E dim) (tc E dim) dim n M with Some l => MRoots (kept return_all_roots l) | None => MError end
        end
    | MFail => match meth with None => MError | Some _ => MGaveUp end
    | MRaise => MError
    end.
