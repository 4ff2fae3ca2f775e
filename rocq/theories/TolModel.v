(** * Model of utils.py lines 1358-1458: isNumOrBool and the class Tolerances *)
From Coq Require Import Ascii String.
From Coq Require Import List Arith Bool ZArith.
From Verif Require Import Num Tensor ParseModel.
Import ListNotations.
Local Open Scope list_scope.

(** a value: a number or bool, an iterable with a length (list, tuple, array, string), or an object that is neither *)
Inductive value (V : Type) := VNum (v : V) | VIter (l : list (value V)) | VOther.
Arguments VNum {V}. Arguments VIter {V}. Arguments VOther {V}.
Inductive tres (A : Type) := TOk (a : A) | TValueError | TTypeError | TIndexError | TReserved.
Arguments TOk {A}. Arguments TValueError {A}. Arguments TTypeError {A}. Arguments TIndexError {A}. Arguments TReserved {A}.

Section Tol.
  Context {V : Type}.
  (** __dict__: insertion order, a new value of an old name stays at its place *)
  Definition attrs := list (str * value V).
  Fixpoint dget (d : attrs) (k : str) : option (value V) :=
    match d with [] => None | (k', v) :: d' => if list_eq_dec ascii_dec k' k then Some v else dget d' k end.
  Fixpoint dset (d : attrs) (k : str) (v : value V) : attrs :=
    match d with [] => [(k, v)] | (k', v') :: d' => if list_eq_dec ascii_dec k' k then (k', v) :: d' else (k', v') :: dset d' k v end.
  (** the object: its attributes without the two counters, and the counters *)
  Record tolerances := mkTol { tattrs : attrs; currTol : Z; numTols : nat }.

  (** isNumOrBool, lines 1358-1371 *)
  Definition isNumOrBool (v : value V) : bool := match v with VNum _ => true | _ => false end.
  Definition plural (name : str) : str := name ++ ["s"%char].
  (** names whose attributes would replace a counter; what happens then is not modelled *)
  Definition reserved (name : str) : bool :=
    existsb (fun r => if list_eq_dec ascii_dec name r then true else false) [chars "numTol"; chars "numTols"; chars "currTol"].
  (** lines 1408-1412: the length of the last argument that is not a number *)
  Fixpoint countTols (n : nat) (args : attrs) : tres nat :=
    match args with
    | [] => TOk n
    | (_, VNum _) :: args' => countTols n args'
    | (_, VIter l) :: args' => countTols (length l) args'
    | (_, VOther) :: _ => TTypeError
    end.
  (** lines 1414-1423 *)
  Fixpoint setTols (n : nat) (d : attrs) (args : attrs) : tres attrs :=
    match args with
    | [] => TOk d
    | (name, VNum v) :: args' => setTols n (dset d (plural name) (VIter (repeat (VNum v) n))) args'
    | (name, VIter l) :: args' => if length l =? n then setTols n (dset d (plural name) (VIter l)) args' else TValueError
    | (_, VOther) :: _ => TTypeError
    end.
  (** __init__, lines 1407-1426; the keyword arguments have different names *)
  Definition init (args : attrs) : tres tolerances :=
    if existsb (fun p => reserved (fst p)) args then TReserved
    else match countTols 1 args with
    | TOk n => match setTols n [] args with TOk d => TOk (mkTol d (-1) n) | TValueError => TValueError | TTypeError => TTypeError | TIndexError => TIndexError | TReserved => TReserved end
    | TValueError => TValueError | TTypeError => TTypeError | TIndexError => TIndexError | TReserved => TReserved
    end.
  (** getTolDict, lines 1428-1433 *)
  Definition isIter (v : value V) : bool := match v with VIter _ => true | _ => false end.
  Definition getTolDict (t : tolerances) : attrs := filter (fun p => isIter (snd p)) (tattrs t).
  (** the loop of lines 1447-1454: the names without their last letter and the values at currTol *)
  Fixpoint current (k : nat) (d : attrs) : tres attrs :=
    match d with
    | [] => TOk []
    | (name, VIter l) :: d' =>
        match nth_error l k with
        | None => TIndexError
        | Some v => match current k d' with TOk r => TOk ((removelast name, v) :: r) | e => e end
        end
    | _ :: d' => current k d'
    end.
  (** nextTols, lines 1435-1458: the answer and the object afterwards *)
  Definition nextTols (t : tolerances) : tres (bool * tolerances) :=
    let c := (currTol t + 1)%Z in
    if (Z.of_nat (numTols t) <=? c)%Z then TOk (false, mkTol (tattrs t) c (numTols t))
    else match current (Z.to_nat c) (tattrs t) with
    | TOk r => if existsb (fun p => reserved (fst p)) r then TReserved else TOk (true, mkTol (fold_left (fun d p => dset d (fst p) (snd p)) r (tattrs t)) c (numTols t))
    | TValueError => TValueError | TTypeError => TTypeError | TIndexError => TIndexError | TReserved => TReserved
    end.
  (** calling nextTols k times: the answers and the object *)
  Fixpoint callNext (k : nat) (t : tolerances) : tres (list bool * tolerances) :=
    match k with
    | O => TOk ([], t)
    | S k' => match callNext k' t with
      | TOk (bs, t') => match nextTols t' with TOk (b, t'') => TOk (bs ++ [b], t'') | TValueError => TValueError | TTypeError => TTypeError | TIndexError => TIndexError | TReserved => TReserved end
      | e => e
      end
    end.
End Tol.
