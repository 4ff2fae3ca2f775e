(** * Model of the reflection arrays of the Chebyshev Macaulay matrix, yroots/utils.py: cheb_perturbation3 (lines 1043-1077),
    cheb_perturbation2 (1079-1114), mons_1D (1214-1236) and the dictionary mon_dict of all_permutations_cheb (lines 1167-1171).
    The first array of each entry of all_permutations_cheb is that of permutation_array (PermModel.v); the
    dictionary all_permutations_cheb builds from these arrays is in PermChebModel.v. *)
From Coq Require Import List Arith Bool.
From Verif Require Import Tensor TermModel PermModel.
Import ListNotations.

(** a dictionary from exponent tuples to indices, oldest entry first: a later entry with the same key replaces an earlier one *)
Definition ndict := list (list nat * nat).
Fixpoint dget (d : ndict) (k : list nat) : option nat :=
  match d with
  | [] => None
  | (k', j) :: d' => match dget d' k with Some r => Some r | None => if sameKey k k' then Some j else None end
  end.
(** lines 1169-1171: for i,j in zip(mons[::-1], range(len(mons))): mon_dict[tuple(i)] = j *)
Definition monDict (mons : list (list nat)) : ndict := combine (rev mons) (seq 0 (length mons)).

(** np.abs(np.subtract(monomial, mult_mon)), for tuples of the same length *)
Definition absDiff (m mult : list nat) : list nat := map (fun p => (fst p - snd p) + (snd p - fst p)) (combine m mult).
(** one turn of the loops of lines 1067-1074 and 1103-1110.  None: mon_dict[tuple(monomial)], outside the try, raises KeyError.
    A missing difference is skipped by the except clause. *)
Definition perturbStep (d : ndict) (mult : list nat) (st : option (list nat)) (m : list nat) : option (list nat) :=
  match st with
  | None => None
  | Some p =>
      match dget d m with
      | None => None
      | Some idx => Some (match dget d (absDiff m mult) with Some idx2 => upd p idx2 idx | None => p end)
      end
  end.
(** the array of zeros of lines 1062 and 1101 has len(mon_dict) entries; the keys are taken to be distinct *)
Definition cheb_perturbation3 (mult : list nat) (mons : list (list nat)) (d : ndict) (var : nat) : option (list nat) :=
  fold_left (perturbStep d mult) (filter (fun m => nth var m 0 <? nth var mult 0) mons) (Some (repeat 0 (length d))).
Definition cheb_perturbation2 (mult : list nat) (mons : list (list nat)) (d : ndict) (var : nat) : option (list nat) :=
  fold_left (perturbStep d mult) (filter (fun m => nth var mult 0 <=? nth var m 0) mons) (Some (repeat 0 (length d))).

(** mons_1D, lines 1214-1236, for var < dim *)
Definition mons_1D (dim deg var : nat) : list (list nat) := map (fun i => upd (repeat 0 dim) var i) (seq 2 (deg + 1 - 2)).
