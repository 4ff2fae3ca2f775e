(** * Model of the permutation arrays of yroots/utils.py: arrays (lines 908-937), permutation_array (942-974),
    all_permutations (976-1017), memoize_permutaions (1020-1034) and mons_ordered (1036-1041) *)
From Coq Require Import List Arith Bool.
From Verif Require Import Tensor TermModel LinAlgModel.
Import ListNotations.

(** arrays, lines 908-937.  memoized_arrays is the same function with remembered results (property C51), so the recursive calls
    are plain calls.  fuel bounds the depth of the recursion; None: the depth is exceeded, or dim <= mon, where the code does not
    stop or writes at a negative index. *)
Fixpoint arrays_f (fuel deg dim mon : nat) : option (list bool) :=
  match fuel with
  | O => None
  | S fuel' =>
      if dim <=? mon then None
      else if dim - 1 =? mon then
        let total := num_mons deg dim in
        let end_ := num_mons deg (dim - 1) in
        Some (repeat true (total - end_) ++ repeat false end_)
      else if deg =? 1 then Some (upd (repeat false dim) (dim - mon - 1) true)
      else match arrays_f fuel' (deg - 1) dim mon, arrays_f fuel' deg (dim - 1) mon with
           | Some a, Some b => Some (a ++ b)
           | _, _ => None
           end
  end.
Definition arrays (deg dim mon : nat) : option (list bool) := arrays_f (deg + dim + 1) deg dim mon.

(** np.where(array)[0]: the positions of the entries that are True *)
Definition whereTrue (a : list bool) : list nat := filter (fun i => nth i a false) (seq 0 (length a)).
(** line 974: inverse_P(np.hstack((np.where(~array)[0], np.where(array)[0]))) *)
Definition sortMask (a : list bool) : list nat := inverse_P (whereTrue (map negb a) ++ whereTrue a).

(** the loop of lines 963-964 over ds = 1, .., deg *)
Fixpoint loopLast (ds : list nat) (dim mon : nat) (array : list bool) : option (list bool) :=
  match ds with
  | [] => Some array
  | d :: ds' => match arrays d dim mon with Some a => loopLast ds' dim mon (a ++ array) | None => None end
  end.
(** the loop of lines 970-972 over ds = 2, .., deg *)
Fixpoint loopOther (ds : list nat) (dim mon : nat) (first array : list bool) : option (list bool) :=
  match ds with
  | [] => Some array
  | d :: ds' =>
      match arrays d (dim - 1) mon with
      | Some a => let first' := first ++ a in loopOther ds' dim mon first' (first' ++ array)
      | None => None
      end
  end.
(** permutation_array, lines 942-974.  None: dim <= mon (see arrays_f) *)
Definition permutation_array (deg dim mon : nat) : option (list nat) :=
  if dim <=? mon then None
  else
    match (if mon =? dim - 1 then loopLast (seq 1 deg) dim mon [false]
           else let first := upd (repeat false dim) (dim - mon - 1) true in loopOther (seq 2 (deg - 1)) dim mon first (first ++ [false])) with
    | Some array => Some (sortMask array)
    | None => None
    end.

(** the dictionary of all_permutations: keys are tuples of exponents; a new entry hides an older one with the same key *)
Definition pdict := list (list nat * list nat).
Definition sameKey (u v : list nat) : bool := (length u =? length v) && forallb (fun p => fst p =? snd p) (combine u v).
Fixpoint plookup (k : list nat) (D : pdict) : option (list nat) :=
  match D with [] => None | (k', P) :: D' => if sameKey k k' then Some P else plookup k D' end.
(** the tuple with 1 at position i, lines 1001-1003, and get_var_list(dim), lines 290-299 *)
Definition unit_mon (dim i : nat) : list nat := upd (repeat 0 dim) i 1.
(** np.subtract(mon, var).  None: some exponent is negative; no key of the dictionary has a negative exponent, so the test
    "diff in permutations" of line 1013 fails *)
Fixpoint subMon (u v : list nat) : option (list nat) :=
  match u, v with
  | x :: u', y :: v' => if x <? y then None else match subMon u' v' with Some w => Some ((x - y) :: w) | None => None end
  | _, _ => Some []
  end.
(** P[Q] for integer arrays: the array of the P[Q[j]] *)
Definition takeIdx (P Q : list nat) : list nat := map (fun j => nth j P 0) Q.
(** lines 1011-1015: the first variable for which the entry of mon / var is known; None: KeyError of permutations[var] *)
Fixpoint addMon (vars : list (list nat)) (mon : list nat) (D : pdict) : option pdict :=
  match vars with
  | [] => Some D
  | var :: vars' =>
      match (match subMon mon var with Some diff => plookup diff D | None => None end) with
      | Some Q => match plookup var D with Some P => Some ((mon, takeIdx P Q) :: D) | None => None end
      | None => addMon vars' mon D
      end
  end.
Fixpoint addMons (vars mons : list (list nat)) (D : pdict) : option pdict :=
  match mons with
  | [] => Some D
  | mon :: mons' => match addMon vars mon D with Some D' => addMons vars mons' D' | None => None end
  end.
Fixpoint addDegrees (vars : list (list nat)) (dim : nat) (ds : list nat) (D : pdict) : option pdict :=
  match ds with
  | [] => Some D
  | d :: ds' =>
      match mon_combosHighest (repeat 0 dim) d with
      | Some (mons, _) => match addMons vars mons D with Some D' => addDegrees vars dim ds' D' | None => None end
      | None => None
      end
  end.
(** lines 999-1004 *)
Fixpoint startDict (dim matrixDegree : nat) (is : list nat) (D : pdict) : option pdict :=
  match is with
  | [] => Some D
  | i :: is' =>
      match permutation_array matrixDegree dim (dim - 1 - i) with
      | Some P => startDict dim matrixDegree is' ((unit_mon dim i, P) :: D)
      | None => None
      end
  end.
(** all_permutations, lines 976-1017, called with the three positional arguments (permutations = None, current_degree = 2).
    np.arange of line 998 runs over the number of monomials of degree at most matrixDegree. *)
Definition all_permutations (deg dim matrixDegree : nat) : option pdict :=
  let total := list_sum (map (fun d => num_mons d dim) (seq 0 (matrixDegree + 1))) in
  match startDict dim matrixDegree (seq 0 dim) [(repeat 0 dim, seq 0 total)] with
  | Some D => addDegrees (map (unit_mon dim) (seq 0 dim)) dim (seq 2 (deg - 1)) D
  | None => None
  end.

(** memoize_permutaions, lines 1020-1034: the cache is keyed by the first three positional arguments.
    A call is the function applied to the arguments and the cache; args are the first three, rest the remaining positional ones. *)
Definition pcache (V : Type) := list ((nat * nat * nat) * V).
Definition sameArgs (a b : nat * nat * nat) : bool :=
  let '(a1, a2, a3) := a in let '(b1, b2, b3) := b in (a1 =? b1) && (a2 =? b2) && (a3 =? b3).
Fixpoint clookup {V} (a : nat * nat * nat) (c : pcache V) : option V :=
  match c with [] => None | (k, v) :: c' => if sameArgs a k then Some v else clookup a c' end.
Definition memoizedCall {V W} (function : nat * nat * nat -> W -> V) (c : pcache V) (args : nat * nat * nat) (rest : W) : V * pcache V :=
  match clookup args c with
  | Some v => (v, c)
  | None => let v := function args rest in (v, (args, v) :: c)
  end.

(** mons_ordered, lines 1036-1041.  None: mon_combosHighest raises (dim = 0) *)
Fixpoint mons_ordered_from (dim : nat) (is : list nat) : option (list (list nat)) :=
  match is with
  | [] => Some []
  | i :: is' =>
      match mon_combosHighest (repeat 0 dim) i, mons_ordered_from dim is' with
      | Some (mons, _), Some rest => Some (mons ++ rest)
      | _, _ => None
      end
  end.
Definition mons_ordered (dim deg : nat) : option (list (list nat)) := mons_ordered_from dim (seq 0 (deg + 1)).
