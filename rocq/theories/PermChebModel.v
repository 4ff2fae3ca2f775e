(** * Model of all_permutations_cheb, yroots/utils.py lines 1148-1212 *)
From Coq Require Import List Arith Bool.
From Verif Require Import Tensor TermModel LinAlgModel PermModel PerturbModel.
Import ListNotations.

(** the dictionary: each value is the array of the three rows P, P_inv, P2; a new entry hides an older one with the same key *)
Definition cdict := list (list nat * (list nat * list nat * list nat)).
Fixpoint cget (k : list nat) (D : cdict) : option (list nat * list nat * list nat) :=
  match D with [] => None | (k', v) :: D' => if sameKey k k' then Some v else cget k D' end.

(** lines 1172-1183: the entries of the variables.  [P2[::-1][A] = P[::-1][A]] copies P at the positions, counted from the end, of the monomials
    with exponent 1 in the variable; [P_inv[:num_in_top] = 0] clears the columns of the two highest degrees (matrixDegree >= 1; there are at least
    that many columns, so the assignment of line 1181 does not raise) *)
Definition entryOf (dim matrixDegree : nat) (mons : list (list nat)) (i : nat) (P : list nat) : list nat * list nat * list nat :=
  let num_in_top := num_mons matrixDegree dim + num_mons (matrixDegree - 1) dim in
  let P_inv := inverse_P P in
  let P2 := map (fun j => if nth i (nth (length P - 1 - j) mons []) 0 =? 1 then nth j P 0 else 0) (seq 0 (length P)) in
  (P, repeat 0 num_in_top ++ skipn num_in_top P_inv, P2).
Fixpoint startCheb (dim matrixDegree : nat) (mons : list (list nat)) (is : list nat) (D : cdict) : option cdict :=
  match is with
  | [] => Some D
  | i :: is' =>
      match permutation_array matrixDegree dim (dim - 1 - i) with
      | Some P => startCheb dim matrixDegree mons is' ((unit_mon dim i, entryOf dim matrixDegree mons i P) :: D)
      | None => None
      end
  end.
(** lines 1190-1208: the loop over mons_1D(dim, deg, i); [mon] is the variable number i.  An unknown quotient is skipped (line 1192).  The value
    num_in_top of line 1196 is not used; comb gives 0 for negative
    arguments, so computing it does not raise.  None: KeyError of permutations[mon] or in cheb_perturbation *)
Fixpoint addCalcs (dim : nat) (mons2 : list (list nat)) (md : ndict) (i : nat) (calcs : list (list nat)) (D : cdict) : option cdict :=
  match calcs with
  | [] => Some D
  | calc :: calcs' =>
      match (match subMon calc (unit_mon dim i) with Some diff => cget diff D | None => None end) with
      | None => addCalcs dim mons2 md i calcs' D
      | Some (Q, _, _) =>
          match cget (unit_mon dim i) D, cheb_perturbation2 calc mons2 md i, cheb_perturbation3 calc mons2 md i with
          | Some (P, _, _), Some P_inv, Some P2 => addCalcs dim mons2 md i calcs' ((calc, (takeIdx P Q, P_inv, P2)) :: D)
          | _, _, _ => None
          end
      end
  end.
(** lines 1187-1208: the loop over the variables *)
Fixpoint addVars (dim deg : nat) (mons2 : list (list nat)) (md : ndict) (is : list nat) (D : cdict) : option cdict :=
  match is with
  | [] => Some D
  | i :: is' => match addCalcs dim mons2 md i (mons_1D dim deg i) D with Some D' => addVars dim deg mons2 md is' D' | None => None end
  end.
(** matrixDegree >= 1: for matrixDegree = 0 the call mons_ordered(dim, -1) of line 1184 gives an empty array and the indexing of the loops fails *)
Definition all_permutations_cheb (deg dim matrixDegree : nat) : option cdict :=
  match mons_ordered dim matrixDegree with
  | None => None
  | Some mons =>
      match startCheb dim matrixDegree mons (seq 0 dim) [] with
      | None => None
      | Some D =>
          match mons_ordered dim (matrixDegree - 1) with
          | None => None
          | Some mons2 => addVars dim deg mons2 (monDict mons) (seq 0 dim) D
          end
      end
  end.
