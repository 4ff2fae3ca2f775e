(** * Model of the class Term and of the monomial enumerations of yroots/utils.py *)
From Coq Require Import List Arith Bool ZArith.
Import ListNotations.

(** ** class Term, lines 67-129.  A term is its tuple of exponents (any integers). *)
Definition term := list Z.
(** the parameter order of __lt__; the values are strings in the code *)
Inductive order := Grevlex | Lexographic | Grlex.
Definition tsum (t : term) : Z := fold_right Z.add 0%Z t.
(** lines 87-92: first difference of the reversed tuples, the larger exponent makes the smaller term.
    Like zip, it stops at the end of the shorter tuple. *)
Fixpoint firstDiffGreater (u v : list Z) : bool :=
  match u, v with
  | i :: u', j :: v' => if (i <? j)%Z then false else if (j <? i)%Z then true else firstDiffGreater u' v'
  | _, _ => false
  end.
(** lines 94-99 and 106-111 *)
Fixpoint firstDiffLess (u v : list Z) : bool :=
  match u, v with
  | i :: u', j :: v' => if (i <? j)%Z then true else if (j <? i)%Z then false else firstDiffLess u' v'
  | _, _ => false
  end.
(** __lt__, lines 77-111 *)
Definition term_lt (self other : term) (o : order) : bool :=
  match o with
  | Grevlex =>
      if (tsum self <? tsum other)%Z then true
      else if (tsum other <? tsum self)%Z then false
      else firstDiffGreater (rev self) (rev other)
  | Lexographic => firstDiffLess self other
  | Grlex =>
      if (tsum self <? tsum other)%Z then true
      else if (tsum other <? tsum self)%Z then false
      else firstDiffLess self other
  end.
(** __eq__, lines 115-116: equality of tuples *)
Fixpoint term_eq (u v : term) : bool :=
  match u, v with
  | [], [] => true
  | i :: u', j :: v' => (i =? j)%Z && term_eq u' v'
  | _, _ => false
  end.
(** __gt__, lines 118-119 *)
Definition term_gt (self other : term) : bool := negb (term_lt self other Grevlex || term_eq self other).
(** __ge__, lines 121-122 *)
Definition term_ge (self other : term) : bool := term_gt self other || term_eq self other.
(** __le__, lines 124-125 *)
Definition term_le (self other : term) : bool := term_lt self other Grevlex || term_eq self other.

(** ** mon_combos and mon_combosHighest, lines 748-815.
    The list mon is changed in place, so the functions return the answers and the list mon as the caller
    sees it afterwards.  None is the IndexError of writing outside the list (line 813 or 779 with an
    empty list), and also stands for running out of the fuel that bounds the recursion depth. *)
Definition setAt (l : list nat) (k v : nat) : option (list nat) :=
  if k <? length l then Some (firstn k l ++ v :: skipn (S k) l) else None.
(** for i in range(numLeft+1): mon[spot] = i; answers.append(mon.copy()), lines 804-806 *)
Fixpoint writeAll (is : list nat) (spot : nat) (mon : list nat) (answers : list (list nat)) : option (list (list nat) * list nat) :=
  match is with
  | [] => Some (answers, mon)
  | i :: is' => match setAt mon spot i with Some mon' => writeAll is' spot mon' (answers ++ [mon']) | None => None end
  end.
(** the loop of lines 812-814 (778-780): rec is the recursive call *)
Fixpoint descend (rec : list nat -> nat -> option (list (list nat) * list nat)) (numLeft spot : nat) (is : list nat) (temp : list nat)
  (answers : list (list nat)) : option (list (list nat)) :=
  match is with
  | [] => Some answers
  | i :: is' =>
      match setAt temp spot i with
      | Some temp' =>
          match rec temp' (numLeft - i) with
          | Some (ans, temp'') => descend rec numLeft spot is' temp'' (answers ++ ans)
          | None => None
          end
      | None => None
      end
  end.
(** mon_combos, lines 783-815 *)
Fixpoint mon_combos_f (fuel : nat) (mon : list nat) (numLeft spot : nat) : option (list (list nat) * list nat) :=
  match fuel with
  | O => None
  | S fuel' =>
      if length mon =? spot + 1 then writeAll (seq 0 (numLeft + 1)) spot mon []
      else if numLeft =? 0 then Some ([mon], mon)
      else match descend (fun t n => mon_combos_f fuel' t n (spot + 1)) numLeft spot (seq 0 (numLeft + 1)) mon [] with
           | Some answers => Some (answers, mon)
           | None => None
           end
  end.
(** mon_combosHighest, lines 748-781 *)
Fixpoint mon_combosHighest_f (fuel : nat) (mon : list nat) (numLeft spot : nat) : option (list (list nat) * list nat) :=
  match fuel with
  | O => None
  | S fuel' =>
      if length mon =? spot + 1 then match setAt mon spot numLeft with Some mon' => Some ([mon'], mon') | None => None end
      else if numLeft =? 0 then Some ([mon], mon)
      else match descend (fun t n => mon_combosHighest_f fuel' t n (spot + 1)) numLeft spot (seq 0 (numLeft + 1)) mon [] with
           | Some answers => Some (answers, mon)
           | None => None
           end
  end.
(** a call with the default spot = 0; the depth of the recursion is at most the length of the list *)
Definition mon_combos (mon : list nat) (numLeft : nat) := mon_combos_f (length mon + 2) mon numLeft 0.
Definition mon_combosHighest (mon : list nat) (numLeft : nat) := mon_combosHighest_f (length mon + 2) mon numLeft 0.

(** scipy.special.comb with exact=True on natural numbers: the binomial coefficient *)
Fixpoint comb (N k : nat) : nat :=
  match N, k with
  | _, O => 1
  | O, S _ => 0
  | S N', S k' => comb N' k' + comb N' (S k')
  end.
(** num_mons_full, lines 817-831 *)
Definition num_mons_full (deg dim : nat) : nat := comb (deg + dim) dim.
(** num_mons, lines 833-847.  deg + dim - 1 is an integer in the code; it is negative only for deg = dim = 0,
    where comb gives 0. *)
Definition num_mons (deg dim : nat) : nat :=
  match deg + dim with O => 0 | S k => comb k deg end.
