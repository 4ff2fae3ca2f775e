(** * Model of utils.py lines 442-536: first_x, makePolyCoeffMatrix.  A Python string is a list of characters. *)
From Coq Require Import Ascii String.
From Coq Require Import List Arith Bool ZArith.
From Verif Require Import Num Tensor.
Import ListNotations.
Local Open Scope list_scope.

Definition str := list ascii.
Definition chars (s : string) : str := list_ascii_of_string s.
(** s.split(sep) for a separator of one character: one piece more than there are separators *)
Fixpoint split (sep : ascii) (s : str) : list str :=
  match s with
  | [] => [[]]
  | c :: s' => if Ascii.eqb c sep then [] :: split sep s' else match split sep s' with p :: ps => (c :: p) :: ps | [] => [[c]] end
  end.
(** first_x, lines 442-459 *)
Fixpoint first_x (s : str) : nat := match s with [] => 0 | c :: s' => if Ascii.eqb c "x" then 0 else S (first_x s') end.

(** int(s) for ASCII strings: blanks at both ends, a sign, digits with single underscores between them; [None] is ValueError *)
Definition isBlank (c : ascii) : bool := let n := nat_of_ascii c in (n =? 32)%nat || ((9 <=? n) && (n <=? 13))%nat || ((28 <=? n) && (n <=? 31))%nat.
Definition digit (c : ascii) : option Z := let n := nat_of_ascii c in if ((48 <=? n) && (n <=? 57))%nat then Some (Z.of_nat (n - 48)) else None.
Fixpoint lstrip (s : str) : str := match s with c :: s' => if isBlank c then lstrip s' else s | [] => [] end.
Definition strip (s : str) : str := rev (lstrip (rev (lstrip s))).
Fixpoint intDigits (acc : Z) (s : str) : option Z :=
  match s with
  | [] => Some acc
  | c :: s' =>
      match digit c with
      | Some d => intDigits (10 * acc + d) s'
      | None => if Ascii.eqb c "_" then match s' with c' :: s'' => match digit c' with Some d => intDigits (10 * acc + d) s'' | None => None end | [] => None end else None
      end
  end.
Definition intUnsigned (s : str) : option Z := match s with c :: s' => match digit c with Some d => intDigits d s' | None => None end | [] => None end.
Definition pyInt (s : str) : option Z :=
  match strip s with
  | c :: s' => if Ascii.eqb c "-" then option_map Z.opp (intUnsigned s') else if Ascii.eqb c "+" then intUnsigned s' else intUnsigned (c :: s')
  | [] => None
  end.

Inductive pres (A : Type) := POk (a : A) | PValueError | PIndexError.
Arguments POk {A}. Arguments PValueError {A}. Arguments PIndexError {A}.
Definition pbind {A B} (x : pres A) (f : A -> pres B) : pres B := match x with POk a => f a | PValueError => PValueError | PIndexError => PIndexError end.
Fixpoint pall {A B} (f : A -> pres B) (l : list A) : pres (list B) :=
  match l with [] => POk [] | a :: l' => pbind (f a) (fun b => pbind (pall f l') (fun bs => POk (b :: bs))) end.
Definition ofInt (o : option Z) : pres Z := match o with Some z => POk z | None => PValueError end.

(** a subscript i of an axis of length n; negative ones count from the end, [None] is IndexError *)
Definition subscript (i : Z) (n : nat) : option nat :=
  let i := if (i <? 0)%Z then (i + Z.of_nat n)%Z else i in if ((0 <=? i) && (i <? Z.of_nat n))%Z then Some (Z.to_nat i) else None.
(** matrixSpot[varDegree] = power *)
Definition setItem (l : list Z) (i v : Z) : pres (list Z) := match subscript i (length l) with Some k => POk (upd l k v) | None => PIndexError end.
(** np.append(l, [0]*(n - len(l))) *)
Definition padTo (l : list Z) (n : nat) : list Z := l ++ repeat 0%Z (n - length l).
(** one factor of a monomial, lines 505-518; numbers are unbounded *)
Definition factor (mon : str) (spot : list Z) : pres (list Z) :=
  let stuff := split "^" mon in
  pbind (match stuff with _ :: p :: _ => ofInt (pyInt p) | _ => POk 1%Z end) (fun power =>
  pbind (match nth 0 stuff [] with [] => POk (-1)%Z | _ :: v => ofInt (pyInt v) end) (fun varDegree =>
  if (varDegree =? -1)%Z then POk spot
  else setItem (if (Z.of_nat (length spot) <=? varDegree)%Z then padTo spot (Z.to_nat varDegree + 1) else spot) varDegree power)).

Section Parse.
  Context {T : Type} {NT : Num T}.
  (** float(s); [None] is ValueError *)
  Variable pyFloat : str -> option T.

  (** lines 494-521 for one monomial *)
  Definition coefficientOf (c : str) : pres T :=
    match c with
    | [] => POk n1
    | _ => if list_eq_dec ascii_dec c ["-"%char] then POk (nopp n1) else match pyFloat c with Some v => POk v | None => PValueError end
    end.
  Definition monomial (m : str) : pres (list Z * T) :=
    pbind (coefficientOf (firstn (first_x m) m)) (fun c =>
    pbind (fold_left (fun acc mon => pbind acc (factor mon)) (split "*" (skipn (first_x m) m)) (POk [0%Z])) (fun spot => POk (spot, c))).
  (** matrix[tuple(spot)] = coefficient *)
  Fixpoint place (spot : list Z) (shape : list nat) : option (list nat) :=
    match spot, shape with
    | i :: spot', n :: shape' => match subscript i n, place spot' shape' with Some k, Some ks => Some (k :: ks) | _, _ => None end
    | [], _ => Some []
    | _ :: _, [] => None
    end.
  Definition store (acc : pres (tensor T)) (p : list Z * T) : pres (tensor T) :=
    pbind acc (fun m => match place (rev (fst p)) (shp m) with Some idx => POk (mkT (shp m) (upd (dat m) (ravel_index (shp m) idx) (snd p))) | None => PIndexError end).
  (** makePolyCoeffMatrix, lines 480-536 *)
  Definition makePolyCoeffMatrix (s : str) : pres (tensor T) :=
    pbind (pall monomial (split "+" s)) (fun ms =>
    let len := fold_left Nat.max (map (fun p => length (fst p)) ms) 0%nat in
    let ms := map (fun p => (padTo (fst p) len, snd p)) ms in
    let size := map (fun k => (fold_right Z.max (nth k (fst (nth 0 ms ([], n0))) 0%Z) (map (fun p => nth k (fst p) 0%Z) ms) + 1)%Z) (seq 0 len) in
    if existsb (fun n => (n <? 0)%Z) size then PValueError
    else let shape := rev (map Z.to_nat size) in
      fold_left store ms (POk (tbuild shape (fun _ => n0)))).
End Parse.
