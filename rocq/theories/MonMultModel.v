(** * Model of monomial multiplication, yroots/utils.py lines 538-570 and 618-746 *)
From Coq Require Import List Arith Bool ZArith.
From Verif Require Import Num Tensor PolyModel.
Import ListNotations.
Local Open Scope nat_scope.
Local Open Scope num_scope.

Section MonMult.
  Context {T : Type} {NT : Num T}.

  (** [matrix.shape + mon]: elementwise, because one operand is an ndarray (lines 707, 737).
      The two have the same length wherever the theorems speak about them. *)
  Fixpoint addShape (s m : list nat) : list nat :=
    match s, m with
    | a :: s', b :: m' => (a + b)%nat :: addShape s' m'
    | _, _ => []
    end.
  (** [result = zeros(s); result[slice_bottom(t)] = t], lines 555-570: the last [t.shape[i]] places of axis i.
      [offset] is the index of [t] that lands on [idx], if there is one. *)
  Fixpoint offset (s shape idx : list nat) : option (list nat) :=
    match s, shape, idx with
    | [], [], [] => Some []
    | a :: s', b :: shape', i :: idx' =>
        if (a - b <=? i) && (i <? a) then
          match offset s' shape' idx' with Some r => Some ((i - (a - b))%nat :: r) | None => None end
        else None
    | _, _, _ => None
    end.
  Definition padBottom (s : list nat) (t : tensor T) : tensor T :=
    tbuild s (fun idx => match offset s (shp t) idx with Some r => tget t r | None => n0 end).

  (** _fold_in_i_dir, lines 618-683, one place [k] of the folded axis: [get j] is the slice [j] of the input.
      Place 0 is written by line 659; place n+1 by the n-th pass of the loop (661-681), which breaks
      when neither slice exists; that test only becomes easier to meet, so the pass for place k is reached
      unless it holds for k itself. *)
  Definition foldAt (size m k : nat) (get : nat -> T) : T :=
    match k with
    | O => get m
    | S n =>
        if (m <? n + 1) then (if (size <? m + n + 2) then n0 else get (m + n + 1)%nat)
        else if (size <? m + n + 2) then get (m - n - 1)%nat
        else get (m - n - 1)%nat + get (m + n + 1)%nat
    end.
  Definition fold_in_dir (t : tensor T) (fdim m : nat) : tensor T :=
    if m =? 0 then t
    else tbuild (shp t) (fun idx => foldAt (nth fdim (shp t) 0%nat) m (nth fdim idx 0%nat) (fun j => tget t (upd idx fdim j))).

  (** _mon_mult1, lines 685-732, for an [idx] that is zero away from [dim_mult] *)
  Definition mon_mult1 (t : tensor T) (idx : list nat) (dim_mult : nat) : tensor T :=
    let p1 := padBottom (addShape (shp t) idx) t in
    let largest := map (fun i => (i - 1)%nat) (shp t) in
    let new_shape := maxShape largest idx in
    let t := if (nth dim_mult (shp t) 0 <=? nth dim_mult idx 0)%nat then pad (map S new_shape) t else t in
    let t := fold_left (fun t i => if nth i idx 0 =? 0 then t else fold_in_dir t i (nth i idx 0%nat)) (seq 0 (ndim t)) t in
    let t := if list_eq_dec Nat.eq_dec (shp p1) (shp t) then t else pad (shp p1) t in
    tbuild (shp p1) (fun i => nlit 1 2 * (tget p1 i + tget t i)).

  (** [sol[indexer1]] with [indexer1] a list of slices (lines 659 and below): numpy up to 1.22 reads the list as a tuple,
      later versions raise IndexError *)
  Inductive outcome := Array (t : tensor T) | IndexError.
  (** mon_mult2, lines 734-746 *)
  Definition mon_mult2 (listIsTuple : bool) (t : tensor T) (mon : list nat) (power : bool) : outcome :=
    if power then Array (padBottom (addShape (shp t) mon) t)
    else if negb listIsTuple && existsb (fun m => negb (m =? 0)) mon then IndexError
    else Array (fold_left (fun t i => mon_mult1 t (upd (repeat 0%nat (length mon)) i (nth i mon 0%nat)) i) (seq 0 (length mon)) t).
End MonMult.
Arguments outcome : clear implicits.
