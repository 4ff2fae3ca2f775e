(** * Model of the memoisers of yroots/utils.py *)
From Coq Require Import List Bool.
Import ListNotations.

(** what a call gives: a value, an exception of the wrapped function, or the TypeError of looking up
    arguments that cannot be hashed *)
Inductive outcome (B E : Type) := Ret (v : B) | Exc (e : E) | Unhashable.
Arguments Ret {B E}. Arguments Exc {B E}. Arguments Unhashable {B E}.

Section Memo.
  (** A: argument tuples; B: returned objects; E: exceptions; St: everything else the wrapped function can
      read or change (global variables, the random generator, the memory). *)
  Context {A B E St : Type}.
  (** equality and hashing of argument tuples as the dictionary sees them *)
  Context (keyEq : A -> A -> bool) (hashable : A -> bool).
  (** the wrapped function; it returns Ret or Exc *)
  Context (f : St -> A -> (B + E) * St).

  Definition dict := list (A * B).
  (** args in cache / cache[args] *)
  Fixpoint lookup (args : A) (d : dict) : option B :=
    match d with [] => None | (k, v) :: d' => if keyEq args k then Some v else lookup args d' end.
  (** cache[args] = v: replace the value of an equal key, else a new entry *)
  Fixpoint store (args : A) (v : B) (d : dict) : dict :=
    match d with [] => [(args, v)] | (k, w) :: d' => if keyEq args k then (k, v) :: d' else (k, w) :: store args v d' end.

  (** the state: the rest of the program, the cache, and the arguments of the calls the wrapped function has received *)
  Definition mstate := (St * dict * list A)%type.

  (** Memoize.__call__, lines 19-22 *)
  Definition Memoize_call (m : mstate) (args : A) : outcome B E * mstate :=
    let '(st, memo, log) := m in
    if hashable args then
      match lookup args memo with
      | None =>
          match f st args with
          | (inl v, st') =>
              let memo' := store args v memo in
              (match lookup args memo' with Some w => Ret w | None => Unhashable end, (st', memo', log ++ [args]))
          | (inr e, st') => (Exc e, (st', memo, log ++ [args]))
          end
      | Some w => (Ret w, m)
      end
    else (Unhashable, m).
  (** the function returned by memoize, lines 26-32 *)
  Definition memoize_call (m : mstate) (args : A) : outcome B E * mstate :=
    let '(st, cache, log) := m in
    if hashable args then
      match lookup args cache with
      | Some w => (Ret w, m)
      | None =>
          match f st args with
          | (inl v, st') => (Ret v, (st', store args v cache, log ++ [args]))
          | (inr e, st') => (Exc e, (st', cache, log ++ [args]))
          end
      end
    else (Unhashable, m).

  (** a history: between calls the rest of the program may change the state St (but not the cache) *)
  Definition event := (A + (St -> St))%type.
  Fixpoint runMemo (call : mstate -> A -> outcome B E * mstate) (h : list event) (m : mstate) : list (A * outcome B E) * mstate :=
    match h with
    | [] => ([], m)
    | inl args :: h' => let '(o, m') := call m args in let '(os, m'') := runMemo call h' m' in ((args, o) :: os, m'')
    | inr g :: h' => let '(st, d, log) := m in runMemo call h' (g st, d, log)
    end.
End Memo.
