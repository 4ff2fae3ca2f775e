(** * Model of utils.py lines 301-336: row_linear_dependencies *)
From Coq Require Import List Arith Bool Reals.
From Verif Require Import Num.
Import ListNotations.
Local Open Scope R_scope.

Definition rmat := nat -> nat -> R.
Section Dep.
  (** scipy.linalg.qr(M, pivoting=True) of an h x w matrix: Q (h x h), R (h x w) and the column order P *)
  Variable qr : nat -> nat -> rmat -> rmat * rmat * list nat.
  (** lines 321-336 for a matrix with h rows and w columns: the independent rows, the dependent rows, Q or None *)
  Definition row_linear_dependencies (h w : nat) (A : rmat) (accuracy : R) : list nat * list nat * option rmat :=
    let '(Q, R, P) := qr h w A in
    let rank := length (filter (fun k => Rltb accuracy (Rabs (R k k))) (seq 0 (Nat.min h w))) in
    let numMissing := (h - rank)%nat in
    if Nat.eqb numMissing 0 then (seq 0 h, [], None)
    else
      let QMatrix := fun i j => Q j (h - numMissing + i)%nat in
      let '(Q1, R1, P1) := qr numMissing h QMatrix in
      (skipn numMissing P1, firstn numMissing P1, Some Q).
End Dep.
