(** * Model of utils.py lines 1461-1498: condeig, condeigs and householder *)
From Coq Require Import List Arith Bool Reals.
From Coquelicot Require Import Complex.
From Verif Require Import Num RSum OneDSpec.
Import ListNotations.
Local Open Scope R_scope.
Local Open Scope C_scope.

Definition cvec := nat -> C.
Definition cmat := nat -> nat -> C.
(** norm (scipy.linalg): the Euclidean length of a complex vector *)
Definition cnorm (n : nat) (x : cvec) : R := sqrt (sumn n (fun i => (Cmod (x i) * Cmod (x i))%R)).
(** np.exp(1j*np.angle(z)): the direction of z; the angle of 0 is 0 *)
Definition phase (z : C) : C := if Ceq_dec z 0 then 1 else z / RtoC (Cmod z).
(** householder, lines 1490-1498; [None]: the entries are NaN *)
Definition householder (n : nat) (x : cvec) : option cmat :=
  let u := fun i => match i with O => x 0%nat + phase (x 0%nat) * RtoC (cnorm n x) | S _ => x i end in
  let nu := cnorm n u in
  if Req_EM_T nu 0 then None
  else let u := fun i => u i / RtoC nu in
    Some (fun i j => (if Nat.eqb i j then 1 else 0) - 2 * (u i * Cconj (u j))).

Inductive cres (A : Type) := COk (a : A) | CValueError | CLinAlg.
Arguments COk {A}. Arguments CValueError {A}. Arguments CLinAlg {A}.
Section Condeig.
  (** qr(M, mode='r')[0] of an m x m matrix *)
  Variable qrR : nat -> cmat -> cmat.
  (** solve_triangular(R, b, trans=2): R^H v = b; [None] is LinAlgError *)
  Variable solveTri : nat -> cmat -> cvec -> option cvec.
  (** svd(R, compute_uv=False)[-1] *)
  Variable svdMin : nat -> cmat -> R.

  (** (Q.conj().T) @ A @ Q *)
  Definition conjugated (n : nat) (Q A : cmat) : cmat :=
    fun i j => csum n (fun l => csum n (fun k => Cconj (Q k i) * A k l) * Q l j).
  (** condeig, lines 1462-1474, for n >= 2: the two numbers; qr refuses NaN with ValueError.  Division by zero in line 1472 gives inf, here it is
      left as 1/0. *)
  Definition condeigPair (n : nat) (A : cmat) (eig : C) (x : cvec) : cres (R * R) :=
    match householder n x with
    | None => CValueError
    | Some Q =>
        let B := conjugated n Q A in
        let R := qrR (n - 1)%nat (fun i j => B (S i) (S j) - eig * (if Nat.eqb i j then 1 else 0)) in
        match solveTri (n - 1)%nat R (fun i => - Cconj (B 0%nat (S i))) with
        | None => CLinAlg
        | Some v => COk (sqrt (1 + cnorm (n - 1)%nat v * cnorm (n - 1)%nat v), 1 / svdMin (n - 1)%nat R)%R
        end
    end.
  (** condvec=False *)
  Definition condeig (n : nat) (A : cmat) (eig : C) (x : cvec) : cres R :=
    match condeigPair n A eig x with COk p => COk (fst p) | CValueError => CValueError | CLinAlg => CLinAlg end.
  (** condeigs, lines 1476-1488: eigenvalue i and column i of v *)
  Fixpoint collectC {A} (f : nat -> cres A) (l : list nat) : cres (list A) :=
    match l with
    | [] => COk []
    | i :: l' => match f i with COk a => match collectC f l' with COk r => COk (a :: r) | e => e end | CValueError => CValueError | CLinAlg => CLinAlg end
    end.
  Definition condeigs (n : nat) (A : cmat) (w : nat -> C) (v : cmat) : cres (list R) := collectC (fun i => condeig n A (w i) (fun k => v k i)) (seq 0%nat n).
End Condeig.
