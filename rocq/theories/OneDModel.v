(** * Model of yroots/OneDimension.py: zeros of one polynomial in one variable *)
From Coq Require Import List Arith Bool Reals.
From Coquelicot Require Import Complex.
From Verif Require Import Num.
Import ListNotations.

(** ** The matrices.  A matrix is a function of row and column. *)
Section Matrices.
  Context {T : Type} {NT : Num T}.
  Local Open Scope num_scope.

  (** position k of a flat array is in the slice [start:stop:step] (step > 0) *)
  Definition inSlice (start stop step k : nat) : bool := (start <=? k) && (k <? stop) && ((k - start) mod step =? 0).
  (** multPower, lines 56 and 64-69: ones on [n::n+1] of the flat matrix, the last column, both axes reversed *)
  Definition companion (coeff : list T) : nat -> nat -> T :=
    let n := (length coeff - 1)%nat in
    let matrix := fun i j =>
      let e := if inSlice n (n * n) (n + 1) (i * n + j) then n1 else n0 in
      if j =? n - 1 then e - nth i coeff n0 / nth n coeff n0 else e in
    fun i j => matrix (n - 1 - i)%nat (n - 1 - j)%nat.
  (** divPower, lines 97 and 106-109 *)
  Definition divCompanion (coeff : list T) : nat -> nat -> T :=
    let n := (length coeff - 1)%nat in
    fun i j =>
      let e := if inSlice 1 (n * n) (n + 1) (i * n + j) then n1 else n0 in
      if j =? 0 then e - nth (i + 1) coeff n0 / nth 0 coeff n0 else e.
  (** multCheb, lines 137 and 145-151: entry (1,0), then [1::n+1], then [2n+1::n+1], then the last column *)
  Definition colleague (coeff : list T) : nat -> nat -> T :=
    let n := (length coeff - 1)%nat in
    fun i j =>
      let half := nlit 1 2 in
      let k := (i * n + j)%nat in
      let e := if (i =? 1) && (j =? 0) then n1 else n0 in
      let e := if inSlice 1 (n * n) (n + 1) k then half else e in
      let e := if inSlice (2 * n + 1) (n * n) (n + 1) k then half else e in
      if j =? n - 1 then e - half * nth i coeff n0 / nth n coeff n0 else e.

  (** getXinv, lines 166-177: the loop i = n-1, ..., 1 works on curr and xinv *)
  Fixpoint setNth (l : list T) (i : nat) (v : T) : list T :=
    match l, i with [] , _ => [] | _ :: l', O => v :: l' | x :: l', S i' => x :: setNth l' i' v end.
  Fixpoint xinvLoop (is : list nat) (curr xinv : list T) : list T * list T :=
    match is with
    | [] => (curr, xinv)
    | i :: is' =>
        let val := - nth (i + 1) curr n0 in
        let curr := setNth curr (i - 1) (nth (i - 1) curr n0 + val) in
        let xinv := setNth xinv i (nth i xinv n0 + n2 * val) in
        xinvLoop is' curr xinv
    end.
  (** None: IndexError of curr[1] when there is one coefficient (or none) *)
  Definition getXinv (coeff : list T) : option (list T * T) :=
    let n := (length coeff - 1)%nat in
    if length coeff <=? 1 then None
    else
      let '(curr, xinv) := xinvLoop (rev (seq 1 (n - 1))) coeff (repeat n0 n) in
      let temp := - nth 1 curr n0 in
      Some (setNth xinv 0 (nth 0 xinv n0 + temp), nth 0 curr n0).
  (** the sign of the m-th pass of a loop that starts with 1 and changes sign every time *)
  Definition alternating (m : nat) : T := if Nat.even m then n1 else - n1.
  (** divCheb, lines 201-218; rows and columns as before.
      The loop over odd col writes 2*sign on [col:(n-col)*n:n+1]; later passes win. *)
  Definition oddDiagonals (n i j : nat) : T :=
    fold_left (fun e m => let col := (2 * m + 1)%nat in
                 if (col <? n) && inSlice col ((n - col) * n) (n + 1) (i * n + j) then n2 * alternating m else e)
      (seq 0 n) n0.
  Definition divColleague (coeff xinv : list T) (divisor : T) : nat -> nat -> T :=
    let n := (length coeff - 1)%nat in
    let big := ngtb (nabs divisor) n1 in
    fun i j =>
      let e := oddDiagonals n i j in
      let e := if i =? 0 then e / n2 else e in
      let x := if big then nth i xinv n0 / divisor else nth i xinv n0 in
      let e := if big then e else e * divisor in
      if Nat.even j then e + x * alternating (j / 2) else e.
End Matrices.

(** ** The root finders.  Coefficients are real, zeros complex. *)
Local Open Scope C_scope.
(** 1/z and z/w in numpy: None stands for inf or nan, given by a zero divisor *)
Definition cdiv (z w : C) : option C := if Req_EM_T (fst w) 0 then (if Req_EM_T (snd w) 0 then None else Some (z / w)) else Some (z / w).
(** dtype of the coefficient array; Polynomial.__init__ (polynomial.py lines 137-156) stores the array it is given,
    its cast to float64 only changes a local name, so a list of Python integers stays an integer array *)
Inductive dtype := Ints | Floats.
(** an exception or the array of zeros; TypeError is raised by -= and /= of floats into an integer matrix
    (lines 67, 109, 151, 208), so only from degree two on *)
Inductive zeros := IndexError | TypeError | NotFinite | Zeros (l : list (option C)).
Definition inFloats (d : dtype) (z : zeros) : zeros := match d with Ints => TypeError | Floats => z end.
(** NotFinite: the matrix was divided by [pivot] = 0, and eigvals or eig refuses its inf and nan entries
    (LinAlgError from numpy, ValueError from scipy) *)
Definition divided (pivot : R) (z : zeros) : zeros := if Req_EM_T pivot 0 then NotFinite else z.

Section Finders.
  (** numpy.linalg.eigvals on an n x n real matrix *)
  Variable eigvals : nat -> (nat -> nat -> R) -> list C.
  (** scipy.linalg.eig(matrix, left=True, right=False): eigenvalues and left eigenvectors (columns of vecs) *)
  Variable eigLeft : nat -> (nat -> nat -> R) -> list (C * (nat -> C)).

  (** multPower, lines 43-82 *)
  Definition multPower (d : dtype) (coeff : list R) (useEigvals : bool) : zeros :=
    match coeff with
    | [] | [_] => Zeros []
    | [c0; c1] => Zeros [cdiv (RtoC (- c0)) (RtoC c1)]
    | _ =>
        let n := (length coeff - 1)%nat in
        let matrix := companion coeff in
        inFloats d (divided (nth n coeff 0%R) (if useEigvals then Zeros (map Some (eigvals n matrix))
        else Zeros (map (fun p => option_map Cconj (cdiv (snd p (n - 2)%nat) (snd p (n - 1)%nat))) (eigLeft n matrix))))
    end.
  (** divPower, lines 84-122 *)
  Definition divPower (d : dtype) (coeff : list R) (useEigvals : bool) : zeros :=
    match coeff with
    | [] | [_] => Zeros []
    | [c0; c1] => Zeros [cdiv (RtoC (- c0)) (RtoC c1)]
    | _ =>
        let n := (length coeff - 1)%nat in
        let matrix := divCompanion coeff in
        inFloats d (divided (nth 0 coeff 0%R) (if useEigvals then Zeros (map (fun z => cdiv (RtoC 1) z) (eigvals n matrix))
        else Zeros (map (fun p => option_map Cconj (cdiv (snd p 1%nat) (snd p 0%nat))) (eigLeft n matrix))))
    end.
  (** multCheb, lines 124-164 (no conjugate in line 164) *)
  Definition multCheb (d : dtype) (coeff : list R) (useEigvals : bool) : zeros :=
    match coeff with
    | [] | [_] => Zeros []
    | [c0; c1] => Zeros [cdiv (RtoC (- c0)) (RtoC c1)]
    | _ =>
        let n := (length coeff - 1)%nat in
        let matrix := colleague coeff in
        inFloats d (divided (nth n coeff 0%R) (if useEigvals then Zeros (map Some (eigvals n matrix))
        else Zeros (map (fun p => cdiv (snd p 1%nat) (snd p 0%nat)) (eigLeft n matrix))))
    end.
  (** divCheb, lines 179-236 *)
  Definition divCheb (d : dtype) (coeff : list R) (useEigvals : bool) : zeros :=
    match getXinv coeff with
    | None => IndexError
    | Some (xinv, divisor) =>
        match coeff with
        | [] | [_] => Zeros []
        | [c0; c1] => Zeros [cdiv (RtoC (- c0)) (RtoC c1)]
        | _ =>
            let n := (length coeff - 1)%nat in
            let matrix := divColleague coeff xinv divisor in
            inFloats d (if useEigvals then
              let zerosD := map (fun z => cdiv (RtoC 1) z) (eigvals n matrix) in
              if ngtb (nabs divisor) 1%R then Zeros zerosD
              else Zeros (map (option_map (fun z => z * RtoC divisor)) zerosD)
            else Zeros (map (fun p => option_map Cconj (cdiv (snd p 1%nat) (snd p 0%nat))) (eigLeft n matrix)))
        end
    end.

  (** np.trim_zeros: zeros at both ends dropped *)
  Fixpoint trimFront (l : list R) : list R := match l with x :: l' => if Req_EM_T x 0 then trimFront l' else l | [] => [] end.
  Definition trimZeros (l : list R) : list R := rev (trimFront (rev (trimFront l))).
  (** solve, lines 6-41.  MSmatrix 0 or -1 (anything else raises ValueError); the class of the polynomial *)
  Inductive kind := Power | Chebyshev.
  Inductive result := ValueError | Other (z : zeros).
  Definition solve1D (k : kind) (d : dtype) (polycoeff : list R) (MSmatrix : Z) (useEigvals : bool) : result :=
    if negb ((MSmatrix =? -1)%Z || (MSmatrix =? 0)%Z) then ValueError
    else match k with
         | Power =>
             let size := length polycoeff in
             let coeff := trimZeros polycoeff in
             let zs := repeat (Some (RtoC 0)) (size - length coeff)%nat in
             match (if (MSmatrix =? 0)%Z then multPower d coeff useEigvals else divPower d coeff useEigvals) with
             | Zeros l => Other (Zeros (zs ++ l))
             | e => Other e
             end
         | Chebyshev => Other (if (MSmatrix =? 0)%Z then multCheb d polycoeff useEigvals else divCheb d polycoeff useEigvals)
         end.
End Finders.
