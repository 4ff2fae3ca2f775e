(** * Model of yroots/ProjectiveSpace.py: roots at infinity of polynomials in two variables

    Coefficients are real.  Arrays that are not two-dimensional raise ValueError in line 95.  *)
From Coq Require Import List Arith Bool ZArith Reals.
From Coquelicot Require Import Complex.
From Verif Require Import Num Tensor OneDModel.
Import ListNotations.
Local Open Scope R_scope.
Local Open Scope C_scope.

(** np.isclose(z, 0): |z| <= 1e-8 *)
Definition tiny : R := (1 / 100000000)%R.
Definition isclose0 (z : C) : bool := if Rle_dec (Cmod z) tiny then true else false.
Definition nonzero (r : R) : bool := if Req_EM_T r 0 then false else true.

(** pad_with_zeros, lines 83-98, of an array of shape (m, n) *)
Definition size2 (t : tensor R) : nat := Nat.max (nth 0 (shp t) 0%nat) (nth 1 (shp t) 0%nat).
Definition pad_with_zeros (t : tensor R) : tensor R :=
  let m := nth 0 (shp t) 0%nat in let n := nth 1 (shp t) 0%nat in let l := size2 t in
  tbuild [l; l] (fun idx => if (nth 0 idx 0 <? m)%nat && (nth 1 idx 0 <? n)%nat then tget t idx else 0%R).
(** np.diag(np.fliplr(pad_with_zeros(coeff))), lines 35, 37 and 59: entry i is [i, l-1-i] *)
Definition antidiagonal (t : tensor R) : list R :=
  let l := size2 t in map (fun i => tget (pad_with_zeros t) [i; (l - 1 - i)%nat]) (seq 0 l).
(** clean_coeff (polynomial.py, lines 158-178) of a one-dimensional array: zeros at the end are
    dropped, the last remaining entry is kept *)
Fixpoint strip (l : list R) : list R :=
  match l with x :: ((_ :: _) as r) => if nonzero x then l else strip r | _ => l end.
Definition clean1 (l : list R) : list R := rev (strip (rev l)).

(** MultiPower.__call__ (polynomial.py, lines 503-527): Horner's rule over the rows, then over the columns *)
Definition polyval (x : C) (c : list C) : C := fold_right (fun a acc => a + acc * x) 0 c.
Definition value2 (t : tensor R) (p : C * C) : C :=
  let m := nth 0 (shp t) 0%nat in let n := nth 1 (shp t) 0%nat in
  polyval (snd p) (map (fun j => polyval (fst p) (map (fun i => RtoC (tget t [i; j])) (seq 0 m))) (seq 0 n)).
(** lines 35 and 37: MultiPower(np.diag(v[::-1])); removing outer zeros does not change the values and
    is left out *)
Definition second_poly (t : tensor R) : tensor R :=
  let v := rev (antidiagonal t) in let l := length v in
  tbuild [l; l] (fun idx => if (nth 0 idx 0 =? nth 1 idx 0)%nat then nth (nth 0 idx 0%nat) v 0%R else 0%R).

(** a returned point: its x coordinate is None where it is inf or nan *)
Definition point := (option C * C)%type.
Inductive atInf := InfError | Points (l : list point).
(** the answer of common_root_at_inf: a bool, or the pair (True, root) *)
Inductive answer := Raises | Just (b : bool) | TrueWith (p : point).

Section Proj.
  Variable eigvals : nat -> (nat -> nat -> R) -> list C.
  Variable eigLeft : nat -> (nat -> nat -> R) -> list (C * (nat -> C)).

  (** roots_at_inf, lines 46-81 *)
  Definition roots_at_inf (t : tensor R) : atInf :=
    match shp t with
    | [_; _] =>
        let f_d_coefs := antidiagonal t in
        let finish (x_coords : list (option C)) :=
          Points (map (fun x => (x, RtoC 1)) x_coords
                  ++ (if isclose0 (RtoC (last f_d_coefs 0%R)) then [(Some (RtoC 1), RtoC 0)] else [])) in
        if (length (filter nonzero f_d_coefs) =? 1)%nat then
          if nonzero (nth 0 f_d_coefs 0%R) then Points [(Some (RtoC 1), RtoC 0)]
          else finish [Some (RtoC 0)]
        else match solve1D eigvals eigLeft Power Floats (clean1 f_d_coefs) 0 true with
             | Other (Zeros l) => finish l
             | _ => InfError
             end
    | _ => InfError
    end.

  (** common_root_at_inf, lines 9-44; a nan is not close to 0 *)
  Definition isRoot (t : tensor R) (p : point) : bool :=
    match fst p with Some x => isclose0 (value2 (second_poly t) (x, snd p)) | None => false end.
  Definition searchRoots (inf_roots : list point) (other : tensor R) (return_root : bool) : answer :=
    match shp other with
    | [_; _] =>
        match find (isRoot other) inf_roots with
        | Some p => if return_root then TrueWith p else Just true
        | None => Just false
        end
    | _ => Raises
    end.
  Definition common_root_at_inf (f g : tensor R) (return_root : bool) : answer :=
    match roots_at_inf f with
    | Points inf_roots => searchRoots inf_roots g return_root
    | InfError =>
        match roots_at_inf g with
        | Points inf_roots => searchRoots inf_roots f return_root
        | InfError => Raises
        end
    end.
End Proj.
