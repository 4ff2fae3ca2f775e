(** * Model of yroots/subdivision.py lines 833-971: trim_coeffs and the monomials of one degree *)
From Coq Require Import List Arith Bool ZArith.
From Verif Require Import Num Tensor TermModel.
Import ListNotations.

(** ** mon_combos_limited, lines 931-971 (memoized by lines 910-929, which changes nothing: C51).
    The list mon is changed in place (line 961 and, on a copy, line 969), so the answers come with the list
    as the caller sees it afterwards.  None: IndexError (an empty list, or a shape that is too short), or the
    fuel that bounds the recursion depth is used up. *)
Fixpoint mon_combos_limited_f (fuel : nat) (mon : list nat) (remaining : nat) (shape : list nat) (cur : nat)
  : option (list (list nat) * list nat) :=
  match fuel with
  | O => None
  | S fuel' =>
      if length mon =? cur + 1 then
        match nth_error shape cur with
        | None => None
        | Some s =>
            if remaining <? s then match setAt mon cur remaining with Some mon' => Some ([mon'], mon') | None => None end
            else Some ([], mon)
        end
      else if remaining =? 0 then Some ([mon], mon)
      else
        match nth_error shape cur with
        | None => None
        | Some s =>
            match descend (fun t r => mon_combos_limited_f fuel' t r shape (cur + 1)) remaining cur (seq 0 (Nat.min s (remaining + 1))) mon [] with
            | Some answers => Some (answers, mon)
            | None => None
            end
        end
  end.
(** mon_combos_limited_wrap, lines 910-929 *)
Definition mon_combos_limited (dim deg : nat) (shape : list nat) : option (list (list nat)) :=
  option_map fst (mon_combos_limited_f (dim + 2) (repeat 0 dim) deg shape 0).

Section Trim.
  Context {T : Type} {NT : Num T}.
  Local Open Scope num_scope.

  (** [coeff[slices]] with slices = tuple(np.array(mons).T[:dim]): the entries at the monomials.  The array of an
      empty list has no rows, so slices is then the empty tuple and selects the whole array. *)
  Definition sumAt (coeff : tensor T) (mons : list (list nat)) : T :=
    match mons with [] => tsumabs coeff | _ => nsumabs (map (tget coeff) mons) end.
  Definition idxEqb (u v : list nat) : bool := if list_eq_dec Nat.eq_dec u v then true else false.
  (** [coeff[slices] = 0] *)
  Definition zeroAt (coeff : tensor T) (mons : list (list nat)) : tensor T :=
    match mons with
    | [] => tbuild (shp coeff) (fun _ => n0)
    | _ => tbuild (shp coeff) (fun idx => if existsb (idxEqb idx) mons then n0 else tget coeff idx)
    end.
  (** [coeff[(slice(0,k),)*dim]] *)
  Definition sliceTop (k : nat) (coeff : tensor T) : tensor T := tbuild (map (Nat.min k) (shp coeff)) (tget coeff).

  (** the monomials of lines 867-870: for deg0 in range(coeff.shape[0], deg+1) with deg = np.sum(coeff.shape) - dim - 1 *)
  Fixpoint monsFrom (dim : nat) (shape : list nat) (degs : list nat) : option (list (list nat)) :=
    match degs with
    | [] => Some []
    | d :: degs' =>
        match mon_combos_limited dim d shape, monsFrom dim shape degs' with Some l, Some r => Some (l ++ r) | _, _ => None end
    end.
  Definition highMons (coeff : tensor T) : option (list (list nat)) :=
    let side := nth 0 (shp coeff) 0%nat in
    monsFrom (ndim coeff) (shp coeff) (seq side (fold_right Nat.add 0 (shp coeff) - ndim coeff - side)).

  (** the while loop of lines 884-904, which runs while deg > 1 *)
  Fixpoint cutLoop (deg : nat) (coeff : tensor T) (error allowed : T) : option (tensor T * T) :=
    match deg with
    | O => Some (coeff, error)
    | S deg' =>
        if (deg <=? 1)%nat then Some (coeff, error)
        else
          match mon_combos_limited (ndim coeff) deg (shp coeff) with
          | None => None
          | Some mons =>
              let slice_error := sumAt coeff mons in
              if ngtb (slice_error + error) allowed
              then Some (if (deg <? nth 0 (shp coeff) 0%nat - 1)%nat then sliceTop (deg + 1) coeff else coeff, error)
              else
                let coeff := zeroAt coeff mons in
                if (deg' =? 1)%nat then Some (sliceTop 2 coeff, error + slice_error)
                else cutLoop deg' coeff (error + slice_error) allowed
          end
    end.
  (** lines 862-906 for one array: the array, whether it is good, and its error *)
  Definition trimOne (coeff : tensor T) (error allowed : T) : option (tensor T * bool * T) :=
    match shp coeff with
    | [] => None                               (* coeff.shape[0]: IndexError *)
    | side :: _ =>
        match highMons coeff with
        | None => None
        | Some mons =>
            let error := error + sumAt coeff mons in
            if ngtb error allowed then Some (coeff, false, error)
            else
              match cutLoop (side - 1) (zeroAt coeff mons) error allowed with
              | None => None
              | Some (coeff, error) => Some (coeff, true, error)
              end
        end
    end.
  (** trim_coeffs, lines 833-908.  The three lists have the same length; the two lists that are changed in place
      are returned. *)
  Fixpoint trim_coeffs (coeffs : list (tensor T)) (abs_tol rel_tol : T) (inf_norms errors : list T)
    : option (list (tensor T) * bool * list T) :=
    match coeffs, inf_norms, errors with
    | c :: cs, nrm :: ns, e :: es =>
        match trimOne c e (abs_tol + rel_tol * nrm), trim_coeffs cs abs_tol rel_tol ns es with
        | Some (c', good, e'), Some (cs', goods, es') => Some (c' :: cs', good && goods, e' :: es')
        | _, _ => None
        end
    | _, _, _ => Some ([], true, [])
    end.
End Trim.
