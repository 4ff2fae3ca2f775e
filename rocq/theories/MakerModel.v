(** * Model of yroots/M_maker.py (all of it): Chebyshev approximation with stored values *)
From Coq Require Import List Arith Bool.
From Verif Require Import Num Tensor LinearModel CombinedModel ApproxModel.
From Verif Require PolyModel.
Import ListNotations.

(** Outcome: a value, ValueError("dimension mismatch"), a number of variables without a maximal degree (KeyError;
    numpy's ValueError for none at all), np.max of an empty array (ValueError), np.column_stack of columns of
    different lengths (ValueError), or the model's bound on the loop reached. *)
Inductive mres (A : Type) := MOk (a : A) | MMismatch | MBadDim | MEmptyMax | MStack | MFuel.
Arguments MOk {A}. Arguments MMismatch {A}. Arguments MBadDim {A}. Arguments MEmptyMax {A}. Arguments MStack {A}. Arguments MFuel {A}.
Definition mbind {A B} (x : mres A) (f : A -> mres B) : mres B :=
  match x with MOk a => f a | MMismatch => MMismatch | MBadDim => MBadDim | MEmptyMax => MEmptyMax | MStack => MStack | MFuel => MFuel end.

(** ** Python dictionaries with tuples of degrees as keys, in insertion order *)
Definition key := list nat.
Definition keyEqb (x y : key) : bool := if list_eq_dec Nat.eq_dec x y then true else false.
Fixpoint dget {V} (k : key) (d : list (key * V)) : option V :=
  match d with [] => None | (k', v) :: d' => if keyEqb k k' then Some v else dget k d' end.
Fixpoint dput {V} (k : key) (v : V) (d : list (key * V)) : list (key * V) :=
  match d with [] => [(k, v)] | (k', v') :: d' => if keyEqb k k' then (k', v) :: d' else (k', v') :: dput k v d' end.

(** ** boolean masks on flat arrays (numpy): [x[mask]], and [x[~mask] = known; x[mask] = unknown] *)
Fixpoint maskSelect {A} (mask : list bool) (l : list A) : list A :=
  match mask, l with m :: mask', x :: l' => if m then x :: maskSelect mask' l' else maskSelect mask' l' | _, _ => [] end.
Fixpoint fillMask {A} (dflt : A) (mask : list bool) (known unknown : list A) : list A :=
  match mask with
  | [] => []
  | true :: mask' => hd dflt unknown :: fillMask dflt mask' known (tl unknown)
  | false :: mask' => hd dflt known :: fillMask dflt mask' (tl known) unknown
  end.

(** ** slices, lines 385-418 *)
(** itertools.product([False, True], repeat=dim), line 409 *)
Fixpoint blocks (dim : nat) : list (list bool) :=
  match dim with O => [[]] | S d => map (cons false) (blocks d) ++ map (cons true) (blocks d) end.
(** lines 410-414: the positions slice(0, deg+1) or slice(deg+1, 2*deg) selects on an axis of length 2*deg *)
Definition chebIdx (deg : nat) (flip : bool) : list nat :=
  if flip then seq (deg + 1) (2 * deg - (deg + 1)) else seq 0 (Nat.min (deg + 1) (2 * deg)).
(** lines 411-415: those slice(0, 2*deg) or slice(deg-1, 0, -1) selects on an axis of length deg+1 *)
Definition blockIdx (deg : nat) (flip : bool) : list nat :=
  if flip then rev (seq 1 (deg - 1)) else seq 0 (Nat.min (2 * deg) (deg + 1)).
Fixpoint findPos (x : nat) (l : list nat) : option nat :=
  match l with [] => None | y :: l' => if Nat.eqb x y then Some 0 else option_map S (findPos x l') end.
(** the entry of the value block that one block assignment writes at [idx], if it writes there *)
Fixpoint locate (degs : list nat) (block : list bool) (idx : list nat) : option (list nat) :=
  match degs, block, idx with
  | d :: degs', f :: block', i :: idx' =>
      match findPos i (chebIdx d f), locate degs' block' idx' with
      | Some p, Some r => Some (nth p (blockIdx d f) 0 :: r)
      | _, _ => None
      end
  | _, _, _ => Some []
  end.

Section Maker.
  Context {T : Type} {NT : Num T}.
  Local Open Scope num_scope.
  (** [cosn m d] is np.cos(m*np.pi/d) *)
  Variable cosn : nat -> nat -> T.
  (** what np.empty holds *)
  Variable junk : list nat -> T.

  Record store := mkStore { memo : list (key * tensor T); fftd : list (key * (tensor T * T)) }.

  (** chebyshev_block_copy, lines 351-383. The source and target slices have the same lengths, so the
      [except ValueError] branch is left out. *)
  Definition copyStep (degs : list nat) (vb acc : tensor T) (block : list bool) : tensor T :=
    tbuild (map (fun d => 2 * d)%nat degs) (fun idx => match locate degs block idx with Some src => tget vb src | None => tget acc idx end).
  Definition blockCopy (vb : tensor T) : tensor T :=
    let degs := map pred (shp vb) in
    fold_left (copyStep degs vb) (blocks (length degs)) (tbuild (map (fun d => 2 * d)%nat degs) junk).

  (** scipy's fftn(x).real (scipy, not in /repo) for shape 2*degs:
      y[k] = sum_e x[e] cos(2 pi sum_d e_d k_d/(2 deg_d)), the fraction over the common denominator *)
  Fixpoint phase (degs e k : list nat) : nat :=
    match degs, e, k with
    | n :: degs', i :: e', j :: k' => (i * j * prodn degs' + n * phase degs' e' k')%nat
    | _, _, _ => 0%nat
    end.
  Definition fftnRe (degs : list nat) (t : tensor T) : tensor T :=
    tbuild (shp t) (fun k => nsum (map (fun e => tget t e * cosn (phase degs e k) (prodn degs)) (indices (shp t)))).

  (** lines 283-330: the values at the grid; [None] is np.column_stack's ValueError *)
  Definition valuesBlock (f : fobj T) (degs : list nat) (a b : list T) (m : list (key * tensor T)) : option (tensor T) :=
    match f with
    | MPower _ | MCheb _ =>
        (* lines 283-296: evaluate_grid gets one array with a column per variable *)
        if forallb (Nat.eqb (hd 0%nat degs)) degs then Some (gridValues cosn f degs a b) else None
    | _ =>
        match dget degs m with
        | Some v => Some v
        | None =>
            (* line 275: deg/2 is a float, equal as a key to an integer only for even deg *)
            match (if forallb Nat.even degs then dget (map Nat.div2 degs) m else None) with
            | Some half =>
                let cheb_pts := map (gridPoint cosn degs a b) (indices (map S degs)) in
                let mask := map (fun idx => negb (forallb Nat.even idx)) (indices (map S degs)) in
                Some (mkT (map S degs) (fillMask n0 mask (dat half) (map (callAt f) (maskSelect mask cheb_pts))))
            | None => Some (gridValues cosn f degs a b)
            end
        end
    end.

  (** lines 336-341 and interval_approx_slicers, lines 420-448 *)
  Definition coeffsOf (degs : list nat) (values : tensor T) : tensor T :=
    let scaled := tbuild (shp values) (fun idx => tget values idx / nofnat (prodn degs)) in
    tbuild (map S degs) (tget (halveEdges degs (fftnRe degs scaled))).
  (** interval_approximate_nd, lines 247-349 *)
  Definition approximate (f : fobj T) (a b : list T) (degs : list nat) (st : store) : mres (tensor T * T * store) :=
    match dget degs (fftd st) with
    | Some (c, nrm) => MOk (c, nrm, st)
    | None =>
        match valuesBlock f degs a b (memo st) with
        | None => MStack
        | Some vb =>
            let values := blockCopy vb in
            if existsb (Nat.eqb 0) degs then MEmptyMax
            else
              let nrm := maxAbs (dat values) in
              let c := coeffsOf degs values in
              MOk (c, nrm, mkStore (dput degs vb (memo st)) (dput degs (c, nrm) (fftd st)))
        end
    end.

  (** get_err, lines 122-143, with slice_top (utils.py 538-553) *)
  Definition get_err (M M2 : tensor T) : T :=
    tsumabs (tbuild (shp M2) (fun idx => if PolyModel.inrangeb (shp M) idx then tget M2 idx - tget M idx else tget M2 idx)).
  (** lines 168-171 and 225-228 *)
  Definition threshold (rel : T) (M M2 : tensor T) (nrm : T) : T :=
    nmax rel (nofnat 10 * nofnat (prodn (shp M2) - prodn (shp M)) * macheps * nrm).
  (** error_test, lines 145-171 *)
  Definition error_test (rel : T) (M M2 : tensor T) (nrm err : T) : bool := nltb err (threshold rel M M2 nrm).

  (** the attributes find_good_approx sets *)
  Record approx := mkA { aM : tensor T; aNorm : T; aM2 : tensor T; aErr : T; aDegs : list nat }.
  Definition double (degs : list nat) : list nat := map (fun d => 2 * d)%nat degs.
  (** lines 193-195 and 235-237 *)
  Definition attempt (f : fobj T) (a b : list T) (degs : list nat) (st : store) : mres (approx * store) :=
    mbind (approximate f a b degs st) (fun '(M, nrm, st) =>
    mbind (approximate f a b (double degs) st) (fun '(M2, _, st) =>
    MOk (mkA M nrm M2 (get_err M M2) degs, st))).
  (** lines 213-229: the loop over the dimensions; the set is a list of dimensions *)
  Fixpoint dimsToExpand (f : fobj T) (a b : list T) (rel : T) (maxdeg : nat) (A : approx) (st : store) (is : list nat)
    : mres (list nat * store) :=
    match is with
    | [] => MOk ([], st)
    | i :: is' =>
        if (maxdeg <=? nth i (aDegs A) 0%nat)%nat then dimsToExpand f a b rel maxdeg A st is'
        else
          let test_degs := upd (double (aDegs A)) i (nth i (aDegs A) 0%nat) in
          mbind (approximate f a b test_degs st) (fun '(test_M, _, st) =>
          mbind (dimsToExpand f a b rel maxdeg A st is') (fun '(l, st) =>
          MOk (if ngtb (get_err test_M (aM2 A)) (threshold rel test_M (aM2 A) (aNorm A)) then i :: l else l, st)))
    end.
  (** lines 232-233 *)
  Definition expand (maxdeg : nat) (degs : list nat) (dims : list nat) : list nat :=
    fold_left (fun ds i => upd ds i (if (2 * nth i ds 0 <? maxdeg)%nat then 2 * nth i ds 0 else maxdeg)%nat) dims degs.
  (** lines 206-239; the warning of lines 240-242 is left out *)
  Fixpoint goodLoop (fuel : nat) (f : fobj T) (a b : list T) (rel : T) (maxdeg : nat) (A : approx) (st : store) : mres (approx * store) :=
    match fuel with
    | O => MFuel
    | S fuel' =>
        if existsb (fun d => d <? maxdeg)%nat (aDegs A) then
          if error_test rel (aM A) (aM2 A) (aNorm A) (aErr A) then MOk (A, st)
          else
            mbind (dimsToExpand f a b rel maxdeg A st (seq 0 (length a))) (fun '(dims, st) =>
            match dims with
            | [] => MOk (A, st)
            | _ => mbind (attempt f a b (expand maxdeg (aDegs A) dims) st) (fun '(A, st) => goodLoop fuel' f a b rel maxdeg A st)
            end)
        else MOk (A, st)
    end.
  (** find_good_approx, lines 173-245 *)
  Definition find_good_approx (fuel : nat) (f : fobj T) (a b : list T) (rel : T) (maxdeg : nat) (degs : list nat) : mres (approx * store) :=
    mbind (attempt f a b degs (mkStore [] [])) (fun '(A, st) =>
    let degs := map (fun d => if (maxdeg <? d)%nat then maxdeg else d) (aDegs A) in
    goodLoop fuel f a b rel maxdeg (mkA (aM A) (aNorm A) (aM2 A) (aErr A) degs) st).

  (** lines 79-87: 2**round(log2(250000**(1/k))) for k = 1..10, the fourth replaced by 32 *)
  Definition maxDegOf (dim : nat) : option nat :=
    match dim with
    | 1 => Some (2 ^ 18) | 2 => Some (2 ^ 9) | 3 => Some (2 ^ 6) | 4 => Some (2 ^ 5) | 5 => Some (2 ^ 4)
    | 6 => Some (2 ^ 3) | 7 => Some (2 ^ 3) | 8 => Some (2 ^ 2) | 9 => Some (2 ^ 2) | 10 => Some (2 ^ 2)
    | _ => None
    end%nat.
  (** the finished object; [mRescaled] is [None] where line 119 divides by zero *)
  Record maker := mkM { mM : tensor T; mNorm : T; mM2 : tensor T; mErr : T; mDegs : list nat; mRescaled : option (tensor T); mValues : option (tensor T) }.
  (** __init__, lines 8-120; [maxEdit] is max_deg_edit. The warnings of lines 97-100 are left out, and
      abs_approx_tol, which is never used. *)
  Definition m_maker (fuel : nat) (f : fobj T) (a b : list T) (guess : nat) (maxEdit : option nat) (rel : T) : mres maker :=
    if negb (Nat.eqb (length a) (length b)) then MMismatch
    else
      match maxDegOf (length a) with
      | None => MBadDim
      | Some m =>
          let maxdeg := match maxEdit with Some e => e | None => m end in
          mbind (find_good_approx fuel f a b rel maxdeg (repeat guess (length a))) (fun '(A, st) =>
          let resc := if neqb (aNorm A) n0 then None else Some (tbuild (shp (aM A)) (fun idx => tget (aM A) idx / aNorm A)) in
          let vals := map snd (memo st) in
          MOk (mkM (aM A) (aNorm A) (aM2 A) (aErr A) (aDegs A) resc (nth_error vals (length vals - 2))))
      end.
End Maker.
