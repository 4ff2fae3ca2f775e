(** * Model of the one-variable solver of yroots/subdivision.py (lines 116-210 and 973-1086)

    Exact real arithmetic; complex numbers are Coquelicot's.  Progress output, plotting and warnings are left out. *)
From Coq Require Import List Arith Bool Reals.
From Coquelicot Require Import Complex.
From Coq Require Import List.
From Verif Require Import Num Tensor CombinedModel ApproxDct SubApproxModel TrackerModel.
From Verif Require OneDModel SubcheckModel.
Import ListNotations.
Local Open Scope R_scope.

(** line 27 *)
Definition macheps : R := 2220446049250313 / 10 ^ 31.
(** one set of tolerances, the attributes the one-variable solver reads *)
Record tolset := mkTols { abs_approx_tol : R; rel_approx_tol : R; good_zeros_factor : R; min_good_zeros_tol : R }.
(** the names under which intervals are stored *)
Inductive reason := TooDeep | Macaulay.
(** interval_results, the flag polishing of IntervalData, and the root tracker; points of the tracker have one coordinate *)
Record search := mkSearch { results : list (reason * (R * R)); polishing : bool; tracked : tracker R reason }.

(** IntervalData.track_interval (IntervalChecks.py 257-269), without the area *)
Definition track (r : reason) (a b : R) (s : search) : search :=
  mkSearch (if polishing s then results s else results s ++ [(r, (a, b))]) (polishing s) (tracked s).

(** good_zeros_1d, lines 973-993; [None] is inf or nan, whose comparison is False *)
Definition good_zeros_1d (zeros : list (option C)) (imag_tol real_tol : R) : list R :=
  flat_map (fun o => match o with
    | None => []
    | Some z => if Rle_dec (Cmod z) (1 + real_tol) then if Rlt_dec (Rabs (Im z)) imag_tol then [Re z] else [] else []
    end) zeros.

(** lines 1043-1046: coeff2[slice_top(coeff.shape)] -= coeff, then the sum of the absolute values *)
Definition error1 (coeff coeff2 : list R) : R :=
  fold_right (fun i acc => Rabs (if (i <? length coeff)%nat then nth i coeff2 0 - nth i coeff 0 else nth i coeff2 0) + acc) 0 (seq 0 (length coeff2)).

(** lines 1059-1068; the coefficients are reversed, the last one comes first *)
Fixpoint trim1 (rc : list R) (error allowed : R) : list R * R :=
  match rc with
  | [] => ([], error)
  | c :: rest =>
      let new_error := error + Rabs c in
      if Rlt_dec new_error allowed then
        match rest with [] => (rc, error) | _ => trim1 rest new_error allowed end
      else (rc, error)
  end.

(** line 1036 *)
Definition RAND : R := 5139303900908738 / 10 ^ 16.

Section Solver.
  Variable eigvals : nat -> (nat -> nat -> R) -> list C.
  Variable f : R -> R.
  Variable tols : tolset.

  (** subdivision_solve_1d, lines 995-1086.  [levels] is max_level + 1 - level, the test of line 1029 being level > max_level.
      [None]: numpy's LinAlgError for a matrix with inf or nan, raised by multCheb.
      Simplified: multCheb raises neither ConditioningError nor TooManyRoots, so the except branch (1083-1086) is left out;
      IntervalData has no interval checks (IntervalChecks.py line 88), so check_interval (1074-1076) is False.
      The recursive calls do not hand trust_small_evals on (lines 1053-1054). *)
  Fixpoint subdivision_solve_1d (levels : nat) (a b : R) (deg : nat) (trust_small_evals : bool) (s : search) : option search :=
    match levels with
    | O => Some (track TooDeep a b s)
    | S levels' =>
        let '(coeff, _, _) := interval_approximate_1d cosR f a b deg in
        let '(coeff2, sign_change, inf_norm) := interval_approximate_1d cosR f a b (deg * 2) in
        let error := error1 coeff coeff2 in
        let allowed_error := abs_approx_tol tols + rel_approx_tol tols * inf_norm in
        if Rlt_dec allowed_error error then
          let div_spot := a + (b - a) * RAND in
          match subdivision_solve_1d levels' a div_spot deg false s with
          | Some s' => subdivision_solve_1d levels' div_spot b deg false s'
          | None => None
          end
        else
          let '(rc, error) := trim1 (rev coeff) error allowed_error in
          let coeff := rev rc in
          let error := if trust_small_evals then error else Rmax error macheps in
          let good_zeros_tol := Rmax (min_good_zeros_tol tols) (error * good_zeros_factor tols) in
          match OneDModel.multCheb eigvals (fun _ _ => []) OneDModel.Floats coeff true with
          | OneDModel.Zeros l =>
              let zeros := map (fun x => transformPt x a b) (good_zeros_1d l good_zeros_tol good_zeros_tol) in
              let s' := track Macaulay a b s in
              Some (mkSearch (results s') (polishing s') (add_roots (tracked s') (map (fun x => [x]) zeros) [a] [b] Macaulay))
          | _ => None
          end
    end.
End Solver.

Section Driver.
  Variable eigvals : nat -> (nat -> nat -> R) -> list C.
  Variable f : R -> R.
  Definition keep (s : search) : search := mkSearch (results s) (polishing s) (keep_possible_duplicates (tracked s)).
  (** line 169; the literal 52 *)
  Definition max_level : nat := 52.
  (** lines 183-186: one interval of a polishing round after the other *)
  Fixpoint polishRound (tols : tolset) (deg : nat) (l : list (point * point)) (s : search) : option search :=
    match l with
    | [] => Some s
    | (a, b) :: l' =>
        match subdivision_solve_1d eigvals f tols (S max_level) (hd 0 a) (hd 0 b) deg false s with
        | Some s' => polishRound tols deg l' (keep s')
        | None => None
        end
    end.
  (** lines 180-186: the remaining tolerances *)
  Fixpoint polishAll (tolss : list tolset) (deg : nat) (s : search) : option search :=
    match tolss with
    | [] => Some s
    | t :: r =>
        let '(l, tr) := get_polish_intervals (tracked s) in
        match polishRound t deg l (mkSearch (results s) true tr) with
        | Some s' => polishAll r deg s'
        | None => None
        end
    end.
  (** lines 138-141: abs_approx_tol is at least 1.01 macheps *)
  Definition floorTol (t : tolset) : tolset :=
    mkTols (Rmax (abs_approx_tol t) (101 / 100 * macheps)) (rel_approx_tol t) (good_zeros_factor t) (min_good_zeros_tol t).
  (** subdivide_to_linear for one function of one variable: the roots returned, and everything stored.
      [first] and [rest] are the tolerances in the order of Tolerances.nextTols (property C91). *)
  Definition subdivide_to_linear_1d (a b : R) (deg : option nat) (first : tolset) (rest : list tolset) (trust_small_evals : bool) : option (list R * search) :=
    let deg := match deg with Some d => d | None => 100%nat end in
    match subdivision_solve_1d eigvals f (floorTol first) (S max_level) a b deg trust_small_evals (mkSearch [] false init) with
    | None => None
    | Some s =>
        match polishAll (map floorTol rest) deg (keep s) with
        | None => None
        | Some s' => Some (map (fun p => hd 0 p) (roots (tracked s')), s')
        end
    end.
End Driver.
