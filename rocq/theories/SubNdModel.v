(** * Model of the solver in several variables of yroots/subdivision.py (lines 116-210, 522-660 and 662-831)

    Exact real arithmetic; complex numbers are Coquelicot's.  Progress output, plotting and warnings are left out.
    subdivision.py at this commit cannot be imported (polynomial.py has no is_power); it is modelled as text. *)
From Coq Require Import List Arith Bool Reals.
From Coquelicot Require Import Complex.
From Coq Require Import List.
From Verif Require Import Num Tensor CombinedModel ApproxDct SubApproxModel TrackerModel TrimcModel.
From Verif Require SubcheckModel LinAlgModel MacaulayModel MsModel SubOneModel.
Import ListNotations.
Local Open Scope R_scope.

Notation macheps := SubOneModel.macheps.
(** the names under which intervals are stored, and roots *)
Inductive reason := TooDeep | BaseCase | Macaulay.
(** the current set of tolerances: abs_approx_tols[currTol] and target_tols[currTol], and the attributes that do not change during a search *)
Record tolset := mkTols { abs_approx_tol0 : R; target_tol0 : R; rel_approx_tol : R; good_zeros_factor : R; min_good_zeros_tol : R;
  check_eval_error : bool; check_eval_freq : nat }.
(** everything a search changes: the work arrays of the module, IntervalData (property C75), its lists "Too Deep", "Base Case" and
    "Macaulay", the root tracker, and the attributes abs_approx_tol and target_tol of the tolerances *)
Record search := mkSearch { work : @wstate R; idata : SubcheckModel.idata (T := R); results : list (reason * (list R * list R)); tracked : tracker R reason;
  abs_approx_tol : R; target_tol : R }.
Inductive ending (A : Type) := Finished (a : A) | Raised | NoFuel.
Arguments Finished {A} a. Arguments Raised {A}. Arguments NoFuel {A}.

(** IntervalData.track_interval (IntervalChecks.py 257-269) for the three lists above *)
Definition trackInterval (r : reason) (a b : list R) (s : search) : search :=
  let d := idata s in
  mkSearch (work s)
    (SubcheckModel.mkData (SubcheckModel.mask d) (SubcheckModel.area d + SubcheckModel.boxArea (a, b)) (SubcheckModel.polishing d) (SubcheckModel.quadLog d) (SubcheckModel.boundLog d))
    (if SubcheckModel.polishing d then results s else results s ++ [(r, (a, b))]) (tracked s) (abs_approx_tol s) (target_tol s).
Definition addRoots (zs : list (list R)) (a b : list R) (r : reason) (s : search) : search :=
  mkSearch (work s) (idata s) (results s) (add_roots (tracked s) zs a b r) (abs_approx_tol s) (target_tol s).

(** good_zeros_nd, lines 549-574.  A single root given as a flat array is a list of one point here. *)
Definition good_zeros_nd (zeros : list (list C)) (imag_tol real_tol : R) : list (list R) :=
  map (map Re) (filter (fun z => forallb (fun v => if Rle_dec (Rabs (Im v)) imag_tol then true else false) z &&
                                forallb (fun v => if Rle_dec (Rabs (Re v)) (1 + real_tol) then true else false) z) zeros).
(** zeros_in_interval, lines 522-546; the literal 1e-9 is the default of within_interval_tol *)
Definition zeros_in_interval (zeros : list (list R)) (a b : list R) (dim : nat) : list (list R) :=
  fold_left (fun zs i => filter (fun z => if Rle_dec (nth i z 0 - nth i b 0) (1 / 10 ^ 9) then true else false)
                          (filter (fun z => if Rge_dec (nth i z 0 - nth i a 0) (- (1 / 10 ^ 9)) then true else false) zs)) (seq 0 dim) zeros.
(** utils.transform, utils.py 1241-1258 *)
Definition transformAll (a b : list R) (zs : list (list R)) : list (list R) := map (SubcheckModel.mapBounds SubcheckModel.transform1 a b) zs.
(** lines 740-744: the interval is widened by 5e-10 of its width on both sides.  The code changes the arrays in place; the caller's
    new_a and new_b are not used again. *)
Definition bufferLow (a b : list R) : list R := map (fun p => fst p - (snd p - fst p) * (5 / 10 ^ 10)) (combine a b).
Definition bufferHigh (a b : list R) : list R := map (fun p => snd p + (snd p - fst p) * (5 / 10 ^ 10)) (combine a b).

(** what the solver gets from elsewhere: the contents of np.empty, the point of random_point (644-660, fixed by its seed and memoized), the linear
    algebra of the interval checks (SubcheckModel), and multiplication of Multiplication.py with return_all_roots=True (MsModel.multiplication).
    [takesLeadTerm]: whether MultiCheb accepts the argument lead_term of line 811.  At this commit it does not, and the line raises TypeError. *)
Record tools := { tJunk : nat -> list nat -> R; tPoint : nat -> list R;
  tLasolve : list (list R) -> list R -> option (list R); tRank : list (list R) -> bool; tSolve : list (list R) -> list R -> list R;
  tMult : list (@MacaulayModel.mpoly R) -> MsModel.multResult; takesLeadTerm : bool }.

Section Solver.
  Variable X : tools.
  Variable tols : tolset.
  (** target_deg, max_level, the interval reductions *)
  Variables target_deg max_level : nat.
  Variable methods : list SubcheckModel.reduction.
  Variable trust_small_evals : bool.

  (** get_abs_approx_tol, lines 576-641; 1e-14 is linearization_size *)
  Definition get_abs_approx_tol (f : fobj R) (deg : nat) (a b : list R) (dim : nat) (st : @wstate R) : option (R * @wstate R) :=
    let x := SubcheckModel.mapBounds SubcheckModel.transform1 a b (tPoint X dim) in
    let a2 := map (fun v => v - 1 / 10 ^ 14) x in
    let b2 := map (fun v => v + 1 / 10 ^ 14) x in
    match interval_approximate_nd cosR (tJunk X) f a2 b2 (2 * deg) st with
    | None => None
    | Some (coeff, _, st) =>
        let coeff := tbuild (shp coeff) (fun idx => if forallb (fun i => (i <? deg)%nat) idx then 0 else tget coeff idx) in
        Some (tsumabs coeff * 10 / (INR ((deg * 2) ^ dim) - INR (deg ^ dim)), st)
    end.
  (** lines 723-726 and 731-733 *)
  Fixpoint evalTol (funcs : list (fobj R)) (numSpots : R) (a b : list R) (dim : nat) (tol : R) (st : @wstate R) : option (R * @wstate R) :=
    match funcs with
    | [] => Some (tol, st)
    | f :: fs =>
        match get_abs_approx_tol f 3 a b dim st with
        | None => None
        | Some (t, st) => evalTol fs numSpots a b dim (Rmax tol (numSpots * t)) st
        end
    end.
  (** lines 716-733 *)
  Definition updateTols (funcs : list (fobj R)) (a b : list R) (deg level : nat) (use_target_tol : bool) (s : search) : option search :=
    if check_eval_error tols then
      let dim := length a in
      let numSpots := INR ((deg * 2) ^ dim) - INR (deg ^ dim) in
      let start := if use_target_tol then target_tol0 tols else abs_approx_tol0 tols in
      match (if (level mod check_eval_freq tols =? 0)%nat then evalTol funcs numSpots a b dim start (work s) else Some (start, work s)) with
      | None => None
      | Some (t, w) => Some (if use_target_tol then mkSearch w (idata s) (results s) (tracked s) (abs_approx_tol s) t
                             else mkSearch w (idata s) (results s) (tracked s) t (target_tol s))
      end
    else Some s.

  (** the loop of lines 755-783 up to the first function that cannot be approximated: its position, or None; the coefficients so far, the
      norms, the errors, the work arrays.  check_interval never throws anything out: interval_checks is empty (IntervalChecks.py line 88). *)
  Fixpoint approxLoop (funcs : list (fobj R)) (good_degs : list (option nat)) (a b : list R) (deg : nat) (tol : R) (num : nat) (st : @wstate R)
    : option (option nat * list (tensor R) * list R * list R * @wstate R) :=
    match funcs, good_degs with
    | f :: fs, g :: gs =>
        match full_cheb_approximate cosR (tJunk X) f a b deg tol (rel_approx_tol tols) g st with
        | None => None
        | Some ((None, inf_norm, error), st) => Some (Some num, [], [inf_norm], [error], st)
        | Some ((Some coeff, inf_norm, error), st) =>
            match approxLoop fs gs a b deg tol (S num) st with
            | None => None
            | Some (failed, cs, ns, es, st) => Some (failed, coeff :: cs, inf_norm :: ns, error :: es, st)
            end
        end
    | _, _ => Some (None, [], [], [], st)
    end.
  Definition floorErrors (errors : list R) : list R := if trust_small_evals then errors else map (fun e => Rmax e macheps) errors.
  (** lines 773-776: the function that failed goes to the end *)
  Definition reorder (funcs : list (fobj R)) (num : nat) : list (fobj R) :=
    match nth_error funcs num with Some f => firstn num funcs ++ skipn (S num) funcs ++ [f] | None => funcs end.
  Definition subintervals (a b : list R) (polys : list (tensor R)) (errors : list R) (checks : bool) (s : search) : option (list (list R * list R) * search) :=
    match SubcheckModel.get_subintervals (tLasolve X) (tRank X) (tSolve X) methods a b polys errors checks (idata s) with
    | SubcheckModel.Done (l, d) => Some (l, mkSearch (work s) d (results s) (tracked s) (abs_approx_tol s) (target_tol s))
    | _ => None
    end.
  Definition side (coeff : tensor R) : nat := nth 0 (shp coeff) 0%nat.

  (** a for loop over intervals, each step a search *)
  Fixpoint each (step : list R -> list R -> search -> ending search) (l : list (list R * list R)) (s : search) : ending search :=
    match l with
    | [] => Finished s
    | (a, b) :: l' => match step a b s with Finished s' => each step l' s' | Raised => Raised | NoFuel => NoFuel end
    end.

  (** subdivision_solve_nd, lines 662-831.  [Raised]: an exception.  [NoFuel]: the bound on the depth of the recursion is used up. *)
  Fixpoint subdivision_solve_nd (fuel : nat) (funcs : list (fobj R)) (a b : list R) (deg : nat) (good_degs : option (list (option nat))) (level : nat)
      (use_target_tol : bool) (s : search) : ending search :=
    match fuel with
    | O => NoFuel
    | S fuel' =>
        if (max_level <=? level)%nat then
          let s := trackInterval TooDeep a b s in
          Finished (mkSearch (work s) (idata s) (results s) (add_potential_roots (tracked s) [map (fun p => (fst p + snd p) / 2) (combine a b)] a b TooDeep) (abs_approx_tol s) (target_tol s))
        else
          let dim := length a in
          match updateTols funcs a b deg level use_target_tol s with
          | None => Raised
          | Some s =>
              let og_a := a in let og_b := b in
              let a := bufferLow og_a og_b in let b := bufferHigh og_a og_b in
              let good_degs := match good_degs with None => repeat None (length funcs) | Some g => g end in
              match approxLoop funcs good_degs a b deg (if use_target_tol then target_tol s else abs_approx_tol s) 0 (work s) with
              | None => Raised
              | Some (failed, cheb_approx_list, inf_norms, approx_errors, w) =>
                  let s := mkSearch w (idata s) (results s) (tracked s) (abs_approx_tol s) (target_tol s) in
                  match failed with
                  | Some num =>
                      match subintervals og_a og_b cheb_approx_list (floorErrors approx_errors) false s with
                      | None => Raised
                      | Some (l, s) => each (fun a b => subdivision_solve_nd fuel' (reorder funcs num) a b deg None (level + 1) false) l s
                      end
                  | None =>
                      match trim_coeffs cheb_approx_list (abs_approx_tol s) (rel_approx_tol tols) inf_norms approx_errors with
                      | None => Raised
                      | Some (coeffs, good_approx, approx_errors) =>
                          let approx_errors := floorErrors approx_errors in
                          let good_degs := if good_approx then map (fun c => Some (Nat.min (side c) deg)) coeffs else good_degs in
                          let good_zeros_tol := Rmax (min_good_zeros_tol tols) (nsum (map Rabs approx_errors) * good_zeros_factor tols) in
                          let subdivide := 
                            match subintervals og_a og_b coeffs approx_errors true s with
                            | None => Raised
                            | Some (l, s) => each (fun a b => subdivision_solve_nd fuel' funcs a b deg (Some good_degs) (level + 1) true) l s
                            end in
                          if existsb (fun c => (target_deg + 1 <? side c)%nat) coeffs || negb good_approx then subdivide
                          else if existsb (fun p => if Rgt_dec (fst p) (target_tol s + rel_approx_tol tols * snd p) then true else false) (combine approx_errors inf_norms) then subdivide
                          else if forallb (fun c => (side c =? 2)%nat) coeffs then
                            if negb (deg =? 2)%nat then subdivision_solve_nd fuel' funcs a b 2 (Some good_degs) level true s
                            else
                              match @LinAlgModel.solve_linear R R_num coeffs with
                              | LinAlgModel.Root _ | LinAlgModel.NoRoots =>
                                  let zero := match @LinAlgModel.solve_linear R R_num coeffs with LinAlgModel.Root x => [map RtoC x] | _ => [] end in
                                  let zero := zeros_in_interval (transformAll a b (good_zeros_nd zero good_zeros_tol good_zeros_tol)) og_a og_b dim in
                                  Finished (addRoots zero a b BaseCase (trackInterval BaseCase a b s))
                              | _ => Raised
                              end
                          else if takesLeadTerm X then
                            match tMult X (map (fun c => MacaulayModel.mkMP c (side c - 1)) coeffs) with
                            | MsModel.MGaveUp => subdivide
                            | MsModel.MRoots (z :: zs) =>
                                let zeros := zeros_in_interval (transformAll a b (good_zeros_nd (z :: zs) good_zeros_tol good_zeros_tol)) og_a og_b dim in
                                Finished (addRoots zeros a b Macaulay (trackInterval Macaulay a b s))
                            | _ => Raised                     (* TooManyRoots and the other exceptions; res[0] of an empty array; the mask of an array of shape (1, 0, dim) *)
                            end
                          else Raised
                      end
                  end
              end
          end
    end.
End Solver.

(** lines 169 and 138-141 *)
Definition max_level : nat := 52.
Definition floorTol (t : tolset) : tolset :=
  mkTols (Rmax (abs_approx_tol0 t) (101 / 100 * macheps)) (target_tol0 t) (rel_approx_tol t) (good_zeros_factor t) (min_good_zeros_tol t) (check_eval_error t) (check_eval_freq t).
(** subdivide_to_linear, lines 116-210, for a list of two or more functions and one set of tolerances (no polishing): the roots, the potential
    roots, and everything stored.  [deg] is None for the default of line 130; [w] the work arrays the calls before have left. *)
Definition subdivide_to_linear_nd (X : tools) (funcs : list (fobj R)) (a b : list R) (deg : option nat) (target_deg : nat) (methods : list SubcheckModel.reduction)
    (tols : tolset) (trust_small_evals : bool) (w : @wstate R) : ending (list (list R) * list (list R) * search) :=
  let dim := length funcs in
  let deg := match deg with Some d => d | None => if (4 <? dim)%nat then 2%nat else nth dim [2; 100; 20; 9; 9]%nat 2%nat end in
  let tols := floorTol tols in
  let s := mkSearch (startSolve (tJunk X) dim deg w) (SubcheckModel.newData dim) [] init (abs_approx_tol0 tols) (target_tol0 tols) in
  match subdivision_solve_nd X tols target_deg max_level methods trust_small_evals (2 * max_level + 2) funcs a b deg None 0 false s with
  | Finished s =>
      let s := mkSearch (work s) (idata s) (results s) (keep_possible_duplicates (tracked s)) (abs_approx_tol s) (target_tol s) in
      Finished (roots (tracked s), potential_roots (tracked s), s)
  | Raised => Raised
  | NoFuel => NoFuel
  end.
