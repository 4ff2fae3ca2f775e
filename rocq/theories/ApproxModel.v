(** * Model of yroots/ChebyshevApproximator.py (lines 9-450) *)
From Coq Require Import List Arith Bool ZArith.
From Verif Require Import Num Tensor PolySpec LinearModel SolverModel CombinedModel.
From Verif Require PolyModel.
Import ListNotations.

(** Outcome of chebApproximate: a value, one of its four ValueErrors, numpy's own error for an empty box,
    a result that is not a finite number, or the model's bound on the doubling loop reached. *)
Inductive ares (A : Type) :=
  AOk (a : A) | ANotCallable | ABadLengths | AInverted | AArity | AEmpty | ANotFinite | AFuel.
Arguments AOk {A}. Arguments ANotCallable {A}. Arguments ABadLengths {A}. Arguments AInverted {A}.
Arguments AArity {A}. Arguments AEmpty {A}. Arguments ANotFinite {A}. Arguments AFuel {A}.

Section Approx.
  Context {T : Type} {NT : Num T}.
  Local Open Scope num_scope.

  (** [cosn m d] is np.cos(m*np.pi/d) *)
  Variable cosn : nat -> nat -> T.
  (** [rootn x k] is x**(1/k) for x >= 0 and an integer k (1/0 is inf in numpy); [None] is inf *)
  Variable rootn : T -> Z -> option T.

  (** ** interval_approximate_nd, lines 28-89 *)

  (** lines 55-56 *)
  Definition fixDegs (degs : list nat) : list nat := map (fun d => if Nat.eqb d 0 then 1%nat else d) degs.
  (** lines 59-61: one point of the grid *)
  Definition gridPoint (degs : list nat) (a b : list T) (idx : list nat) : list T :=
    zip3 transformPt (map (fun p => cosn (fst p) (snd p)) (combine idx degs)) a b.
  (** a function object at one point *)
  Definition callAt (f : fobj T) (x : list T) : T :=
    match f with
    | NotCallable => n0
    | Plain g => g x
    | MPower t => PolyModel.evalAt PolyModel.polyval t x
    | MCheb t => PolyModel.evalAt PolyModel.chebval t x
    end.
  (** lines 63-68 *)
  Definition gridValues (f : fobj T) (degs : list nat) (a b : list T) : tensor T :=
    tbuild (map S degs) (fun idx => callAt f (gridPoint degs a b idx)).
  (** scipy's DCT-I of one line (scipy, not in /repo):
      y[k] = x[0] + (-1)^k x[N-1] + 2 sum_{j=1}^{N-2} x[j] cos(pi k j/(N-1)), N >= 2 *)
  Definition dct1 (v : list T) : list T :=
    let n := Nat.sub (length v) 1 in
    map (fun k => nth 0 v n0 + (if Nat.even k then nth n v n0 else - nth n v n0)
                  + nsum (map (fun j => n2 * nth j v n0 * cosn (k * j)%nat n) (seq 1 (n - 1)))) (seq 0 (length v)).
  (** dctn: the 1-D transform along every axis *)
  Definition dctn (t : tensor T) : tensor T := fold_left (fun t d => PolyModel.alongAxis dct1 d t) (seq 0 (ndim t)) t.
  (** [coeffs[.., k, ..] /= 2] on axis d *)
  Definition halveSlice (d k : nat) (t : tensor T) : tensor T :=
    tbuild (shp t) (fun idx => if Nat.eqb (nth d idx 0%nat) k then tget t idx / n2 else tget t idx).
  (** lines 79-81 *)
  Definition halveEdges (degs : list nat) (t : tensor T) : tensor T :=
    fold_left (fun t d => halveSlice d (nth d degs 0%nat) (halveSlice d 0 t)) (seq 0 (length degs)) t.
  (** The result: coefficients, sup norm over the grid, and [degs] as the caller finds it afterwards. *)
  Definition intervalApproximate (f : fobj T) (degs : list nat) (a b : list T) : tensor T * T * list nat :=
    let originalDegs := degs in
    let degs := fixDegs degs in
    let values := gridValues f degs a b in
    let supNorm := maxAbs (dat values) in
    let scaled := tbuild (shp values) (fun idx => tget values idx / nofnat (prodn degs)) in
    let coeffs := halveEdges degs (dctn scaled) in
    (tbuild (map S originalDegs) (tget coeffs), supNorm, degs).

  (** ** the convergence tests *)

  (** startedConverging, lines 91-106 *)
  Definition startedConverging (coeffList : list T) (tol : T) : bool :=
    forallb (fun c => nltb c tol) (skipn (length coeffList - 5) coeffList).
  (** hasConverged, lines 108-129; the slice of [coeff.shape] must fit into [coeff2] *)
  Definition hasConverged (coeff coeff2 : tensor T) (tol : T) : bool :=
    let coeff3 := tbuild (shp coeff2) (fun idx =>
      if PolyModel.inrangeb (shp coeff) idx then tget coeff2 idx - tget coeff idx else tget coeff2 idx) in
    nltb (maxAbs (dat coeff3)) tol.

  (** np.argmax: the first position of the largest entry *)
  Definition argmax (l : list T) : nat :=
    snd (fold_left (fun st i => let '(best, pos) := st in
                      if nltb best (nth i l n0) then (nth i l n0, i) else st)
           (seq 1 (length l - 1)) (nth 0 l n0, 0%nat)).
  Definition maxl (l : list T) : T := match l with [] => n0 | x :: r => nmaxl x r end.
  Definition macheps : T := nlit 1 4503599627370496.
  (** getFinalDegree, lines 131-172: degree, epsVal, rho *)
  Definition getFinalDegree (coeff : list T) (tol : T) : nat * T * option T :=
    let convergedDeg := Nat.div (3 * (length coeff - 1)) 4 in
    let epsVal := n2 * nmax macheps (maxl (skipn convergedDeg coeff)) in
    let nonZero := filter (fun i => ngtb (nth i coeff n0) epsVal) (seq 0 (length coeff)) in
    let degree := match rev nonZero with [] => 1%nat | i :: _ => Nat.max 1 i end in
    let degree := if forallb (fun c => nltb c tol) (tl coeff) then 0%nat else degree in
    let maxSpot := argmax coeff in
    let epsVal := if neqb epsVal n0 then nth maxSpot coeff n0 * nlit 1 1000000000000000000000000 else epsVal in
    let rho := rootn (nth maxSpot coeff n0 / epsVal) (Z.of_nat degree - Z.of_nat maxSpot + 1)%Z in
    (degree, epsVal, rho).

  (** ** checkConstantInDimension, lines 174-226 *)

  (** np.isclose / np.allclose on two numbers *)
  Definition isCloseTol (x y rtol atol : T) : bool := nleb (nabs (x - y)) (atol + rtol * nabs y).
  (** lines 203, 216: the two test points *)
  Definition probe1 (dim : nat) : list T := map (fun v => npow (nlit 8984743990614998 10000000000000000) (v + 1)) (seq 0 dim).
  Definition probe2 (dim : nat) : list T :=
    map (fun v => npow (nlit (-2598647169391334) 10000000000000000 * nofnat (v + 1) / nofnat dim) 2) (seq 0 dim).
  (** lines 208, 220: the values tried in the tested coordinate *)
  Definition steps1 : list T :=
    [nlit (-7996847717584993) 10000000000000000; nlit 18546110255464776 100000000000000000;
     nlit (-13975937255055182) 100000000000000000; n0; n1; - n1].
  Definition steps2 : list T :=
    [nlit (-17223860129797386) 100000000000000000; nlit 10828286380141305 100000000000000000;
     nlit (-5333148248321931) 10000000000000000; nlit 46471703497219596 100000000000000000].
  (** one test point: f is not zero there and does not change along the tested coordinate *)
  Definition constAlong (f : fobj T) (x : list T) (a b : list T) (currDim : nat) (steps : list T) (rel abs : T) : bool :=
    let eval1 := callAt f x in
    if isCloseTol eval1 n0 rel abs then false
    else forallb (fun v => isCloseTol eval1 (callAt f (upd x currDim (transformPt v (nth currDim a n0) (nth currDim b n0)))) rel abs) steps.
  Definition checkConstantInDimension (f : fobj T) (a b : list T) (currDim : nat) (rel abs : T) : bool :=
    let dim := length a in
    constAlong f (zip3 transformPt (probe1 dim) a b) a b currDim steps1 rel abs
    && constAlong f (zip3 transformPt (probe2 dim) a b) a b currDim steps2 rel abs.

  (** ** getChebyshevDegrees, lines 228-311 *)

  (** [np.average(np.abs(coeff), axis=<all but cur>)] *)
  Definition coeffChunk (cur : nat) (t : tensor T) : list T :=
    let others := upd (shp t) cur 1%nat in
    map (fun k => nsum (map (fun idx => nabs (tget t (upd idx cur k))) (indices others)) / nofnat (prodn others))
      (seq 0 (nth cur (shp t) 0%nat)).
  (** the loop of lines 279-310 for one dimension; [degs] is the array that interval_approximate_nd changes.
      The warning of lines 280-284 is left out. *)
  Fixpoint guessLoop (fuel : nat) (f : fobj T) (a b : list T) (rel abs : T) (cur : nat) (degs : list nat) (guess : nat)
    : option (nat * T * option T) :=
    match fuel with
    | O => None
    | S fuel' =>
        let '(coeff, supNorm, degs) := intervalApproximate f (upd degs cur guess) a b in
        let tol := abs + supNorm * rel in
        let guess := (2 * guess)%nat in
        if negb (startedConverging (coeffChunk cur coeff) tol) then guessLoop fuel' f a b rel abs cur degs guess
        else
          let '(coeff2, supNorm2, degs) := intervalApproximate f (upd degs cur (guess + 1)%nat) a b in
          let tol := abs + nmax supNorm supNorm2 * rel in
          if negb (hasConverged coeff coeff2 tol) then guessLoop fuel' f a b rel abs cur degs guess
          else Some (getFinalDegree (coeffChunk cur coeff2) tol)
    end.
  (** lines 271-276: the starting degrees; [None] stands for np.inf *)
  Definition startDegs (chebDegrees : list (option nat)) : list nat :=
    let base := if Nat.leb (length chebDegrees) 5 then 5%nat else 2%nat in
    map (fun c => match c with Some d => if Nat.ltb d base then d else base | None => base end) chebDegrees.
  (** the loop over the dimensions [cur], ... ; [todo] is the number of dimensions left *)
  Fixpoint degreeLoop (todo : nat) (fuel : nat) (f : fobj T) (a b : list T) (rel abs : T) (cur : nat) (chebDegrees : list (option nat))
    : option (list (option nat) * list T * list (option T)) :=
    match todo with
    | O => Some (chebDegrees, [], [])
    | S todo' =>
        let next := fun cd eps rho =>
          match degreeLoop todo' fuel f a b rel abs (S cur) cd with
          | Some (cd, es, rs) => Some (cd, eps :: es, rho :: rs)
          | None => None
          end in
        match nth cur chebDegrees None with
        | Some 0%nat => next chebDegrees n0 None
        | _ =>
            match guessLoop fuel f a b rel abs cur (startDegs chebDegrees) 8 with
            | None => None
            | Some (deg, eps, rho) => next (upd chebDegrees cur (Some deg)) eps rho
            end
        end
    end.
  Definition getChebyshevDegrees (fuel : nat) (f : fobj T) (a b : list T) (rel abs : T) : option (list nat * list T * list (option T)) :=
    let dim := length a in
    let cd := map (fun cur => if checkConstantInDimension f a b cur rel abs then Some 0%nat else None) (seq 0 dim) in
    match degreeLoop dim fuel f a b rel abs 0 cd with
    | Some (cd, es, rs) => Some (map (fun c => match c with Some d => d | None => 0%nat end) cd, es, rs)
    | None => None
    end.

  (** ** getApproxError, lines 313-356.  [None]: not finite (a rate is exactly 1). *)
  Definition termStep (st : option T * T) (p : bool * (nat * (T * option T))) : option T * T :=
    let '(s, thisEps) := st in
    let '(used, (deg, (eps, rho))) := p in
    if used then
      (match s, rho with
       | Some s, Some r => if neqb (r - n1) n0 then None else Some (s / (r - n1))
       | Some _, None => Some n0
       | None, _ => None
       end, nmax thisEps eps)
    else (option_map (fun s => s * nofnat (deg + 1)) s, thisEps).
  Definition errTerm (degs : list nat) (epsilons : list T) (rhos : list (option T)) (idxs : list bool) : option T :=
    let '(s, thisEps) := fold_left termStep (combine idxs (combine degs (combine epsilons rhos))) (Some n1, n0) in
    option_map (fun s => s * thisEps) s.
  Definition getApproxError (degs : list nat) (epsilons : list T) (rhos : list (option T)) : option T :=
    fold_left (fun acc idxs => match acc, errTerm degs epsilons rhos idxs with Some e, Some v => Some (e + v) | _, _ => None end)
      (filter (existsb (fun u => u)) (boolLists (length degs))) (Some n0).

  (** ** chebApproximate, lines 358-450.  [accepts f n]: calling f with n numbers raises no TypeError. *)
  Variable accepts : (list T -> T) -> nat -> bool.
  Definition arityOK (f : fobj T) (n : nat) : bool :=
    match f with
    | NotCallable => false
    | Plain g => accepts g n
    | MPower t | MCheb t => Nat.eqb (ndim t) n
    end.
  Definition chebApproximate (fuel : nat) (f : fobj T) (a b : list T) (rel : T) : ares (tensor T * T) :=
    match f with
    | NotCallable => ANotCallable
    | _ =>
      if negb (Nat.eqb (length a) (length b)) then ABadLengths
      else if existsb (fun p => nltb (snd p) (fst p)) (combine a b) then AInverted
      else if negb (arityOK f (length a)) then AArity
      else if Nat.eqb (length a) 0 then AEmpty
      else match getChebyshevDegrees fuel f a b rel n0 with
           | None => AFuel
           | Some (degs, eps, rhos) =>
               (* the tuple is evaluated from left to right: getApproxError sees the changed degs *)
               let '(coeffs, _, degs) := intervalApproximate f degs a b in
               match getApproxError degs eps rhos with
               | None => ANotFinite
               | Some e => AOk (coeffs, e)
               end
           end
    end.
  (** The approximator as solve() uses it: chebApproximate(f, a, b) with the default tolerance 1e-10. *)
  Definition approxOf (fuel : nat) (f : fobj T) (a b : list T) : res (tensor T * T) :=
    match chebApproximate fuel f a b (nlit 1 10000000000) with
    | AOk r => Ok r
    | AFuel => OutOfFuel
    | _ => Raise
    end.
End Approx.
