(** * Model of yroots/Combined_Solver.py (solve, lines 10-200) *)
From Coq Require Import List Arith Bool ZArith.
From Verif Require Import Num Tensor PolySpec TransformModel IntervalModel LinearModel QuadModel SolverModel.
From Verif Require PolyModel.
Import ListNotations.

Section Combined.
  Context {T : Type} {NT : Num T}.
  Local Open Scope num_scope.

  (** What a caller may put in [funcs]: something that is not callable, a Python function of n numbers
      (assumed pure), or a polynomial object with its coefficients. *)
  Inductive fobj := NotCallable | Plain (f : list T -> T) | MPower (t : tensor T) | MCheb (t : tensor T).
  (** [funcs] itself: one object, or a list (or array) of them; a bound: a number, or a list (or array) *)
  Inductive funcsArg := FOne (f : fobj) | FMany (l : list fobj).
  Inductive boundArg := BScalar (v : T) | BVec (l : list T).

  (** Outcome of a call.  The three ValueErrors raised by [solve] itself are told apart, and the third
      carries the bounds of the call that raised it (they are local variables of the failing frame);
      [CInner]: an exception raised by the approximator, the subdivision solver or numpy. *)
  Inductive cres (A : Type) := COk (a : A) | CNotCallable | CBadLengths | CInverted (a b : list T) | CInner | CFuel.
  Arguments COk {A}. Arguments CNotCallable {A}. Arguments CBadLengths {A}. Arguments CInverted {A}. Arguments CInner {A}. Arguments CFuel {A}.
  Definition cbind {A B} (r : cres A) (f : A -> cres B) : cres B :=
    match r with COk a => f a | CNotCallable => CNotCallable | CBadLengths => CBadLengths | CInverted a b => CInverted a b | CInner => CInner | CFuel => CFuel end.
  Definition ofRes {A} (r : res A) : cres A := match r with Ok a => COk a | Raise => CInner | OutOfFuel => CFuel end.

  (** The roots, the bounding boxes, and the list of boxes (lower, upper bounds) that were searched, in
      order: what [verbose] prints after "Searching on interval". *)
  Record cout := mkOut { cRoots : list (list T); cBoxes : list (box T); cSearched : list (list T * list T) }.
  Definition outApp (o1 o2 : cout) : cout := mkOut (cRoots o1 ++ cRoots o2) (cBoxes o1 ++ cBoxes o2) (cSearched o1 ++ cSearched o2).
  Definition outNil : cout := mkOut [] [] [].

  (** ChebyshevApproximator.transform, ChebyshevApproximator.py:9-26, one coordinate *)
  Definition transformPt (x a b : T) : T := ((b - a) * x + (b + a)) / n2.
  (** numpy broadcasting of a bound array against [n] coordinates *)
  Definition bcast (n : nat) (l : list T) : option (list T) :=
    if Nat.eqb (length l) n then Some l else match l with [v] => Some (repeat v n) | _ => None end.
  Definition zip3 {A} (f : T -> T -> T -> A) (x a b : list T) : list A := map (fun p => f (fst p) (fst (snd p)) (snd (snd p))) (combine x (combine a b)).

  (** lines 110-113: np.allclose(a,-1) and np.allclose(b,1) *)
  Definition close1 (v c : T) : bool := nleb (nabs (v - c)) (nlit 1 100000000 + nlit 1 100000 * nabs c).
  Definition nearUnit (a b : list T) : bool := forallb (fun v => close1 v (- n1)) a && forallb (fun v => close1 v n1) b.

  Variable X : ext T.
  (** chebApproximate(f, a, b) *)
  Variable approx : fobj -> list T -> list T -> res (tensor T * T).
  Variable exact : bool.
  Variable minSize : T.
  (** recursion bound for each call of the subdivision solver *)
  Variable sfuel : nat.

  (** lines 117-126 *)
  Definition approxFor (f : fobj) (a b : list T) : res (tensor T * T) :=
    match f with
    | MPower t => if nearUnit a b then Ok (PolyModel.toCheb t, nlit 1 4503599627370496) else approx f a b
    | MCheb t => if nearUnit a b then Ok (t, nlit 1 4503599627370496) else approx f a b
    | _ => approx f a b
    end.
  Fixpoint approxAll (l : list fobj) (a b : list T) : res (list (tensor T * T)) :=
    match l with
    | [] => Ok []
    | f :: r => do p <- approxFor f a b ; do ps <- approxAll r a b ; Ok (p :: ps)
    end.

  (** [itertools.product([False, True], repeat=n)] *)
  Fixpoint boolLists (n : nat) : list (list bool) :=
    match n with O => [[]] | S n' => map (cons false) (boolLists n') ++ map (cons true) (boolLists n') end.
  (** lines 146-148 *)
  Definition splitPoint (a b : T) : T := (a + b) * nlit 51234912839471234 100000000000000000.
  Definition splitBounds (a b : list T) (val : list bool) : list T * list T :=
    let mid := map (fun p => splitPoint (fst p) (snd p)) (combine a b) in
    (map (fun p => if fst p : bool then fst (snd p) else snd (snd p)) (combine val (combine mid a)),
     map (fun p => if fst p : bool then fst (snd p) else snd (snd p)) (combine val (combine b mid))).

  (** run [f] on every element, concatenate, stop at the first exception *)
  Fixpoint gather {A} (f : A -> cres cout) (l : list A) : cres cout :=
    match l with
    | [] => COk outNil
    | x :: r => cbind (f x) (fun o1 => cbind (gather f r) (fun o2 => COk (outApp o1 o2)))
    end.
  (** [if len(roots) != 0: append both] *)
  Definition dropEmpty (o : cout) : cout := match cRoots o with [] => mkOut [] [] (cSearched o) | _ => o end.

  (** lines 170-190 for one box; [again] is the recursive call *)
  Definition finish (again : list T -> list T -> cres cout) (a b : list T) (t : tint T) : cres cout :=
    let fi := getFinalInterval t in
    match bcast (length fi) a, bcast (length fi) b with
    | Some a, Some b =>
        let newA := zip3 transformPt (map fst fi) a b in
        let newB := zip3 transformPt (map snd fi) a b in
        let relMax := map (fun p => minSize * nmax (nmax (nabs (fst p)) (nabs (snd p))) n1) (combine a b) in
        if forallb (fun p => ngtb (snd (snd p) - fst (snd p)) (fst p)) (combine relMax (combine newA newB)) then
          cbind (again newA newB) (fun o => COk (dropEmpty o))
        else
          COk (mkOut (map (fun pt => zip3 transformPt pt a b) (rootsOf t)) [combine newA newB] [])
    | _, _ => CInner
    end.

  (** solve, lines 91-200, for a list of functions and bound arrays.  [fuel] bounds the depth of the
      recursive calls; verbose output is left out except for [cSearched]. *)
  Fixpoint csolve (fuel : nat) (l : list fobj) (a b : list T) : cres cout :=
    match fuel with
    | O => CFuel
    | S fuel' =>
        if existsb (fun f => match f with NotCallable => true | _ => false end) l then CNotCallable
        else if negb (Nat.eqb (length a) (length b)) then CBadLengths
        else if existsb (fun p => nltb (snd p) (fst p)) (combine a b) then CInverted a b
        else
          cbind (ofRes (approxAll l a b)) (fun ps =>
          cbind (ofRes (solveChebyshevSubdivision X sfuel (defaultOpts exact true true false) (map fst ps) (map snd ps))) (fun sol =>
          let big := forallb (fun p => ngtb (snd p - fst p) minSize) (combine a b) in
          let whole := match sBoxes sol with [t] => forallb (fun d => neqb d n2) (finalDimSize t) | _ => false end in
          cbind
            (if whole && big then
               gather (fun val => let '(na, nb) := splitBounds a b val in cbind (csolve fuel' l na nb) (fun o => COk (dropEmpty o)))
                 (boolLists (length a))
             else gather (finish (csolve fuel' l) a b) (sBoxes sol))
            (fun o => COk (mkOut (cRoots o) (cBoxes o) ((a, b) :: cSearched o)))))
    end.

  (** lines 88-102: a single function becomes a list, a number becomes an array *)
  Definition boundOf (dim : nat) (b : boundArg) : list T := match b with BScalar v => repeat v dim | BVec l => l end.
  Definition solveTop (fuel : nat) (funcs : funcsArg) (a b : boundArg) : cres cout :=
    let l := match funcs with FOne f => [f] | FMany l => l end in
    csolve fuel l (boundOf (length l) a) (boundOf (length l) b).
End Combined.
Arguments fobj : clear implicits.
Arguments funcsArg : clear implicits.
Arguments boundArg : clear implicits.
Arguments cres : clear implicits.
Arguments cout : clear implicits.
Arguments COk {T A}. Arguments CNotCallable {T A}. Arguments CBadLengths {T A}. Arguments CInverted {T A}. Arguments CInner {T A}. Arguments CFuel {T A}.
