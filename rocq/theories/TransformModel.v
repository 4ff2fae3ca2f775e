(** * Model of the Chebyshev change of variables
    (yroots/ChebyshevSubdivisionSolver.py, lines 45-374, 755-894, 958-979). *)
From Coq Require Import List Arith Bool ZArith.
From Verif Require Import Num Tensor PolySpec.
Import ListNotations.

Section Model.
  Context {T : Type} {NT : Num T}.
  Local Open Scope num_scope.

  (** [l[i]].  In-bounds use is proved separately ([TransformProofs]). *)
  Definition g (l : list T) (i : nat) : T := nth i l n0.

  (** TwoSum / TwoSum_NoNumba, ChebyshevSubdivisionSolver.py:755-767. *)
  Definition TwoSum (a b : T) : T * T :=
    let x := a + b in
    let z := x - a in
    let y := (a - (x - z)) + (b - z) in
    (x, y).

  (** Split / Split_NoNumba, ChebyshevSubdivisionSolver.py:769-781. *)
  Definition Split (a : T) : T * T :=
    let c := nlit 134217729 1 * a in      (* (2**27 + 1) * a *)
    let x := c - (c - a) in
    let y := a - x in
    (x, y).

  (** TwoProdWithSplit, ChebyshevSubdivisionSolver.py:799-805. *)
  Definition TwoProdWithSplit (a b a1 a2 : T) : T * T :=
    let x := a * b in
    let '(b1, b2) := Split b in
    let y := a2 * b2 - (((x - a1 * b1) - a2 * b1) - a1 * b2) in
    (x, y).

  (** TwoProd / TwoProd_NoNumba, ChebyshevSubdivisionSolver.py:783-797. *)
  Definition TwoProd (a b : T) : T * T :=
    let x := a * b in
    let '(a1, a2) := Split a in
    let '(b1, b2) := Split b in
    let y := a2 * b2 - (((x - a1 * b1) - a2 * b1) - a1 * b2) in
    (x, y).

  (** Loop state of TransformChebInPlace1D: arr1, arr2, arr3, transformedCoeffs, maxRow. *)
  Record tst := mkTst { t1 : list T; t2 : list T; t3 : list T; tc : list T; mr : nat }.

  (** [arr3[i] = v; transformedCoeffs[i] += thisCoeff * v] *)
  Definition put (c : T) (i : nat) (v : T) (p : list T * list T) : list T * list T :=
    (upd (fst p) i v, upd (snd p) i (g (snd p) i + c * v)).

  (** One pass of the column loop of TransformChebInPlace1D,
      ChebyshevSubdivisionSolver.py:84-118. *)
  Definition tstep (alpha beta : T) (st : tst) (thisCoeff : T) : tst :=
    let arr1 := t1 st in let arr2 := t2 st in let maxRow := mr st in
    (* The first entry, lines 87-88 *)
    let p := put thisCoeff 0 ((- g arr1 0) + alpha * g arr2 1 + (n2 * beta) * g arr2 0) (t3 st, tc st) in
    (* The second entry, lines 91-93 *)
    let p := if Nat.ltb 2 maxRow
             then put thisCoeff 1 ((- g arr1 1) + alpha * (n2 * g arr2 0 + g arr2 2) + (n2 * beta) * g arr2 1) p
             else p in
    (* All middle entries, lines 96-98 *)
    let p := fold_left (fun p i =>
               put thisCoeff i ((- g arr1 i) + alpha * (g arr2 (i-1) + g arr2 (i+1)) + (n2 * beta) * g arr2 i) p)
               (seq 2 (maxRow - 1 - 2)) p in
    (* The second to last entry, lines 101-103 *)
    let i := Nat.sub maxRow 1 in
    let k := if Nat.eqb i 1 then n2 else n1 in
    let p := put thisCoeff i ((- g arr1 i) + (k * alpha) * g arr2 (i-1) + (n2 * beta) * g arr2 i) p in
    (* The last entry, lines 106-112 *)
    let finalVal := alpha * g arr2 i in
    let keep := ngtb (nabs finalVal) (nlit 1 10000000000000000) in
    let p := if keep then put thisCoeff maxRow finalVal p else p in
    (* rotate, lines 115-118 *)
    mkTst arr2 (fst p) arr1 (snd p) (if keep then S maxRow else maxRow).

  (** TransformChebInPlace1D, ChebyshevSubdivisionSolver.py:45-120, on one fibre
      (numpy's element-wise row operations act on each fibre separately).
      Called only with at least two coefficients (guard in TransformChebInPlaceND). *)
  Definition transform1D (coeffs : list T) (alpha beta : T) : list T :=
    let N := length coeffs in
    let z := repeat n0 N in
    let arr1 := upd z 0 n1 in
    let tc0 := upd z 0 (g coeffs 0) in
    let arr2 := upd (upd z 0 beta) 1 alpha in
    let tc1 := upd tc0 0 (g tc0 0 + beta * g coeffs 1) in
    let tc2 := upd tc1 1 (g tc1 1 + alpha * g coeffs 1) in
    let st := fold_left (tstep alpha beta) (skipn 2 coeffs) (mkTst arr1 arr2 z tc2 2) in
    firstn (mr st) (tc st).

  (** Loop state of the error-free versions: the three arrays and their error arrays. *)
  Record est := mkEst { e1 : list T; e2 : list T; e3 : list T;
                        f1 : list T; f2 : list T; f3 : list T; ec : list T; er : nat }.

  (** [arr3[i] = v; arr3E[i] = e; transformedCoeffs[i] += thisCoeff * (arr3[i] + arr3E[i])] *)
  Definition putE (c : T) (i : nat) (v e : T) (p : list T * list T * list T) : list T * list T * list T :=
    let '(a3, a3E, t) := p in
    (upd a3 i v, upd a3E i e, upd t i (g t i + c * (v + e))).

  (** One pass of the column loop of TransformChebInPlace1DErrorFree,
      ChebyshevSubdivisionSolver.py:166-237. *)
  Definition estep (alpha beta : T) (st : est) (thisCoeff : T) : est :=
    let '(alpha1, alpha2) := Split alpha in
    let '(beta1, beta2) := Split beta in
    let arr1 := e1 st in let arr2 := e2 st in
    let arr1E := f1 st in let arr2E := f2 st in let maxRow := er st in
    (* the 0 spot, lines 173-181 *)
    let p :=
      let '(V1, E1) := TwoProdWithSplit beta (n2 * g arr2 0) beta1 beta2 in
      let '(V2, E2) := TwoProdWithSplit alpha (g arr2 1) alpha1 alpha2 in
      let '(V3, E3) := TwoSum V1 V2 in
      let '(V4, E4) := TwoSum V3 (- g arr1 0) in
      putE thisCoeff 0 V4
        ((- g arr1E 0) + alpha * g arr2E 1 + (n2 * beta) * g arr2E 0 + E1 + E2 + E3 + E4)
        (e3 st, f3 st, ec st) in
    (* the 1 spot, lines 185-194 *)
    let p := if Nat.ltb 2 maxRow then
      let '(V1, E1) := TwoSum (n2 * g arr2 0) (g arr2 2) in
      let '(V2, E2) := TwoProdWithSplit beta (n2 * g arr2 1) beta1 beta2 in
      let '(V3, E3) := TwoProdWithSplit alpha V1 alpha1 alpha2 in
      let '(V4, E4) := TwoSum V2 V3 in
      let '(V5, E5) := TwoSum V4 (- g arr1 1) in
      putE thisCoeff 1 V5
        ((- g arr1E 1) + alpha * (n2 * g arr2E 0 + g arr2E 2 + E1) + (n2 * beta) * g arr2E 1 + E2 + E3 + E4 + E5) p
      else p in
    (* the middle spots, lines 197-206 *)
    let p := fold_left (fun p i =>
      let '(V1, E1) := TwoSum (g arr2 (i-1)) (g arr2 (i+1)) in
      let '(V2, E2) := TwoProdWithSplit beta (n2 * g arr2 i) beta1 beta2 in
      let '(V3, E3) := TwoProdWithSplit alpha V1 alpha1 alpha2 in
      let '(V4, E4) := TwoSum V2 V3 in
      let '(V5, E5) := TwoSum V4 (- g arr1 i) in
      putE thisCoeff i V5
        ((- g arr1E i) + alpha * (g arr2E (i-1) + g arr2E (i+1) + E1) + (n2 * beta) * g arr2E i + E2 + E3 + E4 + E5) p)
      (seq 2 (maxRow - 1 - 2)) p in
    (* the second to last spot, lines 209-218 *)
    let i := Nat.sub maxRow 1 in
    let C1 := if Nat.eqb i 1 then n2 else n1 in
    let p :=
      let '(V1, E1) := TwoProdWithSplit beta (n2 * g arr2 i) beta1 beta2 in
      let '(V2, E2) := TwoProdWithSplit alpha (C1 * g arr2 (i-1)) alpha1 alpha2 in
      let '(V3, E3) := TwoSum V1 V2 in
      let '(V4, E4) := TwoSum V3 (- g arr1 i) in
      putE thisCoeff i V4
        ((- g arr1E i) + (C1 * alpha) * g arr2E (i-1) + (n2 * beta) * g arr2E i + E1 + E2 + E3 + E4) p in
    (* the last spot, lines 222-227: always stored, kept only if not negligible *)
    let '(finalVal, finalValE) := TwoProdWithSplit alpha (g arr2 i) alpha1 alpha2 in
    let fE := finalValE + alpha * g arr2E i in
    let '(a3, a3E, t) := putE thisCoeff maxRow finalVal fE p in
    let keep := ngtb (nabs (finalVal + fE)) (nlit 1 100000000000000000000000000000000) in
    (* rotate, lines 230-237 *)
    mkEst arr2 a3 arr1 arr2E a3E arr1E t (if keep then S maxRow else maxRow).

  (** One pass of the column loop of TransformChebInPlace1DErrorFreeSplit,
      ChebyshevSubdivisionSolver.py:278-336; [bs] is betaSign. *)
  Definition sstep (bs : T) (st : est) (thisCoeff : T) : est :=
    let arr1 := e1 st in let arr2 := e2 st in
    let arr1E := f1 st in let arr2E := f2 st in let maxRow := er st in
    (* the 0 spot, lines 284-288 *)
    let p :=
      let '(V1, E1) := TwoSum (g arr2 1 / n2) (bs * g arr2 0) in
      let '(V2, E2) := TwoSum V1 (- g arr1 0) in
      putE thisCoeff 0 V2
        ((- g arr1E 0) + g arr2E 1 / n2 + bs * g arr2E 0 + E1 + E2) (e3 st, f3 st, ec st) in
    (* the 1 spot, lines 291-298 *)
    let p := if Nat.ltb 2 maxRow then
      let '(V1, E1) := TwoSum (g arr2 0) (g arr2 2 / n2) in
      let '(V2, E2) := TwoSum V1 (bs * g arr2 1) in
      let '(V3, E3) := TwoSum V2 (- g arr1 1) in
      putE thisCoeff 1 V3
        ((- g arr1E 1) + g arr2E 0 + g arr2E 2 / n2 + bs * g arr2E 1 + E1 + E2 + E3) p
      else p in
    (* the middle spots, lines 301-308 *)
    let p := fold_left (fun p i =>
      let '(V1, E1) := TwoSum (g arr2 (i-1)) (g arr2 (i+1)) in
      let '(V2, E2) := TwoSum (V1 / n2) (bs * g arr2 i) in
      let '(V3, E3) := TwoSum V2 (- g arr1 i) in
      putE thisCoeff i V3
        ((- g arr1E i) + (g arr2E (i-1) + g arr2E (i+1) + E1) / n2 + bs * g arr2E i + E2 + E3) p)
      (seq 2 (maxRow - 1 - 2)) p in
    (* the second to last spot, lines 311-318 *)
    let i := Nat.sub maxRow 1 in
    let C1 := if Nat.eqb i 1 then n1 else nlit 1 2 in
    let p :=
      let '(V1, E1) := TwoSum (C1 * g arr2 (i-1)) (bs * g arr2 i) in
      let '(V2, E2) := TwoSum V1 (- g arr1 i) in
      putE thisCoeff i V2
        ((- g arr1E i) + C1 * g arr2E (i-1) + bs * g arr2E i + E1 + E2) p in
    (* the last spot, lines 322-326 *)
    let finalVal := g arr2 i / n2 in
    let fE := g arr2E i / n2 in
    let '(a3, a3E, t) := putE thisCoeff maxRow finalVal fE p in
    let keep := ngtb (nabs (finalVal + fE)) (nlit 1 100000000000000000000000000000000) in
    mkEst arr2 a3 arr1 arr2E a3E arr1E t (if keep then S maxRow else maxRow).

  (** TransformChebInPlace1DErrorFreeSplit, ChebyshevSubdivisionSolver.py:240-337. *)
  Definition transform1DErrorFreeSplit (coeffs : list T) (bs : T) : list T :=
    let N := length coeffs in
    let z := repeat n0 N in
    let arr1 := upd z 0 n1 in
    let tc0 := upd z 0 (g coeffs 0) in
    let arr2 := upd (upd z 0 (bs * nlit 1 2)) 1 (nlit 1 2) in
    let tc1 := upd tc0 0 (g tc0 0 + bs * g coeffs 1 / n2) in
    let tc2 := upd tc1 1 (g tc1 1 + g coeffs 1 / n2) in
    let st := fold_left (sstep bs) (skipn 2 coeffs) (mkEst arr1 arr2 z z z z tc2 2) in
    firstn (er st) (ec st).

  (** TransformChebInPlace1DErrorFree, ChebyshevSubdivisionSolver.py:122-238. *)
  Definition transform1DErrorFree (coeffs : list T) (alpha beta : T) : list T :=
    if neqb alpha (nlit 1 2) && neqb (nabs beta) (nlit 1 2) then
      transform1DErrorFreeSplit coeffs (if nltb beta n0 then - n1 else n1)   (* np.sign(beta) *)
    else
    let N := length coeffs in
    let z := repeat n0 N in
    let arr1 := upd z 0 n1 in
    let tc0 := upd z 0 (g coeffs 0) in
    let arr2 := upd (upd z 0 beta) 1 alpha in
    let tc1 := upd tc0 0 (g tc0 0 + beta * g coeffs 1) in
    let tc2 := upd tc1 1 (g tc1 1 + alpha * g coeffs 1) in
    let st := fold_left (estep alpha beta) (skipn 2 coeffs) (mkEst arr1 arr2 z z z z tc2 2) in
    firstn (er st) (ec st).

  Definition transform1Dx (exact : bool) (coeffs : list T) (alpha beta : T) : list T :=
    if exact then transform1DErrorFree coeffs alpha beta else transform1D coeffs alpha beta.

  (** numpy [A.transpose(order)]: result[i_0,..] = A[j] with j[order[k]] = i_k. *)
  Definition scatter (order idx : list nat) : list nat :=
    fold_left (fun j p => upd j (fst p) (snd p)) (combine order idx) (repeat 0%nat (length order)).
  Definition transpose (t : tensor T) (order : list nat) : tensor T :=
    tbuild (map (fun o => nth o (shp t) 0%nat) order) (fun idx => tget t (scatter order idx)).

  (** A 1-D transform applied along axis 0 of an array (row operations of the njit code). *)
  Definition apply_axis0 (F : list T -> list T) (t : tensor T) : tensor T :=
    tbuild (upd (shp t) 0 (length (F (fibre t 0 (repeat 0%nat (ndim t))))))
           (fun idx => g (F (fibre t 0 idx)) (nth 0 idx 0%nat)).

  (** TransformChebInPlaceND, ChebyshevSubdivisionSolver.py:339-374. *)
  Definition transformND (t : tensor T) (dim : nat) (alpha beta : T) (exact : bool) : tensor T :=
    if (neqb alpha n1 && neqb beta n0) || Nat.eqb (nth dim (shp t) 0%nat) 1 then t
    else
      let F := fun c => transform1Dx exact c alpha beta in
      if Nat.eqb dim 0 then apply_axis0 F t
      else
        let order := dim :: seq 0 dim ++ seq (dim + 1) (ndim t - (dim + 1)) in
        let backOrder := scatter order (seq 0 (ndim t)) in
        transpose (apply_axis0 F (transpose t order)) backOrder.

  (** chebTransform1D, ChebyshevSubdivisionSolver.py:958-979. *)
  Definition chebTransform1D (t : tensor T) (alpha beta : T) (dim : nat) (exact : bool) : tensor T :=
    transformND t dim alpha beta exact.

  (** getTransformationError, ChebyshevSubdivisionSolver.py:812-833. *)
  Definition getTransformationError (t : tensor T) (dim : nat) : T :=
    nofnat (nth dim (shp t) 0%nat) * nlit 1 4503599627370496 * tsumabs t.

  (** the loop of transformCheb from dimension [dim] on *)
  Fixpoint transformCheb_from (dim : nat) (t : tensor T) (ab : list (T * T)) (error : T) (exact : bool)
    : tensor T * T :=
    match ab with
    | [] => (t, error)
    | (alpha, beta) :: ab' =>
        let error := error + getTransformationError t dim in
        transformCheb_from (S dim) (transformND t dim alpha beta exact) ab' error exact
    end.
  (** transformCheb, ChebyshevSubdivisionSolver.py:835-862.  The Python zip stops at the
      shortest of the axes, alphas and betas; here [ab] is the list of (alpha,beta) pairs,
      cut to the number of axes. *)
  Definition transformCheb (t : tensor T) (ab : list (T * T)) (error : T) (exact : bool) : tensor T * T :=
    transformCheb_from 0 t (firstn (ndim t) ab) error exact.

  (** transformChebToInterval, ChebyshevSubdivisionSolver.py:864-894. *)
  Definition transformChebToInterval (Ms : list (tensor T)) (ab : list (T * T)) (errors : list T) (exact : bool)
    : list (tensor T) * list T :=
    let r := map (fun Me => transformCheb (fst Me) ab (snd Me) exact) (combine Ms errors) in
    (map fst r, map snd r).
End Model.
