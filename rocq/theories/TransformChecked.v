(** * Array accesses of the 1-D transforms stay in bounds
    The same three loops as in [TransformModel], but every read and write of a
    work array is checked: a read or write outside the array makes the whole
    computation [None].  Proved: the checked loops always succeed and compute
    what [TransformModel] says, in every arithmetic. *)
From Coq Require Import List Arith Bool ZArith Lia.
From Verif Require Import Num Tensor PolySpec TransformModel.
Import ListNotations.

Definition bind {A B} (m : option A) (f : A -> option B) : option B :=
  match m with Some a => f a | None => None end.
Notation "x <- m ;; f" := (bind m (fun x => f)) (at level 61, m at next level, right associativity).
Fixpoint foldM {A B} (f : A -> B -> option A) (l : list B) (a : A) : option A :=
  match l with [] => Some a | b :: l' => a' <- f a b ;; foldM f l' a' end.

Section Model.
  Context {T : Type} {NT : Num T}.
  Local Open Scope num_scope.

  (** checked read / write of a 1-D work array *)
  Definition rd (l : list T) (i : nat) : option T := nth_error l i.
  Definition wr (l : list T) (i : nat) (v : T) : option (list T) :=
    if Nat.ltb i (length l) then Some (upd l i v) else None.

  (** [arr3[i] = v; transformedCoeffs[i] += thisCoeff * arr3[i]] *)
  Definition putC (c : T) (i : nat) (v : T) (p : list T * list T) : option (list T * list T) :=
    a <- wr (fst p) i v ;; o <- rd (snd p) i ;; t <- wr (snd p) i (o + c * v) ;; Some (a, t).

  (** ChebyshevSubdivisionSolver.py:84-118 with checked accesses. *)
  Definition tstepC (alpha beta : T) (st : tst) (thisCoeff : T) : option tst :=
    let arr1 := t1 st in let arr2 := t2 st in let maxRow := mr st in
    a <- rd arr1 0 ;; b <- rd arr2 1 ;; c <- rd arr2 0 ;;
    p <- putC thisCoeff 0 ((- a) + alpha * b + (n2 * beta) * c) (t3 st, tc st) ;;
    p <- (if Nat.ltb 2 maxRow then
            a <- rd arr1 1 ;; b <- rd arr2 0 ;; c <- rd arr2 2 ;; d <- rd arr2 1 ;;
            putC thisCoeff 1 ((- a) + alpha * (n2 * b + c) + (n2 * beta) * d) p
          else Some p) ;;
    p <- foldM (fun p i =>
            a <- rd arr1 i ;; b <- rd arr2 (i-1) ;; c <- rd arr2 (i+1) ;; d <- rd arr2 i ;;
            putC thisCoeff i ((- a) + alpha * (b + c) + (n2 * beta) * d) p)
          (seq 2 (maxRow - 1 - 2)) p ;;
    let i := Nat.sub maxRow 1 in
    let k := if Nat.eqb i 1 then n2 else n1 in
    a <- rd arr1 i ;; b <- rd arr2 (i-1) ;; d <- rd arr2 i ;;
    p <- putC thisCoeff i ((- a) + (k * alpha) * b + (n2 * beta) * d) p ;;
    e <- rd arr2 i ;;
    let finalVal := alpha * e in
    let keep := ngtb (nabs finalVal) (nlit 1 10000000000000000) in
    p <- (if keep then putC thisCoeff maxRow finalVal p else Some p) ;;
    Some (mkTst arr2 (fst p) arr1 (snd p) (if keep then S maxRow else maxRow)).

  (** ChebyshevSubdivisionSolver.py:45-120 with checked accesses. *)
  Definition transform1DC (coeffs : list T) (alpha beta : T) : option (list T) :=
    let N := length coeffs in
    let z := repeat n0 N in
    arr1 <- wr z 0 n1 ;;
    c0 <- rd coeffs 0 ;; tc0 <- wr z 0 c0 ;;
    a <- wr z 0 beta ;; arr2 <- wr a 1 alpha ;;
    o <- rd tc0 0 ;; c1 <- rd coeffs 1 ;; tc1 <- wr tc0 0 (o + beta * c1) ;;
    o <- rd tc1 1 ;; tc2 <- wr tc1 1 (o + alpha * c1) ;;
    st <- foldM (tstepC alpha beta) (skipn 2 coeffs) (mkTst arr1 arr2 z tc2 2) ;;
    Some (firstn (mr st) (tc st)).

  Definition putEC (c : T) (i : nat) (v e : T) (p : list T * list T * list T) : option (list T * list T * list T) :=
    let '(a3, a3E, t) := p in
    a3' <- wr a3 i v ;; a3E' <- wr a3E i e ;; o <- rd t i ;; t' <- wr t i (o + c * (v + e)) ;;
    Some (a3', a3E', t').

  (** ChebyshevSubdivisionSolver.py:166-237 with checked accesses. *)
  Definition estepC (alpha beta : T) (st : est) (thisCoeff : T) : option est :=
    let '(alpha1, alpha2) := Split alpha in
    let '(beta1, beta2) := Split beta in
    let arr1 := e1 st in let arr2 := e2 st in
    let arr1E := f1 st in let arr2E := f2 st in let maxRow := er st in
    a0 <- rd arr1 0 ;; b0 <- rd arr2 0 ;; b1 <- rd arr2 1 ;;
    a0E <- rd arr1E 0 ;; b0E <- rd arr2E 0 ;; b1E <- rd arr2E 1 ;;
    p <- (let '(V1, E1) := TwoProdWithSplit beta (n2 * b0) beta1 beta2 in
          let '(V2, E2) := TwoProdWithSplit alpha b1 alpha1 alpha2 in
          let '(V3, E3) := TwoSum V1 V2 in
          let '(V4, E4) := TwoSum V3 (- a0) in
          putEC thisCoeff 0 V4 ((- a0E) + alpha * b1E + (n2 * beta) * b0E + E1 + E2 + E3 + E4)
            (e3 st, f3 st, ec st)) ;;
    p <- (if Nat.ltb 2 maxRow then
            b2 <- rd arr2 2 ;; b2E <- rd arr2E 2 ;; a1 <- rd arr1 1 ;; a1E <- rd arr1E 1 ;;
            let '(V1, E1) := TwoSum (n2 * b0) b2 in
            let '(V2, E2) := TwoProdWithSplit beta (n2 * b1) beta1 beta2 in
            let '(V3, E3) := TwoProdWithSplit alpha V1 alpha1 alpha2 in
            let '(V4, E4) := TwoSum V2 V3 in
            let '(V5, E5) := TwoSum V4 (- a1) in
            putEC thisCoeff 1 V5
              ((- a1E) + alpha * (n2 * b0E + b2E + E1) + (n2 * beta) * b1E + E2 + E3 + E4 + E5) p
          else Some p) ;;
    p <- foldM (fun p i =>
            bm <- rd arr2 (i-1) ;; bp <- rd arr2 (i+1) ;; bi <- rd arr2 i ;; ai <- rd arr1 i ;;
            bmE <- rd arr2E (i-1) ;; bpE <- rd arr2E (i+1) ;; biE <- rd arr2E i ;; aiE <- rd arr1E i ;;
            let '(V1, E1) := TwoSum bm bp in
            let '(V2, E2) := TwoProdWithSplit beta (n2 * bi) beta1 beta2 in
            let '(V3, E3) := TwoProdWithSplit alpha V1 alpha1 alpha2 in
            let '(V4, E4) := TwoSum V2 V3 in
            let '(V5, E5) := TwoSum V4 (- ai) in
            putEC thisCoeff i V5
              ((- aiE) + alpha * (bmE + bpE + E1) + (n2 * beta) * biE + E2 + E3 + E4 + E5) p)
          (seq 2 (maxRow - 1 - 2)) p ;;
    let i := Nat.sub maxRow 1 in
    let C1 := if Nat.eqb i 1 then n2 else n1 in
    bm <- rd arr2 (i-1) ;; bi <- rd arr2 i ;; ai <- rd arr1 i ;;
    bmE <- rd arr2E (i-1) ;; biE <- rd arr2E i ;; aiE <- rd arr1E i ;;
    p <- (let '(V1, E1) := TwoProdWithSplit beta (n2 * bi) beta1 beta2 in
          let '(V2, E2) := TwoProdWithSplit alpha (C1 * bm) alpha1 alpha2 in
          let '(V3, E3) := TwoSum V1 V2 in
          let '(V4, E4) := TwoSum V3 (- ai) in
          putEC thisCoeff i V4
            ((- aiE) + (C1 * alpha) * bmE + (n2 * beta) * biE + E1 + E2 + E3 + E4) p) ;;
    let '(finalVal, finalValE) := TwoProdWithSplit alpha bi alpha1 alpha2 in
    let fE := finalValE + alpha * biE in
    p <- putEC thisCoeff maxRow finalVal fE p ;;
    let '(a3, a3E, t) := p in
    let keep := ngtb (nabs (finalVal + fE)) (nlit 1 100000000000000000000000000000000) in
    Some (mkEst arr2 a3 arr1 arr2E a3E arr1E t (if keep then S maxRow else maxRow)).

  (** ChebyshevSubdivisionSolver.py:278-336 with checked accesses. *)
  Definition sstepC (bs : T) (st : est) (thisCoeff : T) : option est :=
    let arr1 := e1 st in let arr2 := e2 st in
    let arr1E := f1 st in let arr2E := f2 st in let maxRow := er st in
    a0 <- rd arr1 0 ;; b0 <- rd arr2 0 ;; b1 <- rd arr2 1 ;;
    a0E <- rd arr1E 0 ;; b0E <- rd arr2E 0 ;; b1E <- rd arr2E 1 ;;
    p <- (let '(V1, E1) := TwoSum (b1 / n2) (bs * b0) in
          let '(V2, E2) := TwoSum V1 (- a0) in
          putEC thisCoeff 0 V2 ((- a0E) + b1E / n2 + bs * b0E + E1 + E2) (e3 st, f3 st, ec st)) ;;
    p <- (if Nat.ltb 2 maxRow then
            b2 <- rd arr2 2 ;; b2E <- rd arr2E 2 ;; a1 <- rd arr1 1 ;; a1E <- rd arr1E 1 ;;
            let '(V1, E1) := TwoSum b0 (b2 / n2) in
            let '(V2, E2) := TwoSum V1 (bs * b1) in
            let '(V3, E3) := TwoSum V2 (- a1) in
            putEC thisCoeff 1 V3 ((- a1E) + b0E + b2E / n2 + bs * b1E + E1 + E2 + E3) p
          else Some p) ;;
    p <- foldM (fun p i =>
            bm <- rd arr2 (i-1) ;; bp <- rd arr2 (i+1) ;; bi <- rd arr2 i ;; ai <- rd arr1 i ;;
            bmE <- rd arr2E (i-1) ;; bpE <- rd arr2E (i+1) ;; biE <- rd arr2E i ;; aiE <- rd arr1E i ;;
            let '(V1, E1) := TwoSum bm bp in
            let '(V2, E2) := TwoSum (V1 / n2) (bs * bi) in
            let '(V3, E3) := TwoSum V2 (- ai) in
            putEC thisCoeff i V3 ((- aiE) + (bmE + bpE + E1) / n2 + bs * biE + E2 + E3) p)
          (seq 2 (maxRow - 1 - 2)) p ;;
    let i := Nat.sub maxRow 1 in
    let C1 := if Nat.eqb i 1 then n1 else nlit 1 2 in
    bm <- rd arr2 (i-1) ;; bi <- rd arr2 i ;; ai <- rd arr1 i ;;
    bmE <- rd arr2E (i-1) ;; biE <- rd arr2E i ;; aiE <- rd arr1E i ;;
    p <- (let '(V1, E1) := TwoSum (C1 * bm) (bs * bi) in
          let '(V2, E2) := TwoSum V1 (- ai) in
          putEC thisCoeff i V2 ((- aiE) + C1 * bmE + bs * biE + E1 + E2) p) ;;
    let finalVal := bi / n2 in
    let fE := biE / n2 in
    p <- putEC thisCoeff maxRow finalVal fE p ;;
    let '(a3, a3E, t) := p in
    let keep := ngtb (nabs (finalVal + fE)) (nlit 1 100000000000000000000000000000000) in
    Some (mkEst arr2 a3 arr1 arr2E a3E arr1E t (if keep then S maxRow else maxRow)).

  (** ChebyshevSubdivisionSolver.py:122-337 with checked accesses. *)
  Definition transformEFC (coeffs : list T) (alpha beta : T) : option (list T) :=
    let N := length coeffs in
    let z := repeat n0 N in
    arr1 <- wr z 0 n1 ;;
    c0 <- rd coeffs 0 ;; tc0 <- wr z 0 c0 ;;
    if neqb alpha (nlit 1 2) && neqb (nabs beta) (nlit 1 2) then
      let bs := if nltb beta n0 then - n1 else n1 in
      a <- wr z 0 (bs * nlit 1 2) ;; arr2 <- wr a 1 (nlit 1 2) ;;
      o <- rd tc0 0 ;; c1 <- rd coeffs 1 ;; tc1 <- wr tc0 0 (o + bs * c1 / n2) ;;
      o <- rd tc1 1 ;; tc2 <- wr tc1 1 (o + c1 / n2) ;;
      st <- foldM (sstepC bs) (skipn 2 coeffs) (mkEst arr1 arr2 z z z z tc2 2) ;;
      Some (firstn (er st) (ec st))
    else
      a <- wr z 0 beta ;; arr2 <- wr a 1 alpha ;;
      o <- rd tc0 0 ;; c1 <- rd coeffs 1 ;; tc1 <- wr tc0 0 (o + beta * c1) ;;
      o <- rd tc1 1 ;; tc2 <- wr tc1 1 (o + alpha * c1) ;;
      st <- foldM (estepC alpha beta) (skipn 2 coeffs) (mkEst arr1 arr2 z z z z tc2 2) ;;
      Some (firstn (er st) (ec st)).

  Definition transform1DxC (exact : bool) (coeffs : list T) (alpha beta : T) : option (list T) :=
    if exact then transformEFC coeffs alpha beta else transform1DC coeffs alpha beta.

  (** ** Proofs *)
  Lemma rd_ok l i : i < length l -> rd l i = Some (g l i).
  Proof. intros H. unfold rd, g. apply nth_error_nth'; auto. Qed.
  Lemma wr_ok l i v : i < length l -> wr l i v = Some (upd l i v).
  Proof. intros H. unfold wr. apply Nat.ltb_lt in H. rewrite H. reflexivity. Qed.
  Definition len2 N (p : list T * list T) := length (fst p) = N /\ length (snd p) = N.
  Definition len3 N (p : list T * list T * list T) := len2 N (fst p) /\ length (snd p) = N.
  Lemma putC_ok N c i v p : len2 N p -> i < N -> putC c i v p = Some (put c i v p) /\ len2 N (put c i v p).
  Proof.
    intros [H1 H2] Hi. unfold putC, put, len2. cbn [fst snd].
    repeat (first [rewrite wr_ok by lia | rewrite rd_ok by lia]; cbn [bind]). rewrite !upd_length. auto.
  Qed.
  Lemma putEC_ok N c i v e p : len3 N p -> i < N -> putEC c i v e p = Some (putE c i v e p) /\ len3 N (putE c i v e p).
  Proof.
    intros [[H1 H2] H3] Hi. destruct p as [[a3 a3E] t]. cbn [fst snd] in *.
    unfold putEC, putE, len3, len2. cbn [fst snd].
    repeat (first [rewrite wr_ok by lia | rewrite rd_ok by lia]; cbn [bind]). rewrite !upd_length. auto.
  Qed.
  Lemma foldM_ok {A B} (P : A -> Prop) (f : A -> B -> option A) (f' : A -> B -> A) l :
    (forall a b, In b l -> P a -> f a b = Some (f' a b) /\ P (f' a b)) ->
    forall a, P a -> foldM f l a = Some (fold_left f' l a) /\ P (fold_left f' l a).
  Proof.
    induction l as [|b l IH]; intros H a Ha; simpl; auto.
    destruct (H a b) as [E Pb]; simpl; auto. rewrite E. cbn [bind]. apply IH; auto. intros; apply H; simpl; auto.
  Qed.

  Definition okT (N : nat) (s : @tst T) : Prop :=
    length (t1 s) = N /\ length (t2 s) = N /\ length (t3 s) = N /\ length (tc s) = N.
  Lemma tstepC_ok N alpha beta s c : okT N s -> 2 <= mr s < N ->
    tstepC alpha beta s c = Some (tstep alpha beta s c) /\ okT N (tstep alpha beta s c) /\ mr s <= mr (tstep alpha beta s c) <= S (mr s).
  Proof.
    intros (L1 & L2 & L3 & L4) Hm. unfold tstepC, tstep. cbv zeta.
    set (arr1 := t1 s) in *. set (arr2 := t2 s) in *. set (m := mr s) in *.
    rewrite (rd_ok arr1 0), (rd_ok arr2 1), (rd_ok arr2 0) by lia. cbn [bind].
    assert (I0 : len2 N (t3 s, tc s)) by (split; auto).
    match goal with |- context [putC c 0 ?v ?p] => destruct (putC_ok N c 0 v p I0 ltac:(lia)) as [E I1]; rewrite E; clear E end.
    cbn [bind].
    match goal with |- context [bind (if 2 <? m then _ else Some ?q) _] => set (p1 := q) in * end.
    match goal with |- context [bind (if 2 <? m then ?X else Some p1) _] =>
      assert (E : (if 2 <? m then X else Some p1) =
        Some (if 2 <? m then put c 1 (- g arr1 1 + alpha * (n2 * g arr2 0 + g arr2 2) + n2 * beta * g arr2 1)%num p1 else p1)
        /\ len2 N (if 2 <? m then put c 1 (- g arr1 1 + alpha * (n2 * g arr2 0 + g arr2 2) + n2 * beta * g arr2 1)%num p1 else p1)) end.
    { destruct (Nat.ltb_spec 2 m); [|split; auto].
      rewrite (rd_ok arr1 1), (rd_ok arr2 2) by lia. cbn [bind]. apply putC_ok; auto; lia. }
    destruct E as [E I2]. rewrite E; clear E. cbn [bind].
    match goal with |- context [foldM ?F ?l ?p0] => set (p2 := p0) in *;
      destruct (foldM_ok (len2 N) F (fun p i => put c i (- g arr1 i + alpha * (g arr2 (i - 1) + g arr2 (i + 1)) + n2 * beta * g arr2 i)%num p) l) with (a := p2) as [E I3]; auto end.
    { intros a b Hb Ha. apply in_seq in Hb.
      rewrite (rd_ok arr1 b), (rd_ok arr2 (b - 1)), (rd_ok arr2 (b + 1)), (rd_ok arr2 b) by lia. cbn [bind]. apply putC_ok; auto; lia. }
    rewrite E; clear E. cbn [bind].
    rewrite (rd_ok arr1 (m - 1)), (rd_ok arr2 (m - 1 - 1)), (rd_ok arr2 (m - 1)) by lia. cbn [bind].
    match goal with |- context [putC c (m - 1) ?v ?p] => destruct (putC_ok N c (m - 1) v p I3 ltac:(lia)) as [E I4]; rewrite E; clear E end.
    cbn [bind].
    match goal with |- context [if ?k then putC _ _ _ _ else _] => destruct k end.
    - match goal with |- context [putC c m ?v ?p] => destruct (putC_ok N c m v p I4 ltac:(lia)) as [E I5]; rewrite E; clear E end.
      cbn [bind]. destruct I5 as [J1 J2]. split; auto. unfold okT. cbn [t1 t2 t3 tc mr]. auto 10.
    - cbn [bind]. destruct I4 as [J1 J2]. split; auto. unfold okT. cbn [t1 t2 t3 tc mr]. auto 10.
  Qed.

  Definition okE (N : nat) (s : @est T) : Prop :=
    length (e1 s) = N /\ length (e2 s) = N /\ length (e3 s) = N /\
    length (f1 s) = N /\ length (f2 s) = N /\ length (f3 s) = N /\ length (ec s) = N.

  Ltac rdall := repeat (match goal with |- context [rd ?l ?i] => rewrite (rd_ok l i) by lia end; cbn [bind]).
  Lemma bind_ok {A B} (P : A -> Prop) (m : option A) (a : A) (f : A -> option B) (f' : A -> B) (Q : B -> Prop) :
    m = Some a /\ P a -> (forall b, P b -> f b = Some (f' b) /\ Q (f' b)) -> bind m f = Some (f' a) /\ Q (f' a).
  Proof. intros [-> Pa] H. cbn [bind]. auto. Qed.

  Lemma sstepC_ok N bs s c : okE N s -> 2 <= er s < N ->
    sstepC bs s c = Some (sstep bs s c) /\ (okE N (sstep bs s c) /\ er s <= er (sstep bs s c) <= S (er s)).
  Proof.
    intros (L1 & L2 & L3 & L4 & L5 & L6 & L7) Hm. unfold sstepC, sstep. cbv zeta.
    set (arr1 := e1 s) in *. set (arr2 := e2 s) in *. set (arr1E := f1 s) in *. set (arr2E := f2 s) in *. set (m := er s) in *.
    rewrite (rd_ok arr1 0), (rd_ok arr2 0), (rd_ok arr2 1), (rd_ok arr1E 0), (rd_ok arr2E 0), (rd_ok arr2E 1) by lia. cbn [bind].
    assert (I0 : len3 N (e3 s, f3 s, ec s)) by (repeat split; auto).
    unfold TwoSum. cbv beta iota zeta.
    match goal with |- context [putEC c 0 ?v ?e ?p] => destruct (putEC_ok N c 0 v e p I0 ltac:(lia)) as [E I1]; rewrite E; clear E end.
    cbn [bind].
    match goal with |- context [bind (if 2 <? m then _ else Some ?q) _] => set (p1 := q) in * end.
    match goal with |- context [fold_left ?G ?l ?q] => set (G' := G); set (p2 := q) end.
    match goal with |- context [bind (if 2 <? m then ?X else Some p1) _] =>
      assert (E : (if 2 <? m then X else Some p1) = Some p2 /\ len3 N p2) end.
    { unfold p2. destruct (Nat.ltb_spec 2 m); [|split; auto].
      rewrite (rd_ok arr1 1), (rd_ok arr2 2), (rd_ok arr1E 1), (rd_ok arr2E 2) by lia. cbn [bind]. apply putEC_ok; auto; lia. }
    destruct E as [E I2]. rewrite E; clear E. cbn [bind]. clearbody p2.
    match goal with |- context [foldM ?F ?l p2] => 
      destruct (foldM_ok (len3 N) F G' l) with (a := p2) as [E I3]; auto end.
    { intros a b Hb Ha. apply in_seq in Hb. unfold G'.
      rewrite (rd_ok arr1 b), (rd_ok arr2 (b - 1)), (rd_ok arr2 (b + 1)), (rd_ok arr2 b), (rd_ok arr1E b), (rd_ok arr2E (b - 1)), (rd_ok arr2E (b + 1)), (rd_ok arr2E b) by lia. cbn [bind]. apply putEC_ok; auto; lia. }
    rewrite E; clear E. cbn [bind].
    rewrite (rd_ok arr1 (m - 1)), (rd_ok arr2 (m - 1 - 1)), (rd_ok arr2 (m - 1)), (rd_ok arr1E (m - 1)), (rd_ok arr2E (m - 1 - 1)), (rd_ok arr2E (m - 1)) by lia. cbn [bind].
    match goal with |- context [putEC c (m - 1) ?v ?e ?p] => destruct (putEC_ok N c (m - 1) v e p I3 ltac:(lia)) as [E I4]; rewrite E; clear E end.
    cbn [bind].
    match goal with |- context [putEC c m ?v ?e ?p] => destruct (putEC_ok N c m v e p I4 ltac:(lia)) as [E I5]; rewrite E; clear E end.
    cbn [bind]. match goal with |- context [putE c m ?v ?e ?p] => destruct (putE c m v e p) as [[x y] z] end.
    destruct I5 as [[J1 J2] J3]. cbn [fst snd] in *. split; auto. unfold okE. cbn [e1 e2 e3 f1 f2 f3 ec er].
    destruct (ngtb _ _); auto 20.
  Qed.

  Lemma estepC_ok N alpha beta s c : okE N s -> 2 <= er s < N ->
    estepC alpha beta s c = Some (estep alpha beta s c) /\ (okE N (estep alpha beta s c) /\ er s <= er (estep alpha beta s c) <= S (er s)).
  Proof.
    intros (L1 & L2 & L3 & L4 & L5 & L6 & L7) Hm. unfold estepC, estep. cbv zeta.
    destruct (Split alpha) as [al1 al2], (Split beta) as [be1 be2].
    set (arr1 := e1 s) in *. set (arr2 := e2 s) in *. set (arr1E := f1 s) in *. set (arr2E := f2 s) in *. set (m := er s) in *.
    rewrite (rd_ok arr1 0), (rd_ok arr2 0), (rd_ok arr2 1), (rd_ok arr1E 0), (rd_ok arr2E 0), (rd_ok arr2E 1) by lia. cbn [bind].
    assert (I0 : len3 N (e3 s, f3 s, ec s)) by (repeat split; auto).
    unfold TwoSum, TwoProdWithSplit, Split. cbv beta iota zeta.
    match goal with |- context [putEC c 0 ?v ?e ?p] => destruct (putEC_ok N c 0 v e p I0 ltac:(lia)) as [E I1]; rewrite E; clear E end.
    cbn [bind].
    match goal with |- context [bind (if 2 <? m then _ else Some ?q) _] => set (p1 := q) in * end.
    match goal with |- context [fold_left ?G ?l ?q] => set (G' := G); set (p2 := q) end.
    match goal with |- context [bind (if 2 <? m then ?X else Some p1) _] =>
      assert (E : (if 2 <? m then X else Some p1) = Some p2 /\ len3 N p2) end.
    { unfold p2. destruct (Nat.ltb_spec 2 m); [|split; auto].
      rewrite (rd_ok arr1 1), (rd_ok arr2 2), (rd_ok arr1E 1), (rd_ok arr2E 2) by lia. cbn [bind]. apply putEC_ok; auto; lia. }
    destruct E as [E I2]. rewrite E; clear E. cbn [bind]. clearbody p2.
    match goal with |- context [foldM ?F ?l p2] => 
      destruct (foldM_ok (len3 N) F G' l) with (a := p2) as [E I3]; auto end.
    { intros a b Hb Ha. apply in_seq in Hb. unfold G'.
      rewrite (rd_ok arr1 b), (rd_ok arr2 (b - 1)), (rd_ok arr2 (b + 1)), (rd_ok arr2 b), (rd_ok arr1E b), (rd_ok arr2E (b - 1)), (rd_ok arr2E (b + 1)), (rd_ok arr2E b) by lia. cbn [bind]. apply putEC_ok; auto; lia. }
    rewrite E; clear E. cbn [bind].
    rewrite (rd_ok arr1 (m - 1)), (rd_ok arr2 (m - 1 - 1)), (rd_ok arr2 (m - 1)), (rd_ok arr1E (m - 1)), (rd_ok arr2E (m - 1 - 1)), (rd_ok arr2E (m - 1)) by lia. cbn [bind].
    match goal with |- context [putEC c (m - 1) ?v ?e ?p] => destruct (putEC_ok N c (m - 1) v e p I3 ltac:(lia)) as [E I4]; rewrite E; clear E end.
    cbn [bind].
    match goal with |- context [putEC c m ?v ?e ?p] => destruct (putEC_ok N c m v e p I4 ltac:(lia)) as [E I5]; rewrite E; clear E end.
    cbn [bind]. match goal with |- context [putE c m ?v ?e ?p] => destruct (putE c m v e p) as [[x y] z] end.
    destruct I5 as [[J1 J2] J3]. cbn [fst snd] in *. split; auto. unfold okE. cbn [e1 e2 e3 f1 f2 f3 ec er].
    destruct (ngtb _ _); auto 20.
  Qed.

  (** running the loop: maxRow grows by at most one per column, so it stays below N *)
  Lemma runC {S0} (step : S0 -> T -> S0) (stepC : S0 -> T -> option S0) (ok : S0 -> Prop) (row : S0 -> nat) N :
    (forall s c, ok s -> 2 <= row s < N -> stepC s c = Some (step s c) /\ (ok (step s c) /\ row s <= row (step s c) <= S (row s))) ->
    forall l s, ok s -> 2 <= row s -> row s + length l <= N -> foldM stepC l s = Some (fold_left step l s).
  Proof.
    intros H. induction l as [|c l IH]; intros s Hs H2 HN; simpl in *; auto.
    destruct (H s c Hs) as [E [O R]]; [lia|]. rewrite E. cbn [bind]. apply IH; auto; lia.
  Qed.

  Ltac run := repeat (first [rewrite wr_ok by (rewrite ?upd_length; lia) | rewrite rd_ok by (rewrite ?upd_length; lia)]; cbn [bind]).
  Lemma transform1DC_ok c alpha beta : 2 <= length c -> transform1DC c alpha beta = Some (transform1D c alpha beta).
  Proof.
    intros H. unfold transform1DC, transform1D. cbv zeta. remember (length c) as N eqn:HN. set (z := repeat n0 N).
    assert (Lz : length z = N) by apply repeat_length.
    run. rewrite (runC (tstep alpha beta) (tstepC alpha beta) (okT N) mr N); auto.
    - intros s x Hs Hr. destruct (tstepC_ok N alpha beta s x Hs Hr) as (A & B & C). auto.
    - unfold okT. cbn [t1 t2 t3 tc]. rewrite !upd_length. auto.
    - cbn [mr]. rewrite skipn_length. lia.
  Qed.
  Lemma transformEFC_ok c alpha beta : 2 <= length c -> transformEFC c alpha beta = Some (transform1DErrorFree c alpha beta).
  Proof.
    intros H. unfold transformEFC, transform1DErrorFree, transform1DErrorFreeSplit. cbv zeta. remember (length c) as N eqn:HN. set (z := repeat n0 N).
    assert (Lz : length z = N) by apply repeat_length.
    run. destruct (neqb alpha (nlit 1 2) && neqb (nabs beta) (nlit 1 2)).
    - set (bs := if nltb beta n0 then (- n1)%num else n1). run.
      rewrite (runC (sstep bs) (sstepC bs) (okE N) er N); auto.
      + intros s x Hs Hr. apply (sstepC_ok N); auto.
      + unfold okE. cbn [e1 e2 e3 f1 f2 f3 ec]. rewrite !upd_length. auto 10.
      + cbn [er]. rewrite skipn_length. lia.
    - run. rewrite (runC (estep alpha beta) (estepC alpha beta) (okE N) er N); auto.
      + intros s x Hs Hr. apply (estepC_ok N); auto.
      + unfold okE. cbn [e1 e2 e3 f1 f2 f3 ec]. rewrite !upd_length. auto 10.
      + cbn [er]. rewrite skipn_length. lia.
  Qed.
  Theorem transform1DxC_ok exact c alpha beta : 2 <= length c ->
    transform1DxC exact c alpha beta = Some (transform1Dx exact c alpha beta).
  Proof. intros H. destruct exact; [apply transformEFC_ok | apply transform1DC_ok]; auto. Qed.
End Model.
