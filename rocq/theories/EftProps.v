(** * Property theorems C22, C23: the error-free transformations are error-free

    The theorems are about the code run on binary64 numbers ([PrimFloat.float], the arithmetic the code
    really uses).  [FR x] is the real number the float [x] stands for (Flocq's [B2R] of its bits) and
    [finiteF x] says that [x] is neither an infinity nor NaN; "no overflow" is stated as "the last result is
    finite", which by the theorems forces every intermediate value to be finite. *)
From Coq Require Import ZArith Reals Lra Lia Bool.
From Coq Require Import Floats.
From Flocq Require Import Core.
From Verif Require Import Num TransformModel EftProofs.
Local Open Scope R_scope.

Notation rnd64 := (round radix2 (FLT_exp (-1074) 53) ZnearestE).

(** C22: the first result is the rounded sum and the two results add up to the sum exactly. *)
Theorem C22_TwoSum_is_error_free : forall a b x y : PrimFloat.float,
  @TwoSum _ F_num a b = (x, y) -> finiteF y = true ->
  finiteF a = true /\ finiteF b = true /\ finiteF x = true /\
  FR x = rnd64 (FR a + FR b) /\ FR x + FR y = FR a + FR b.
Proof.
  intros a b x y E F. pose proof (F_TwoSum a b) as H. rewrite E in H. cbn [fst snd] in H. destruct (H F) as (A & B & X & V).
  pose proof (TwoSum_exact (FR a) (FR b) (FR_format a) (FR_format b)) as T. rewrite <- V in T. destruct T as [T1 T2]. auto 10.
Qed.
Print Assumptions C22_TwoSum_is_error_free.

(** ... and there is no overflow for any two finite numbers up to 2^1000 in size. *)
Theorem C22_no_overflow : forall a b : PrimFloat.float,
  finiteF a = true -> finiteF b = true -> Rabs (FR a) <= bpow radix2 1000 -> Rabs (FR b) <= bpow radix2 1000 ->
  finiteF (snd (@TwoSum _ F_num a b)) = true.
Proof. intros a b Fa Fb A B. exact (TwoSum_below a b (conj Fa A) (conj Fb B)). Qed.
Print Assumptions C22_no_overflow.

(** the sum 1 + 2^-60 rounds to 1: the error comes back as the second result *)
Example C22_case : @TwoSum _ F_num 1%float 0x1p-60%float = (1%float, 0x1p-60%float) /\ finiteF 0x1p-60%float = true.
Proof. split; vm_compute; reflexivity. Qed.
(** without a guard the claim fails: an overflowing sum returns NaN as its "error" *)
Example C22_overflow_case : finiteF 0x1p1023%float = true /\
  @TwoSum _ F_num 0x1p1023%float 0x1p1023%float = (PrimFloat.infinity, PrimFloat.nan).
Proof. split; vm_compute; reflexivity. Qed.

(** C23: [Split] cuts a number into two halves (26 and 27 significant bits) that add up to it. *)
Theorem C23_Split_is_error_free : forall a x y : PrimFloat.float,
  @Split _ F_num a = (x, y) -> finiteF y = true ->
  finiteF a = true /\ finiteF x = true /\ FR x + FR y = FR a /\
  generic_format radix2 (FLT_exp (-1074) 26) (FR x) /\ generic_format radix2 (FLT_exp (-1074) 27) (FR y).
Proof.
  intros a x y E F. pose proof (F_Split a) as H. rewrite E in H. cbn [fst snd] in H. destruct (H F) as (A & X & V).
  pose proof (Split_exact (FR a) (FR_format a)) as T. rewrite <- V in T. destruct T as (T1 & T2 & T3). auto 10.
Qed.
Print Assumptions C23_Split_is_error_free.

(** C23: [TwoProd] returns the rounded product, and the exact product as the sum of the two results as
    soon as the product is 0 or at least 2^-969; below that the sum is off by at most 3.5 * 2^-1074. *)
Theorem C23_TwoProd_is_error_free : forall a b x y : PrimFloat.float,
  @TwoProd _ F_num a b = (x, y) -> finiteF y = true ->
  finiteF a = true /\ finiteF b = true /\ finiteF x = true /\
  FR x = rnd64 (FR a * FR b) /\
  (FR a * FR b = 0 \/ bpow radix2 (-969) <= Rabs (FR a * FR b) -> FR x + FR y = FR a * FR b) /\
  Rabs (FR a * FR b - (FR x + FR y)) <= 7 / 2 * bpow radix2 (-1074).
Proof.
  intros a b x y E F. pose proof (F_TwoProd a b) as H. rewrite E in H. cbn [fst snd] in H. destruct (H F) as (A & B & X & V).
  pose proof (TwoProd_exact (FR a) (FR b) (FR_format a) (FR_format b)) as T. rewrite <- V in T. destruct T as (T1 & T2 & T3). auto 10.
Qed.
Print Assumptions C23_TwoProd_is_error_free.

(** C23: the variant that is handed the two halves of its first argument. *)
Theorem C23_TwoProdWithSplit_is_error_free : forall a a1 a2 b x y : PrimFloat.float,
  @Split _ F_num a = (a1, a2) -> @TwoProdWithSplit _ F_num a b a1 a2 = (x, y) -> finiteF y = true ->
  FR x = rnd64 (FR a * FR b) /\
  (FR a * FR b = 0 \/ bpow radix2 (-969) <= Rabs (FR a * FR b) -> FR x + FR y = FR a * FR b).
Proof.
  intros a a1 a2 b x y E1 E2 F. pose proof (@TwoProdWithSplit_eq _ F_num a b) as Q. rewrite E1 in Q. cbn [fst snd] in Q. rewrite E2 in Q.
  destruct (C23_TwoProd_is_error_free a b x y (eq_sym Q) F) as (_ & _ & _ & X & Y & _). auto.
Qed.
Print Assumptions C23_TwoProdWithSplit_is_error_free.

(** no overflow for factors up to 2^450 in size *)
Theorem C23_no_overflow : forall a b : PrimFloat.float,
  finiteF a = true -> finiteF b = true -> Rabs (FR a) <= bpow radix2 450 -> Rabs (FR b) <= bpow radix2 450 ->
  finiteF (snd (@TwoProd _ F_num a b)) = true.
Proof. intros a b Fa Fb A B. exact (TwoProd_below a b (conj Fa A) (conj Fb B)). Qed.
Print Assumptions C23_no_overflow.

(** (1 + 2^-52)^2 = 1 + 2^-51 + 2^-104 *)
Example C23_case :
  @TwoProd _ F_num 0x1.0000000000001p0%float 0x1.0000000000001p0%float = (0x1.0000000000002p0%float, 0x1p-104%float) /\
  @Split _ F_num 0x1.0000000000001p0%float = (1%float, 0x1p-52%float) /\ finiteF 0x1p-104%float = true.
Proof. repeat split; vm_compute; reflexivity. Qed.
(** in the underflow range the two results need not add up: 2^-600 * 2^-600 gives (0, 0) *)
Example C23_underflow_case : @TwoProd _ F_num 0x1p-600%float 0x1p-600%float = (0%float, 0%float).
Proof. vm_compute. reflexivity. Qed.
