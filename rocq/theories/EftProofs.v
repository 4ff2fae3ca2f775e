(** * Error-free transformations in binary64 *)
From Coq Require Import ZArith Reals Lra Lia Bool.
From Coq Require Import Floats.
From Flocq Require Import Core.
From Flocq.Pff Require Import Pff2Flocq.
From Flocq.IEEE754 Require Import BinarySingleNaN PrimFloat.
From Verif Require Import Num TransformModel.
Local Open Scope R_scope.

(** a real number that binary64 represents (no bound on the exponent from above) *)
Definition isB64 (x : R) : Prop := generic_format radix2 (FLT_exp (-1074) 53) x.

#[local] Instance p53 : Prec_gt_0 53. Proof. reflexivity. Qed.
Lemma b64_format x : isB64 (b64 x).
Proof. apply generic_format_round; apply _. Qed.
Lemma b64_id x : isB64 x -> b64 x = x.
Proof. intros. apply round_generic; auto. apply _. Qed.
Lemma b64_opp x : b64 (- x) = - b64 x.
Proof. apply round_NE_opp. Qed.

Lemma evenSym x : negb (Z.even x) = negb (negb (Z.even (- (x + 1)))).
Proof. rewrite Z.even_opp. rewrite Z.even_add. destruct (Z.even x); reflexivity. Qed.

Lemma TwoSum_exact a b : isB64 a -> isB64 b ->
  let '(x, y) := @TwoSum R B64_num a b in x = b64 (a + b) /\ x + y = a + b.
Proof.
  intros Ha Hb. unfold TwoSum. cbn [nadd nsub B64_num]. split; auto.
  exact (TwoSum_correct (-1074) 53 (fun z => negb (Z.even z)) ltac:(lia) ltac:(lia) evenSym a b Ha Hb).
Qed.

Lemma split_const : @nlit R B64_num 134217729 1 = bpow radix2 27 + 1.
Proof.
  cbn [nlit B64_num]. replace (134217729 / 1) with (bpow radix2 27 + 1) by (simpl; lra).
  apply b64_id. apply (C_format radix2 (-1074) 53 27); lia.
Qed.
Lemma Split_flocq a : @Split R B64_num a =
  (b64 (b64 (a - b64 (a * (bpow radix2 27 + 1))) + b64 (a * (bpow radix2 27 + 1))),
   b64 (a - b64 (b64 (a - b64 (a * (bpow radix2 27 + 1))) + b64 (a * (bpow radix2 27 + 1))))).
Proof.
  unfold Split. cbv zeta. rewrite split_const. cbn [nmul nsub B64_num]. rewrite (Rmult_comm (bpow radix2 27 + 1) a).
  set (p := b64 (a * (bpow radix2 27 + 1))).
  assert (E : b64 (p - b64 (p - a)) = b64 (b64 (a - p) + p)).
  { f_equal. replace (a - p) with (- (p - a)) by ring. rewrite b64_opp. ring. }
  rewrite E. reflexivity.
Qed.
(** the two halves have at most 26 and 27 significant bits *)
Lemma Split_exact a : isB64 a ->
  let '(x, y) := @Split R B64_num a in
  x + y = a /\ generic_format radix2 (FLT_exp (-1074) 26) x /\ generic_format radix2 (FLT_exp (-1074) 27) y.
Proof.
  intros Ha. rewrite Split_flocq. cbv beta iota. split; [|split].
  - symmetry. exact (proj1 (Veltkamp_tail radix2 (-1074) 53 (fun z => negb (Z.even z)) 27 ltac:(lia) ltac:(lia) ltac:(lia) ltac:(lia) a Ha)).
  - destruct (Veltkamp radix2 (-1074) 53 (fun z => negb (Z.even z)) 27 ltac:(lia) ltac:(lia) ltac:(lia) ltac:(lia) a Ha) as (c & E).
    match type of E with ?l = _ => change (generic_format radix2 (FLT_exp (-1074) 26) l) end. rewrite E. apply generic_format_round; [apply FLT_exp_valid; reflexivity|apply _].
  - exact (proj2 (Veltkamp_tail radix2 (-1074) 53 (fun z => negb (Z.even z)) 27 ltac:(lia) ltac:(lia) ltac:(lia) ltac:(lia) a Ha)).
Qed.

Lemma prod_sum (r p q s t : R) :
  b64 (t - b64 (b64 (b64 (r - p) - q) - s)) = b64 (b64 (b64 (b64 (- r + p) + q) + s) + t).
Proof.
  replace (- r + p) with (- (r - p)) by ring. rewrite b64_opp.
  replace (- b64 (r - p) + q) with (- (b64 (r - p) - q)) by ring. rewrite b64_opp.
  replace (- b64 (b64 (r - p) - q) + s) with (- (b64 (b64 (r - p) - q) - s)) by ring. rewrite b64_opp. f_equal. ring.
Qed.
(** the product is exact when it is not in the underflow range; otherwise off by at most 7/2 * 2^-1074 *)
Lemma TwoProd_exact a b : isB64 a -> isB64 b ->
  let '(x, y) := @TwoProd R B64_num a b in
  x = b64 (a * b) /\ (a * b = 0 \/ bpow radix2 (-969) <= Rabs (a * b) -> x + y = a * b) /\ Rabs (a * b - (x + y)) <= 7 / 2 * bpow radix2 (-1074).
Proof.
  intros Ha Hb. unfold TwoProd. rewrite !Split_flocq. cbv beta iota zeta. cbn [nmul nsub B64_num]. split; auto.
  pose proof (Dekker radix2 (-1074) 53 (fun z => negb (Z.even z)) ltac:(lia) ltac:(lia) b a Hb Ha (or_introl eq_refl)) as D.
  rewrite prod_sum. change (53 - Z.div2 53)%Z with 27%Z in D. change (-1074 + 2 * 53 - 1)%Z with (-969)%Z in D.
  set (a1 := b64 (b64 (a - _) + _)). set (a2 := b64 (a - a1)). set (b1 := b64 (b64 (b - _) + _)). set (b2 := b64 (b - b1)).
  rewrite (Rmult_comm a b), (Rmult_comm a1 b1), (Rmult_comm a2 b1), (Rmult_comm a1 b2), (Rmult_comm a2 b2). split; [intros Hc; symmetry; exact (proj1 D Hc) | exact (proj2 D)].
Qed.
Lemma TwoProdWithSplit_eq {T} {NT : Num T} (a b : T) : TwoProdWithSplit a b (fst (Split a)) (snd (Split a)) = TwoProd a b.
Proof. unfold TwoProdWithSplit, TwoProd. destruct (Split a). reflexivity. Qed.

(** ** The primitive floats *)
(** the real number a finite float stands for *)
Definition FR (x : PrimFloat.float) : R := B2R (Prim2B x).
Definition finiteF (x : PrimFloat.float) : bool := BinarySingleNaN.is_finite (Prim2B x).
Lemma FR_format x : isB64 (FR x).
Proof. apply generic_format_B2R. Qed.
Lemma ovf_inf m s : exists s', binary_overflow prec emax m s = S754_infinity s' \/ m <> mode_NE.
Proof. destruct m; cbn; try (exists s; right; discriminate). exists s. left. reflexivity. Qed.
Lemma SF_fin (x : binary_float prec emax) s : B2SF x = S754_infinity s -> BinarySingleNaN.is_finite x = false.
Proof. destruct x; cbn; congruence. Qed.
Lemma add_fin x y : finiteF (PrimFloat.add x y) = true -> finiteF x = true /\ finiteF y = true /\ FR (PrimFloat.add x y) = b64 (FR x + FR y).
Proof.
  unfold finiteF, FR. rewrite add_equiv. intros H.
  assert (Hx : BinarySingleNaN.is_finite (Prim2B x) = true /\ BinarySingleNaN.is_finite (Prim2B y) = true).
  { destruct (Prim2B x) as [?|[|]| |? ? ? ?], (Prim2B y) as [?|[|]| |? ? ? ?]; cbn in H |- *; auto; discriminate. }
  destruct Hx as [Hx Hy]. split; auto. split; auto.
  pose proof (Bplus_correct prec emax Hprec Hmax mode_NE (Prim2B x) (Prim2B y) Hx Hy) as C.
  destruct (Rlt_bool _ _); [exact (proj1 C)|]. destruct C as [C _]. apply SF_fin in C. congruence.
Qed.
Lemma sub_fin x y : finiteF (PrimFloat.sub x y) = true -> finiteF x = true /\ finiteF y = true /\ FR (PrimFloat.sub x y) = b64 (FR x - FR y).
Proof.
  unfold finiteF, FR. rewrite sub_equiv. intros H.
  assert (Hx : BinarySingleNaN.is_finite (Prim2B x) = true /\ BinarySingleNaN.is_finite (Prim2B y) = true).
  { destruct (Prim2B x) as [?|[|]| |? ? ? ?], (Prim2B y) as [?|[|]| |? ? ? ?]; cbn in H |- *; auto; discriminate. }
  destruct Hx as [Hx Hy]. split; auto. split; auto.
  pose proof (Bminus_correct prec emax Hprec Hmax mode_NE (Prim2B x) (Prim2B y) Hx Hy) as C.
  destruct (Rlt_bool _ _); [exact (proj1 C)|]. destruct C as [C _]. apply SF_fin in C. congruence.
Qed.
Lemma mul_fin x y : finiteF (PrimFloat.mul x y) = true -> finiteF x = true /\ finiteF y = true /\ FR (PrimFloat.mul x y) = b64 (FR x * FR y).
Proof.
  unfold finiteF, FR. rewrite mul_equiv. intros H.
  assert (Hx : BinarySingleNaN.is_finite (Prim2B x) = true /\ BinarySingleNaN.is_finite (Prim2B y) = true).
  { destruct (Prim2B x) as [?|[|]| |? ? ? ?], (Prim2B y) as [?|[|]| |? ? ? ?]; cbn in H |- *; auto; discriminate. }
  destruct Hx as [Hx Hy]. split; auto. split; auto.
  pose proof (Bmult_correct prec emax Hprec Hmax mode_NE (Prim2B x) (Prim2B y)) as C.
  destruct (Rlt_bool _ _); [exact (proj1 C)|]. apply SF_fin in C. congruence.
Qed.

(** If the last operation gives a finite number then no operation overflowed, and the floats are the
    numbers computed by the rounded-real model. *)
Lemma F_TwoSum a b : finiteF (snd (@TwoSum _ F_num a b)) = true ->
  finiteF a = true /\ finiteF b = true /\ finiteF (fst (@TwoSum _ F_num a b)) = true /\
  (FR (fst (@TwoSum _ F_num a b)), FR (snd (@TwoSum _ F_num a b))) = @TwoSum R B64_num (FR a) (FR b).
Proof.
  unfold TwoSum. cbv zeta. cbn [fst snd nadd nsub F_num B64_num]. intros H.
  destruct (add_fin _ _ H) as (H1 & H2 & ->). destruct (sub_fin _ _ H1) as (A1 & A2 & ->). destruct (sub_fin _ _ A2) as (A3 & A4 & ->).
  destruct (sub_fin _ _ A4) as (A5 & A6 & E4). destruct (sub_fin _ _ H2) as (B1 & B2 & ->). destruct (add_fin _ _ A5) as (C1 & C2 & C3).
  rewrite E4, C3. auto.
Qed.
Lemma F_splitc : FR (@nlit _ F_num 134217729 1) = @nlit R B64_num 134217729 1.
Proof.
  rewrite split_const. unfold FR. rewrite <- SF2R_B2SF. rewrite B2SF_Prim2B.
  replace (FloatOps.Prim2SF (@nlit _ F_num 134217729 1)) with (S754_finite false 4503599660924928 (-25)) by (vm_compute; reflexivity).
  cbn [SF2R]. unfold F2R. cbn [Fnum Fexp cond_Zopp]. simpl bpow. lra.
Qed.
Lemma F_Split a : finiteF (snd (@Split _ F_num a)) = true ->
  finiteF a = true /\ finiteF (fst (@Split _ F_num a)) = true /\
  (FR (fst (@Split _ F_num a)), FR (snd (@Split _ F_num a))) = @Split R B64_num (FR a).
Proof.
  unfold Split. cbv zeta. rewrite <- F_splitc. set (K := @nlit _ F_num 134217729 1). cbn [fst snd nmul nsub F_num B64_num]. intros H.
  destruct (sub_fin _ _ H) as (H1 & H2 & ->). destruct (sub_fin _ _ H2) as (A1 & A2 & E). destruct (sub_fin _ _ A2) as (B1 & B2 & E2). destruct (mul_fin _ _ A1) as (C1 & C2 & E3).
  rewrite !E, !E2, !E3. auto.
Qed.
Lemma F_TwoProd a b : finiteF (snd (@TwoProd _ F_num a b)) = true ->
  finiteF a = true /\ finiteF b = true /\ finiteF (fst (@TwoProd _ F_num a b)) = true /\
  (FR (fst (@TwoProd _ F_num a b)), FR (snd (@TwoProd _ F_num a b))) = @TwoProd R B64_num (FR a) (FR b).
Proof.
  unfold TwoProd. cbv zeta. pose proof (F_Split a) as Sa. pose proof (F_Split b) as Sb.
  destruct (@Split _ F_num a) as [a1 a2], (@Split _ F_num b) as [b1 b2]. cbn [fst snd] in Sa, Sb. cbn [fst snd nmul nsub F_num]. intros H.
  destruct (sub_fin _ _ H) as (H1 & H2 & E). destruct (mul_fin _ _ H1) as (P1 & P2 & E1). destruct (sub_fin _ _ H2) as (Q1 & Q2 & E2).
  destruct (mul_fin _ _ Q2) as (_ & _ & E3). destruct (sub_fin _ _ Q1) as (S1 & S2 & E4). destruct (mul_fin _ _ S2) as (_ & _ & E5).
  destruct (sub_fin _ _ S1) as (U1 & U2 & E6). destruct (mul_fin _ _ U1) as (V1 & V2 & E7). destruct (mul_fin _ _ U2) as (_ & _ & E8).
  destruct (Sa P1) as (_ & _ & <-), (Sb P2) as (_ & _ & <-). cbn [nmul nsub B64_num]. rewrite E, E1, E2, E3, E4, E5, E6, E7, E8. auto.
Qed.

(** ** No overflow for inputs of moderate size *)
Lemma b64_le v e : (-1074 <= e)%Z -> Rabs v <= bpow radix2 e -> Rabs (b64 v) <= bpow radix2 e.
Proof.
  intros He H. apply abs_round_le_generic; auto; [apply FLT_exp_valid; reflexivity|apply _|]. apply generic_format_bpow. unfold FLT_exp. lia.
Qed.
Definition below (e : Z) (x : PrimFloat.float) : Prop := finiteF x = true /\ Rabs (FR x) <= bpow radix2 e.
Lemma below_weaken e e' x : (e <= e')%Z -> below e x -> below e' x.
Proof. intros L [F B]. split; auto. eapply Rle_trans; [exact B|]. apply bpow_le. auto. Qed.
Lemma bp1 e : bpow radix2 (e + 1) = 2 * bpow radix2 e.
Proof. rewrite bpow_plus. simpl (bpow radix2 1). lra. Qed.
Lemma add_below e x y : (-1074 <= e <= 1022)%Z -> below e x -> below e y -> below (e + 1) (PrimFloat.add x y).
Proof.
  intros E [Fx Bx] [Fy By].
  assert (S : Rabs (FR x + FR y) <= bpow radix2 (e + 1)). { rewrite bp1. pose proof (Rabs_triang (FR x) (FR y)). lra. }
  apply b64_le in S; [|lia].
  assert (F : finiteF (PrimFloat.add x y) = true).
  { unfold finiteF. rewrite add_equiv. pose proof (Bplus_correct prec emax Hprec Hmax mode_NE (Prim2B x) (Prim2B y) Fx Fy) as C.
    rewrite Rlt_bool_true in C; [exact (proj1 (proj2 C))|]. eapply Rle_lt_trans; [exact S|]. apply bpow_lt. unfold emax. lia. }
  split; auto. destruct (add_fin _ _ F) as (_ & _ & ->). exact S.
Qed.
Lemma sub_below e x y : (-1074 <= e <= 1022)%Z -> below e x -> below e y -> below (e + 1) (PrimFloat.sub x y).
Proof.
  intros E [Fx Bx] [Fy By].
  assert (S : Rabs (FR x - FR y) <= bpow radix2 (e + 1)). { rewrite bp1. pose proof (Rabs_triang (FR x) (- FR y)) as T. rewrite Rabs_Ropp in T. unfold Rminus. lra. }
  apply b64_le in S; [|lia].
  assert (F : finiteF (PrimFloat.sub x y) = true).
  { unfold finiteF. rewrite sub_equiv. pose proof (Bminus_correct prec emax Hprec Hmax mode_NE (Prim2B x) (Prim2B y) Fx Fy) as C.
    rewrite Rlt_bool_true in C; [exact (proj1 (proj2 C))|]. eapply Rle_lt_trans; [exact S|]. apply bpow_lt. unfold emax. lia. }
  split; auto. destruct (sub_fin _ _ F) as (_ & _ & ->). exact S.
Qed.
Lemma mul_below e e' x y : (-1074 <= e + e' <= 1023)%Z -> below e x -> below e' y -> below (e + e') (PrimFloat.mul x y).
Proof.
  intros E [Fx Bx] [Fy By].
  assert (S : Rabs (FR x * FR y) <= bpow radix2 (e + e')). { rewrite Rabs_mult, bpow_plus. apply Rmult_le_compat; auto using Rabs_pos. }
  apply b64_le in S; [|lia].
  assert (F : finiteF (PrimFloat.mul x y) = true).
  { unfold finiteF. rewrite mul_equiv. pose proof (Bmult_correct prec emax Hprec Hmax mode_NE (Prim2B x) (Prim2B y)) as C.
    rewrite Rlt_bool_true in C.
    - destruct C as (_ & -> & _). apply andb_true_iff. auto.
    - eapply Rle_lt_trans; [exact S|]. apply bpow_lt. unfold emax. lia. }
  split; auto. destruct (mul_fin _ _ F) as (_ & _ & ->). exact S.
Qed.
Lemma TwoSum_below a b : below 1000 a -> below 1000 b -> finiteF (snd (@TwoSum _ F_num a b)) = true.
Proof.
  intros A B. unfold TwoSum. cbv zeta. cbn [fst snd nadd nsub F_num].
  assert (X : below 1001 (PrimFloat.add a b)) by (apply (add_below 1000); auto; lia).
  assert (V : below 1002 (PrimFloat.sub (PrimFloat.add a b) a)) by (apply (sub_below 1001); auto; [lia|apply (below_weaken 1000); auto; lia]).
  assert (U : below 1003 (PrimFloat.sub (PrimFloat.add a b) (PrimFloat.sub (PrimFloat.add a b) a))) by (apply (sub_below 1002); auto; [lia|apply (below_weaken 1001); auto; lia]).
  refine (proj1 (add_below 1004 _ _ _ _ _)); [lia| |].
  - apply (sub_below 1003); auto; [lia|apply (below_weaken 1000); auto; lia].
  - apply (below_weaken 1003); [lia|]. apply (sub_below 1002); auto; [lia|apply (below_weaken 1000); auto; lia].
Qed.
Lemma splitc_below : below 28 (@nlit _ F_num 134217729 1).
Proof.
  split; [vm_compute; reflexivity|]. rewrite F_splitc, split_const. rewrite Rabs_pos_eq; simpl bpow; lra.
Qed.
Lemma Split_below e a : (0 <= e <= 900)%Z -> below e a -> below (e + 30) (fst (@Split _ F_num a)) /\ below (e + 31) (snd (@Split _ F_num a)).
Proof.
  intros E A. pose proof splitc_below as Kb. unfold Split. cbv zeta. set (K := @nlit _ F_num 134217729 1) in *. cbn [fst snd nmul nsub F_num].
  assert (C : below (e + 28) (PrimFloat.mul K a)) by (rewrite Z.add_comm; apply mul_below; auto; lia).
  assert (D : below (e + 28 + 1) (PrimFloat.sub (PrimFloat.mul K a) a)) by (apply sub_below; auto; [lia|apply (below_weaken e); auto; lia]).
  assert (X : below (e + 28 + 1 + 1) (PrimFloat.sub (PrimFloat.mul K a) (PrimFloat.sub (PrimFloat.mul K a) a))) by (apply sub_below; auto; [lia|apply (below_weaken (e + 28)); auto; lia]).
  split; [apply (below_weaken (e + 28 + 1 + 1)); auto; lia|].
  apply (below_weaken (e + 28 + 1 + 1 + 1)); [lia|]. apply sub_below; auto; [lia|apply (below_weaken e); auto; lia].
Qed.
Lemma TwoProd_below a b : below 450 a -> below 450 b -> finiteF (snd (@TwoProd _ F_num a b)) = true.
Proof.
  intros A B. unfold TwoProd. cbv zeta. destruct (Split_below 450 a ltac:(lia) A) as [A1 A2], (Split_below 450 b ltac:(lia) B) as [B1 B2].
  destruct (@Split _ F_num a) as [a1 a2], (@Split _ F_num b) as [b1 b2]. cbn [fst snd] in *. cbn [nmul nsub F_num].
  assert (X : below 900 (PrimFloat.mul a b)) by (apply (mul_below 450 450); auto; lia).
  assert (M11 : below 960 (PrimFloat.mul a1 b1)) by (apply (mul_below 480 480); auto; lia).
  assert (M21 : below 961 (PrimFloat.mul a2 b1)) by (apply (mul_below 481 480); auto; lia).
  assert (M12 : below 961 (PrimFloat.mul a1 b2)) by (apply (mul_below 480 481); auto; lia).
  assert (M22 : below 962 (PrimFloat.mul a2 b2)) by (apply (mul_below 481 481); auto; lia).
  set (x := PrimFloat.mul a b) in *. set (m11 := PrimFloat.mul a1 b1) in *. set (m21 := PrimFloat.mul a2 b1) in *. set (m12 := PrimFloat.mul a1 b2) in *. set (m22 := PrimFloat.mul a2 b2) in *.
  assert (U : below 961 (PrimFloat.sub x m11)) by (apply (sub_below 960); auto; [lia|apply (below_weaken 900); auto; lia]).
  assert (V : below 962 (PrimFloat.sub (PrimFloat.sub x m11) m21)) by (apply (sub_below 961); auto; lia).
  assert (W : below 963 (PrimFloat.sub (PrimFloat.sub (PrimFloat.sub x m11) m21) m12)) by (apply (sub_below 962); auto; [lia|apply (below_weaken 961); auto; lia]).
  refine (proj1 (sub_below 963 _ _ _ _ _)); auto; [lia|]. apply (below_weaken 962); auto; lia.
Qed.
