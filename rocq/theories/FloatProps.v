(** * Property theorems C96: the constant-term check in binary64 arithmetic

    The code is run on binary64 numbers ([PrimFloat.float]); [FR x] is the real number the float [x] stands for. *)
From Coq Require Import List Arith Bool ZArith Reals Lra Lia Permutation.
From Coq Require Import Floats.
From Flocq Require Import Core.
From Flocq.IEEE754 Require Import BinarySingleNaN PrimFloat.
From Verif Require Import Num RSum Cheb Tensor PolySpec SystemSpec IntervalModel LinearModel LinearProofs EftProofs FloatSpec FloatCheck SolverModel CombinedModel.
From Coq Require Import List.
Import ListNotations.
Local Open Scope R_scope.

Definition noF : tensor PrimFloat.float := mkT [] [].

(** One polynomial, the sum of the absolute values being computed in whatever order np.sum chooses. *)
Theorem C96_any_summation_order :
  forall (n : nat) (M : tensor PrimFloat.float) (e s : PrimFloat.float) (bound : R) (f : list R -> R),
    wf M -> ndim M = n -> Forall (fun a => finiteF a = true) (dat M) -> finiteF e = true -> 0 <= FR e ->
    floatSum (map PrimFloat.abs (dat M)) s ->
    (forall x, in_cube n x -> Rabs (f x - cheb_eval (realPoly M) x) <= bound) ->
    bound + (INR (length (dat M)) + 2) * bpow radix2 (-53) * (sumabs (realPoly M) + FR e) <= FR e ->
    (let c := nth 0 (dat M) 0%float in ((s - abs c) + e <? abs c)%float = true) ->
    forall x, in_cube n x -> f x <> 0.
Proof.
  intros n M e s bound f Hw Hd HF Fe Pe Hs Hb Hm Ht x Hx H0. cbv zeta in Ht.
  assert (HwR : wf (realPoly M)) by (unfold wf, realPoly; cbn [shp dat]; rewrite map_length; exact Hw).
  pose proof (const_root (realPoly M) HwR x (f x) bound) as H. change (ndim (realPoly M)) with (ndim M) in H. rewrite Hd in H. specialize (H Hx (Hb x Hx) H0).
  assert (ES : sumR (map PrimFloat.abs (dat M)) = sumabs (realPoly M)).
  { rewrite <- tsumabs_R by exact HwR. unfold tsumabs, nsumabs. rewrite nsum_R. unfold sumR, realPoly. cbn [dat]. rewrite !map_map. f_equal. apply map_ext_in.
    intros a Ha. rewrite Forall_forall in HF. rnum. apply abs_fin. auto. }
  destruct (dat M) as [|c l] eqn:ED.
  { cbn [nth] in Ht. assert (A : PrimFloat.abs 0%float = 0%float) by (vm_compute; reflexivity). rewrite A in Ht. inversion Hs; subst.
    - replace (0 - 0)%float with 0%float in Ht by (vm_compute; reflexivity). destruct (add_pos 0%float e) as [[P1 P2]|I]; try (split; auto; vm_compute; reflexivity || rewrite FR_0; lra).
      + split; [vm_compute; reflexivity|rewrite FR_0; lra].
      + apply ltb_fin in Ht; [|apply P1|vm_compute; reflexivity]. rewrite FR_0 in Ht. destruct P1. lra.
      + rewrite ltb_inf in Ht; [discriminate|auto|vm_compute; reflexivity].
    - destruct (floatSum_bound [] (PrimFloat.add s1 s2)) as [I|(P1 & _ & _ & P2)]; auto.
      + rewrite ltb_inf in Ht; [discriminate| |vm_compute; reflexivity]. apply add_inf_l; auto. apply sub_inf_l; auto.
      + assert (P0 : posF 0%float) by (split; [vm_compute; reflexivity|rewrite FR_0; lra]).
        destruct (sub_pos _ 0%float P1 P0) as [P3 E3]; [rewrite FR_0, (P2 eq_refl); lra|].
        destruct (add_pos _ e P3) as [[P4 E4]|I]; [split; auto| |].
        * apply ltb_fin in Ht; [|apply P4|vm_compute; reflexivity]. rewrite FR_0 in Ht. destruct P4. lra.
        * rewrite ltb_inf in Ht; [discriminate|auto|vm_compute; reflexivity]. }
  cbn [nth] in Ht. pose proof (const_float (c :: l) c s e HF (or_introl eq_refl) (conj Fe Pe) Hs Ht) as C. rewrite ES in C. unfold u64 in C.
  assert (EC : tconst (realPoly M) = FR c) by (unfold tconst, realPoly; cbn [dat]; rewrite ED; reflexivity).
  change (@tconst R R_num (realPoly M)) with (tconst (realPoly M)) in H. rewrite EC in H. lra.
Qed.
Print Assumptions C96_any_summation_order.

(** The check of the solver on a whole system: if every error bound [errs[i]] exceeds the true error [bounds[i]]
    by the margin (k+2) 2^-53 (sum|M| + e), k the number of coefficients, then a box that is discarded holds
    no common zero. *)
Theorem C96_constant_check_is_safe_with_a_margin :
  forall (n : nat) (Ms : list (tensor PrimFloat.float)) (errs : list PrimFloat.float) (bounds : list R) (fs : nat -> list R -> R),
    squareSystem n (map realPoly Ms) bounds -> length errs = n ->
    Forall (fun M => Forall (fun a => finiteF a = true) (dat M)) Ms -> Forall (fun e => finiteF e = true /\ 0 <= FR e) errs ->
    approximates n fs (map realPoly Ms) bounds ->
    (forall i, (i < n)%nat -> let M := nth i Ms noF in let e := FR (nth i errs 0%float) in
       nth i bounds 0 + (INR (length (dat M)) + 2) * bpow radix2 (-53) * (sumabs (realPoly M) + e) <= e) ->
    @constantCheck _ F_num Ms errs = true ->
    exists i, (i < n)%nat /\ forall x, in_cube n x -> fs i x <> 0.
Proof.
  intros n Ms errs bounds fs (Hn & HM & Hbl & HMs) Hel HF HE Hap Hm Hc. rewrite map_length in HM.
  unfold constantCheck in Hc. apply existsb_exists in Hc. destruct Hc as ([M e] & Hin & Hc).
  destruct (In_nth _ _ (noF, 0%float) Hin) as (i & Hi & E). rewrite combine_length in Hi. rewrite combine_nth in E by lia. injection E as E1 E2.
  exists i. split; [lia|]. specialize (Hm i ltac:(lia)). cbv zeta in Hm. specialize (Hap i). rewrite map_length in Hap. specialize (Hap ltac:(lia)).
  rewrite Forall_forall in HMs, HF, HE. 
  assert (IM : In M Ms) by (rewrite <- E1; apply nth_In; lia). destruct (HE e) as [Fe Pe]; [rewrite <- E2; apply nth_In; lia|].
  destruct (HMs (realPoly M)) as [Hw Hd]; [apply in_map; auto|].
  assert (EM : nth i (map realPoly Ms) noT = realPoly M). { rewrite nth_indep with (d' := realPoly noF) by (rewrite map_length; lia). rewrite map_nth, E1. reflexivity. }
  rewrite E1, E2 in Hm. rewrite EM in Hap.
  apply (C96_any_summation_order n M e (@nsum _ F_num (map PrimFloat.abs (dat M))) (nth i bounds 0)); auto.
  - unfold wf, realPoly in Hw. cbn [shp dat] in Hw. rewrite map_length in Hw. exact Hw.
  - apply nsum_floatSum.
Qed.
Print Assumptions C96_constant_check_is_safe_with_a_margin.

(** 1 + 2^-52 + T_2 - 2^-52 T_4 + 2^-52 T_6, a polynomial with binary64 coefficients *)
Definition lossPoly : tensor PrimFloat.float := mkT [7%nat] [0x1.0000000000001p0; 0; 1; 0; -0x1p-52; 0; 0x1p-52]%float.
(** 3 + T_1 with error bound 2^-40: discarded, with the margin for every true error up to 2^-41 *)
Definition safePoly : tensor PrimFloat.float := mkT [2%nat] [3; 1]%float.

Lemma FR_pos f m e : Prim2SF f = S754_finite false m e -> FR f = IZR (Zpos m) * bpow radix2 e.
Proof. intros H. unfold FR. rewrite <- SF2R_B2SF. rewrite B2SF_Prim2B, H. reflexivity. Qed.
Lemma FR_neg f m e : Prim2SF f = S754_finite true m e -> FR f = - (IZR (Zpos m) * bpow radix2 e).
Proof. intros H. unfold FR. rewrite <- SF2R_B2SF. rewrite B2SF_Prim2B, H. cbn [SF2R]. unfold F2R. cbn [Fnum Fexp cond_Zopp]. change (Z.neg m) with (- Z.pos m)%Z. rewrite opp_IZR. ring. Qed.
Ltac frval := first [apply FR_0 | erewrite FR_pos by (vm_compute; reflexivity); simpl bpow; lra | erewrite FR_neg by (vm_compute; reflexivity); simpl bpow; lra].
Lemma loss_value x : cheb_eval (realPoly lossPoly) [x] =
  (1 + / 4503599627370496) + (2 * x * x - 1) - / 4503599627370496 * (8 * x * x * x * x - 8 * x * x + 1)
  + / 4503599627370496 * (32 * x * x * x * x * x * x - 48 * x * x * x * x + 18 * x * x - 1).
Proof.
  unfold realPoly, lossPoly. cbn [shp dat map].
  assert (E1 : FR 0x1.0000000000001p0 = 1 + / 4503599627370496) by frval. assert (E2 : FR 1 = 1) by frval.
  assert (E3 : FR (-0x1p-52) = - / 4503599627370496) by frval. assert (E4 : FR 0x1p-52 = / 4503599627370496) by frval.
  rewrite E1, E2, E3, E4, FR_0. unfold cheb_eval, sumidx, basis. cbn. ring.
Qed.

(** The error bound that solve itself uses for a polynomial, 2^-52, leaves no such margin: the polynomial above
    has two zeros inside [-1, 1] but solve reports none, whatever the external routines do. *)
Theorem C96_solve_loses_zeros_refuted :
  (forall (X : ext PrimFloat.float) approx exact minSize sfuel fuel,
     @solveTop _ F_num X approx exact minSize (S sfuel) (S fuel) (FMany [MCheb lossPoly]) (BScalar (-1)%float) (BScalar 1%float)
     = COk (mkOut [] [] [([(-1)%float], [1%float])])) /\
  (exists x y, -1 < x < 0 /\ 0 < y < 1 /\ cheb_eval (realPoly lossPoly) [x] = 0 /\ cheb_eval (realPoly lossPoly) [y] = 0) /\
  wf lossPoly /\ Forall (fun a => finiteF a = true) (dat lossPoly).
Proof.
  split; [|split; [|split]].
  - intros. vm_compute. reflexivity.
  - pose (f := fun x => (1 + / 4503599627370496) + (2 * x * x - 1) - / 4503599627370496 * (8 * x * x * x * x - 8 * x * x + 1)
        + / 4503599627370496 * (32 * x * x * x * x * x * x - 48 * x * x * x * x + 18 * x * x - 1)).
    assert (C : continuity f) by (intros x; apply derivable_continuous_pt; unfold f; reg).
    assert (L : f (-1) > 0) by (unfold f; lra). assert (M : f 0 < 0) by (unfold f; lra). assert (N : f 1 > 0) by (unfold f; lra).
    destruct (IVT f 0 1 C ltac:(lra) M N) as (y & Hy & Ey).
    assert (C' : continuity (fun x => - f x)) by (apply (continuity_opp f); exact C).
    destruct (IVT (fun x => - f x) (-1) 0 C' ltac:(lra) ltac:(lra) ltac:(lra)) as (x & Hx & Ex).
    exists x, y. assert (f x = 0) by lra.
    split; [destruct Hx as [[H1|H1] [H2|H2]]; subst; lra|]. split; [destruct Hy as [[H1|H1] [H2|H2]]; subst; lra|]. rewrite !loss_value. auto.
  - split; [reflexivity|repeat constructor].
  - repeat constructor; vm_compute; reflexivity.
Qed.
Print Assumptions C96_solve_loses_zeros_refuted.

(** 3 + T_1 with the error bound 2^-40 meets the hypotheses for every function within 2^-41, and is discarded *)
Example C96_case : squareSystem 1 (map realPoly [safePoly]) [bpow radix2 (-41)] /\
  Forall (fun M => Forall (fun a => finiteF a = true) (dat M)) [safePoly] /\ Forall (fun e => finiteF e = true /\ 0 <= FR e) [0x1p-40%float] /\
  approximates 1 (fun _ x => cheb_eval (realPoly safePoly) x + bpow radix2 (-41)) (map realPoly [safePoly]) [bpow radix2 (-41)] /\
  (forall i, (i < 1)%nat -> let M := nth i [safePoly] noF in let e := FR (nth i [0x1p-40%float] 0%float) in
     nth i [bpow radix2 (-41)] 0 + (INR (length (dat M)) + 2) * bpow radix2 (-53) * (sumabs (realPoly M) + e) <= e) /\
  @constantCheck _ F_num [safePoly] [0x1p-40%float] = true.
Proof.
  assert (E1 : FR 0x1p-40 = / 1099511627776) by frval. assert (E2 : FR 3 = 3) by frval. assert (E3 : FR 1 = 1) by frval.
  split; [|split; [|split; [|split; [|split]]]].
  - repeat split; auto. repeat constructor.
  - repeat constructor; vm_compute; reflexivity.
  - constructor; [|constructor]. split; [vm_compute; reflexivity|rewrite E1; lra].
  - intros i Hi x Hx. cbn in Hi. assert (i = 0)%nat as -> by lia. cbn [map nth].
    match goal with |- Rabs (?a + ?b - ?a) <= _ => replace (a + b - a) with b by ring end. rewrite Rabs_pos_eq by apply bpow_ge_0. lra.
  - intros i Hi. assert (i = 0)%nat as -> by lia. cbv zeta. cbn [nth]. rewrite E1.
    assert (ER : realPoly safePoly = mkT [2%nat] [3; 1]) by (unfold realPoly, safePoly; cbn [map shp dat]; rewrite E2, E3; reflexivity).
    rewrite ER. unfold sumabs, safePoly. cbn. rewrite !Rabs_pos_eq by lra. lra.
  - vm_compute. reflexivity.
Qed.
