(** * Property theorems C105: trim_coeffs of subdivision.py *)
From Coq Require Import List Arith Bool ZArith Reals Lra Lia.
From Verif Require Import Num RSum Cheb Tensor PolySpec TransformChebProofs PartProofs TrimcModel TrimcProofs.
Import ListNotations.
Local Open Scope R_scope.

(** mon_combos_limited([0]*n, d, shape) lists every exponent vector of degree d that fits into the shape, once. *)
Theorem C105_monomials_of_one_degree :
  forall (shape : list nat) (d : nat), shape <> [] -> Forall (fun s => (1 <= s)%nat) shape ->
    exists answers, mon_combos_limited (length shape) d shape = Some answers /\ NoDup answers /\
      forall v, In v answers <-> Forall2 lt v shape /\ list_sum v = d.
Proof.
  intros sh d Hn Hp. exists (enumL sh d). split; [apply limited_eq; auto|]. split; [apply enumL_NoDup|]. intros v. apply enumL_In; auto.
Qed.
Print Assumptions C105_monomials_of_one_degree.
Example C105_monomials_case : mon_combos_limited 3 2 [2; 3; 2]%nat = Some [[0; 1; 1]; [0; 2; 0]; [1; 0; 1]; [1; 1; 0]]%nat.
Proof. reflexivity. Qed.

(** Coefficient arrays of n variables with the same number of entries, at least 3, along every axis. *)
Definition squareArray (n : nat) (M : tensor R) : Prop := wf M /\ exists side, (3 <= side)%nat /\ shp M = repeat side n.
Definition sideOf (M : tensor R) : nat := nth 0 (shp M) 0%nat.
(** the coefficient of the product of the highest polynomials of all variables *)
Definition topCoeff (M : tensor R) : R := tget M (repeat (sideOf M - 1)%nat (ndim M)).
(** the sum of |coefficient| over the entries of total degree d *)
Definition degreeSum (M : tensor R) (d : nat) : R :=
  Rsum (map (fun idx => Rabs (tget M idx)) (filter (fun idx => list_sum idx =? d)%nat (indices (shp M)))).

(** One array.  [allowed] is abs_approx_tol + rel_approx_tol * inf_norm. *)
Record trimmedTo (n : nat) (M : tensor R) (e allowed : R) (M' : tensor R) (e' : R) : Prop := {
  tt_side : exists side', (2 <= side' <= sideOf M)%nat /\ shp M' = repeat side' n;
  tt_error : e <= e' <= allowed;
  (* the function changes by no more than the growth of the error, apart from the top coefficient *)
  tt_value : forall x, in_cube n x ->
    Rabs (cheb_eval M' x - cheb_eval M x) <= e' - e + (if (sideOf M' <? sideOf M)%nat then Rabs (topCoeff M) else 0);
  tt_low : forall idx, inrange (shp M') idx -> (list_sum idx < sideOf M')%nat -> tget M' idx = tget M idx;
  tt_high : forall idx, inrange (shp M') idx -> (sideOf M' <= list_sum idx)%nat -> tget M' idx = 0 \/ (sideOf M' = sideOf M /\ idx = repeat (sideOf M - 1)%nat n);
  (* no further degree could be cut *)
  tt_maximal : sideOf M' = 2%nat \/ allowed < e' + degreeSum M (sideOf M' - 1) }.

Lemma side_repeat (M : tensor R) k n : (1 <= n)%nat -> shp M = repeat k n -> sideOf M = k.
Proof. intros Hn E. unfold sideOf. rewrite E. destruct n; [lia|reflexivity]. Qed.
Lemma one_array n M e allowed : (2 <= n)%nat -> squareArray n M -> exists M' good e', trimOne M e allowed = Some (M', good, e') /\
  if good then trimmedTo n M e allowed M' e' else M' = M /\ e <= e' /\ allowed < e'.
Proof.
  intros Hn (Hw & s & Hs & HM). destruct (trimOne_spec n s M Hn Hs HM e allowed) as (M' & good & e' & E & H). exists M', good, e'. split; auto. destruct good.
  - destruct H as (k & Hk & F). pose proof F as (F1 & F2 & F3 & F4 & F5). pose proof (side_repeat M s n ltac:(lia) HM) as S1. pose proof (side_repeat M' (k + 1) n ltac:(lia) F1) as S2.
    assert (ND : ndim M = n) by (unfold ndim; rewrite HM; apply repeat_length).
    constructor.
    + exists (k + 1)%nat. split; [lia|auto].
    + unfold cutError in F3. pose proof (absum_nonneg M (dropped n s k)). split; lra.
    + intros x Hx. pose proof (value_bound n s M Hn Hs HM k e allowed M' e' x Hw Hk F Hx) as V. unfold topCoeff. rewrite S1, S2, ND. unfold cornerIdx in V.
      replace (k + 1 <? s)%nat with (k <? s - 1)%nat; [auto|]. destruct (Nat.ltb_spec k (s - 1)), (Nat.ltb_spec (k + 1) s); auto; lia.
    + intros idx Hr Hl. rewrite F1 in Hr. rewrite F2 by auto. rewrite S2 in Hl. unfold dropped. assert ((k <? list_sum idx)%nat = false) as -> by (apply Nat.ltb_ge; lia). reflexivity.
    + intros idx Hr Hl. rewrite F1 in Hr. rewrite F2 by auto. rewrite S2 in Hl. unfold dropped. assert ((k <? list_sum idx)%nat = true) as -> by (apply Nat.ltb_lt; lia). cbn [andb].
      destruct (isCorner n s idx) eqn:X; cbn [negb]; auto. right. apply idxEqb_true in X. subst idx. rewrite S1, S2. split; auto.
      apply inCube in Hr. destruct Hr as [_ Hr]. unfold cornerIdx in Hr. destruct n; [lia|]. cbn [repeat] in Hr. inversion Hr; lia.
    + rewrite S2. replace (k + 1 - 1)%nat with k by lia. destruct F5 as [->|F5]; [left; reflexivity|right]. unfold degreeSum. rewrite Rsum_select. exact F5.
  - destruct H as (-> & E1 & E2). unfold cutError in E1. pose proof (absum_nonneg M (dropped n s (s - 1))). repeat split; auto. lra.
Qed.

(** trim_coeffs(coeffs, abs_approx_tol, rel_approx_tol, inf_norms, errors): each array is either left alone with an error
    above its tolerance, or trimmed; the flag says that all were trimmed. *)
Theorem C105_trimming_accounts_up_to_the_top_coefficient :
  forall (n : nat) (abs_tol rel_tol : R) (coeffs : list (tensor R)) (inf_norms errors : list R),
    (2 <= n)%nat -> Forall (squareArray n) coeffs -> length inf_norms = length coeffs -> length errors = length coeffs ->
    exists coeffs' good errors', trim_coeffs coeffs abs_tol rel_tol inf_norms errors = Some (coeffs', good, errors') /\
      length coeffs' = length coeffs /\ length errors' = length coeffs /\
      (forall i, (i < length coeffs)%nat ->
        let M := nth i coeffs (mkT [] []) in let M' := nth i coeffs' (mkT [] []) in
        let e := nth i errors 0 in let e' := nth i errors' 0 in let allowed := abs_tol + rel_tol * nth i inf_norms 0 in
        trimmedTo n M e allowed M' e' \/ (good = false /\ M' = M /\ e <= e' /\ allowed < e')) /\
      (good = true <-> forall i, (i < length coeffs)%nat -> nth i errors' 0 <= abs_tol + rel_tol * nth i inf_norms 0).
Proof.
  intros n at_ rt coeffs. induction coeffs as [|M Ms IH]; intros ns es Hn HF Ln Le.
  - exists [], true, []. split; [reflexivity|]. do 2 (split; auto). split; [cbn; intros; lia|]. split; auto. cbn; intros; lia.
  - destruct ns as [|nrm ns]; [discriminate|]. destruct es as [|e es]; [discriminate|]. inversion HF as [|? ? H1 H2]; subst. cbn [length] in Ln, Le.
    destruct (IH ns es Hn H2 ltac:(lia) ltac:(lia)) as (Ms' & goods & es' & E & L1 & L2 & HI & HG).
    destruct (one_array n M e (at_ + rt * nrm) Hn H1) as (M' & good & e' & E1 & HO).
    exists (M' :: Ms'), (good && goods)%bool, (e' :: es'). split.
    { cbn [trim_coeffs]. rnum. rewrite E1, E. reflexivity. }
    split; [cbn; lia|]. split; [cbn; lia|]. split.
    + intros [|i] Hi; cbn [nth]; cbv zeta.
      * destruct good; [left; auto|right; split; auto].
      * cbn in Hi. destruct (HI i ltac:(lia)) as [T|(G & T)]; [left; auto|right]. rewrite G, andb_false_r. auto.
    + split.
      * intros G. apply andb_prop in G. destruct G as [G1 G2]. subst good. destruct HO as [_ [_ HO] _ _ _ _]. intros [|i] Hi; cbn [nth]; auto. apply (proj1 HG); auto. cbn in Hi; lia.
      * intros A. apply andb_true_intro. split.
        -- destruct good; auto. destruct HO as (_ & _ & HO). specialize (A 0%nat ltac:(cbn; lia)). cbn [nth] in A. lra.
        -- apply HG. intros i Hi. apply (A (S i)). cbn; lia.
Qed.
Print Assumptions C105_trimming_accounts_up_to_the_top_coefficient.

(** ** the documented accounting is wrong *)
Definition spike (c : R) : tensor R := mkT [3; 3]%nat [0; 0; 0; 1; 0; 0; 0; 0; c].
Lemma spike_square c : squareArray 2 (spike c).
Proof. split; [split; [reflexivity|repeat constructor]|]. exists 3%nat. split; [lia|reflexivity]. Qed.
Lemma spike_result c : exists M', trimOne (spike c) 0 (1 / 1000000000000) = Some (M', true, 0) /\ cheb_eval M' [1; 1] = 1.
Proof.
  destruct (trimOne_spec 2 3 (spike c) ltac:(lia) ltac:(lia) eq_refl 0 (1 / 1000000000000)) as (M' & good & e' & E & H). exists M'.
  assert (Z : forall P : list nat -> bool, (forall idx, inrange [3; 3]%nat idx -> P idx = true -> tget (spike c) idx = 0) -> absum (spike c) P = 0).
  { intros P HP. unfold absum. rewrite (Rsum_map_ext _ (fun _ => 0)); [clear; induction (indices (shp (spike c))) as [|i l IH]; [reflexivity|cbn [map]; unfold Rsum in *; cbn [fold_right]; rewrite IH; ring]|].
    intros idx Hi. apply in_indices in Hi. destruct (P idx) eqn:X; auto. rewrite HP by auto. apply Rabs_R0. }
  assert (D : forall k, (1 <= k)%nat -> absum (spike c) (dropped 2 3 k) = 0).
  { intros k Hk. apply Z. intros idx Hr Hd. unfold dropped in Hd. apply andb_prop in Hd. destruct Hd as [Hd1 Hd2]. apply Nat.ltb_lt in Hd1.
    inversion Hr as [|i ? l ? Hi Hl]; subst. inversion Hl as [|j ? l2 ? Hj Hl2]; subst. inversion Hl2; subst.
    destruct i as [|[|[|i]]]; destruct j as [|[|[|j]]]; try lia; cbn in *; try reflexivity; try lia; discriminate. }
  destruct good.
  - destruct H as (k & Hk & F1 & F2 & F3 & F4 & F5). unfold cutError in *. rewrite D in F3 by lia. assert (k = 1%nat) as ->.
    { destruct (Nat.eq_dec k 1) as [|Hk1]; auto. exfalso. destruct F5 as [F5|F5]; [lia|]. assert (K : k = 2%nat) by lia. rewrite K in F5.
      rewrite Z in F5; [lra|]. intros idx Hr Hd. apply Nat.eqb_eq in Hd. inversion Hr as [|i ? l ? Hi Hl]; subst. inversion Hl as [|j ? l2 ? Hj Hl2]; subst. inversion Hl2; subst.
      destruct i as [|[|[|i]]]; destruct j as [|[|[|j]]]; try lia; cbn in *; try reflexivity; try lia. }
    assert (e' = 0) as -> by lra. split; auto. unfold cheb_eval. rewrite F1. cbn [Nat.add repeat indices flat_map seq map List.app Rsum fold_right].
    rewrite !F2 by (repeat constructor). cbn [dropped list_sum fold_right Nat.add Nat.ltb Nat.leb andb]. unfold dropped. cbn [list_sum fold_right Nat.add Nat.ltb Nat.leb andb].
    replace (negb (isCorner 2 3 [1; 1]%nat)) with true by reflexivity. cbn. rewrite ?chebT_0, ?chebT_1. lra.
  - destruct H as (_ & H1 & H2). unfold cutError in H1. rewrite D in H1 by lia. lra.
Qed.
(** However large c is, x + c T_2(x) T_2(y) comes back as x with error 0. *)
Theorem C105_reported_error_covers_the_trimming_refuted :
  forall c : R, 0 < c -> exists (M M' : tensor R) (e e' : R) (x : list R),
    squareArray 2 M /\ in_cube 2 x /\ 0 <= e /\
    trim_coeffs [M] (1 / 1000000000000) 0 [c] [e] = Some ([M'], true, [e']) /\
    Rabs (cheb_eval M' x - cheb_eval M x) = e' + c.
Proof.
  intros c Hc. destruct (spike_result c) as (M' & E & V). exists (spike c), M', 0, 0, [1; 1]. split; [apply spike_square|]. split; [split; [reflexivity|repeat constructor; lra]|]. split; [lra|]. split.
  - cbn [trim_coeffs]. rnum. replace (1 / 1000000000000 + 0 * c) with (1 / 1000000000000) by ring. rewrite E. reflexivity.
  - rewrite V. unfold cheb_eval, spike. cbn [shp indices flat_map seq map List.app Rsum fold_right basis]. unfold tget. cbn [shp dat ravel_index prodn fold_right Nat.mul Nat.add nth].
    rewrite ?chebT_0, ?chebT_1, ?chebT_2. rewrite Rabs_left; lra.
Qed.
Print Assumptions C105_reported_error_covers_the_trimming_refuted.

(** A 2 x 2 array (degree 1 in each variable) is never kept: the list of monomials to cut is empty, numpy takes the empty
    index for the whole array, and the array is rejected or comes back as zero. *)
Theorem C105_linear_arrays_are_erased :
  forall (c00 c01 c10 c11 e allowed : R),
    trimOne (mkT [2; 2]%nat [c00; c01; c10; c11]) e allowed =
      let total := e + (Rabs c00 + Rabs c01 + Rabs c10 + Rabs c11) in
      if Rlt_dec allowed total then Some (mkT [2; 2]%nat [c00; c01; c10; c11], false, total)
      else Some (mkT [2; 2]%nat [0; 0; 0; 0], true, total).
Proof.
  intros. unfold trimOne. cbn [shp]. replace (highMons _) with (Some (@nil (list nat))) by reflexivity. cbn [sumAt]. unfold tsumabs, nsumabs. rewrite nsum_R. rnum. cbn [dat map fold_right].
  replace (e + (Rabs c00 + (Rabs c01 + (Rabs c10 + (Rabs c11 + 0))))) with (e + (Rabs c00 + Rabs c01 + Rabs c10 + Rabs c11)) by ring.
  unfold ngtb. rnum. cbv zeta. destruct (Rlt_dec allowed (e + (Rabs c00 + Rabs c01 + Rabs c10 + Rabs c11))) as [H|H].
  - rewrite (proj2 (Rltb_true _ _)) by auto. reflexivity.
  - rewrite (proj2 (Rltb_false _ _)) by lra. reflexivity.
Qed.
Print Assumptions C105_linear_arrays_are_erased.
Example C105_linear_case : trimOne (mkT [2; 2]%nat [0; 1; 1; 0]) 0 3 = Some (mkT [2; 2]%nat [0; 0; 0; 0], true, 2).
Proof. rewrite C105_linear_arrays_are_erased. cbv zeta. rewrite Rabs_R0, Rabs_R1. destruct Rlt_dec; [lra|]. do 2 f_equal. lra. Qed.
(** two arrays of a system: one trimmed to degree 1, one whose entries above the anti-diagonal are too large *)
Example C105_case : let M1 := mkT [3; 3]%nat [1; 2; 0; 3; 0; 0; 0; 0; 0] in let M2 := mkT [3; 3]%nat [1; 2; 0; 3; 0; 5; 0; 0; 0] in
  Forall (squareArray 2) [M1; M2] /\ ~ trimmedTo 2 M2 0 1 M2 5.
Proof.
  cbv zeta. split.
  - repeat constructor; cbn; try lia; exists 3%nat; split; auto.
  - intros [_ [_ H] _ _ _ _]. lra.
Qed.
