(** * One affine function of one variable: the run of the subdivision solver (over the reals) *)
From Coq Require Import List Arith Bool Lia ZArith Reals Lra Psatz.
From Flocq Require Import Core.Raux Core.Defs Core.Zaux.
From Coq Require Import List.
From Verif Require Import Num RSum Cheb Tensor PolySpec TransformModel TransformChebProofs IntervalModel IntervalProofs
  LinearModel LinearProofs QuadModel QuadNdFaces SolverModel SystemSpec OrderProofs SubdivProofs SubdivReal ZoomProofs SolverProofs.
Import ListNotations.
Local Open Scope R_scope.

Definition tens (c0 c1 : R) : tensor R := mkT [2%nat] [c0; c1].
Definition ww : R := 2 * / 2 ^ 52.

Lemma pow2fl_one m : 1 <= m < 2 -> Rpow2fl m = 1.
Proof.
  intros H. apply Rle_antisym; [apply pow2fl_le1; lra|]. pose proof (Rpow2fl_bounds m ltac:(lra)) as [H1 H2]. unfold Rpow2fl in *.
  assert (L : bpow radix2 (-1) < bpow radix2 (mag radix2 m - 1)) by (change (bpow radix2 (-1)) with (/ 2); lra).
  apply lt_bpow in L. change 1 with (bpow radix2 0). apply bpow_le. lia.
Qed.
Lemma row_lin c0 c1 e : @mkLRow R R_num (tens c0 c1, e) = mkRow [c1] c0 (Rabs c0 + Rabs c1 + e) e e.
Proof.
  unfold mkLRow, tens. unfold getLinearTerms, tconst, tsumabs, nsumabs. cbn. rnum. f_equal; ring.
Qed.
Lemma max1 (x : R) : @maxAbs R R_num [x] = Rabs x.
Proof. unfold maxAbs. cbn. reflexivity. Qed.
Lemma scale_lin c0 c1 e : c1 <> 0 -> exists s, 0 < s /\ 1 <= Rabs (c1 / s) < 2 /\
  @scaleRow R R_num (mkRow [c1] c0 (Rabs c0 + Rabs c1 + e) e e) = mkRow [c1 / s] (c0 / s) ((Rabs c0 + Rabs c1 + e) / s) (e / s) (e / s).
Proof.
  intros H. assert (P : 0 < Rabs c1) by (apply Rabs_pos_lt; auto). unfold scaleRow. cbn [lA lc ltot lerr le]. rewrite max1. unfold ngtb. rnum.
  replace (Rltb 0 (Rabs c1)) with true by (symmetry; apply Rltb_true; auto). rewrite Rabs_Rabsolu. exists (Rpow2fl (Rabs c1)).
  pose proof (Rpow2fl_bounds (Rabs c1) P) as [B1 B2]. pose proof (Rpow2fl_pos (Rabs c1)) as Hs. split; auto. split; [|reflexivity].
  unfold Rdiv. rewrite Rabs_mult, (Rabs_pos_eq (/ _)) by (left; apply Rinv_0_lt_compat; auto). split.
  - apply (Rmult_le_reg_r (Rpow2fl (Rabs c1))); auto. rewrite Rmult_assoc, Rinv_l; lra.
  - apply (Rmult_lt_reg_r (Rpow2fl (Rabs c1))); auto. rewrite Rmult_assoc, Rinv_l; lra.
Qed.
Lemma scaleCol_lin a c t e1 e2 : 1 <= Rabs a < 2 -> @scaleCol R R_num ([mkRow [a] c t e1 e2], [1]) 0 = ([mkRow [a] c t e1 e2], [1]).
Proof.
  intros H. unfold scaleCol. cbn [map lA nth]. rewrite max1. unfold ngtb. rnum.
  replace (Rltb 0 (Rabs a)) with true by (symmetry; apply Rltb_true; lra). rewrite Rabs_Rabsolu, (pow2fl_one (Rabs a)) by auto.
  cbn [lA lc ltot lerr le nth upd]. unfold Rdiv. rewrite Rinv_1. f_equal; [f_equal; f_equal; [f_equal|]; ring|f_equal; ring].
Qed.
Definition clip (v : R) : R := Rmax (-1) (Rmin 1 v).
Definition outside (lo hi : R) : bool := Rltb hi lo || Rltb 1 lo || Rltb hi (-1).
Lemma pass_lin c0 c1 er s : 0 < s -> c1 <> 0 -> 0 <= er ->
  @passBounds R R_num true [nsum [- (s / c1) * (c0 / s)]] [nsum [Rabs (s / c1 * (er / s))]] [1] ww
    (linearCheck1 [mkRow [c1 / s] (c0 / s) ((Rabs c0 + Rabs c1 + er) / s) (er / s) (er / s)] 1) =
  [(Some (- c0 / c1 - er / Rabs c1 - ww), Some (- c0 / c1 + er / Rabs c1 + ww))].
Proof.
  intros Hs Hc He. assert (P : 0 < Rabs c1) by (apply Rabs_pos_lt; auto).
  assert (EC : @nsum R R_num [- (s / c1) * (c0 / s)] = - c0 / c1) by (unfold nsum; cbn; rnum; field; split; lra).
  assert (EW : @nsum R R_num [Rabs (s / c1 * (er / s))] = er / Rabs c1).
  { unfold nsum; cbn; rnum. replace (s / c1 * (er / s)) with (er * / c1) by (field; split; lra). rewrite Rabs_mult, (Rabs_pos_eq er), Rabs_inv by auto. unfold Rdiv. ring. }
  rewrite EC, EW. unfold linearCheck1, linCol. cbn [seq map fold_left lA ltot lc nth fst snd].
  change (@neqb R R_num (c1 / s) n0) with (Reqb (c1 / s) 0). replace (Reqb (c1 / s) 0) with false
    by (symmetry; apply Reqb_false; intros Z; apply Hc; replace c1 with (c1 / s * s) by (field; lra); rewrite Z; ring).
  assert (EL : @lcBounds R R_num ((Rabs c0 + Rabs c1 + er) / s) (c1 / s) (c0 / s) = (- c0 / c1 - er / Rabs c1, - c0 / c1 + er / Rabs c1)).
  { unfold lcBounds. unfold ngeb. rewrite n2_R. rnum. assert (Ea : Rabs (c1 / s) = Rabs c1 / s) by (unfold Rdiv; rewrite Rabs_mult, (Rabs_pos_eq (/ s)); auto; left; apply Rinv_0_lt_compat; auto).
    rewrite Ea. assert (Ev : (Rabs c0 + Rabs c1 + er) / s / (Rabs c1 / s) - 1 = Rabs (c0 / c1) + er / Rabs c1).
    { replace (Rabs (c0 / c1)) with (Rabs c0 / Rabs c1) by (unfold Rdiv; rewrite Rabs_mult, Rabs_inv; auto). field. split; lra. }
    rewrite Ev. replace (2 * (c0 / s) / (c1 / s)) with (2 * (c0 / c1)) by (field; split; lra).
    replace (- c0 / c1) with (- (c0 / c1)) by (field; auto). set (q := c0 / c1). set (r := er / Rabs c1).
    destruct (Rleb 0 (2 * q)) eqn:E; [apply Rleb_true in E; rewrite Rabs_pos_eq by lra|apply Rleb_false in E; rewrite Rabs_left by lra]; f_equal; ring. }
  rewrite EL. cbn [omax omin]. unfold passBounds. cbn [length seq combine map nth option_map omax omin]. unfold nmax, nmin. rnum.
  set (q := - c0 / c1). set (r := er / Rabs c1).
  destruct (Rltb (q - r) (q - r)), (Rltb (q + r) (q + r)); rewrite !Rmult_1_r; reflexivity.
Qed.
(** the reduction of one affine polynomial *)
Lemma bi_lin svd c0 c1 e fs : svd_ok 1 svd -> c1 <> 0 -> 0 <= e ->
  let er := if fs : bool then 0 else e in let lo := - c0 / c1 - er / Rabs c1 - ww in let hi := - c0 / c1 + er / Rabs c1 + ww in
  @boundingInterval R R_num svd [tens c0 c1] [e] fs =
  if outside lo hi || Rltb ((clip hi - clip lo) / 2) (99 / 100) then mkBL [(clip lo, clip hi)] false true false (outside lo hi)
  else mkBL [(clip lo, clip hi)] false false true false.
Proof.
  intros Hsvd Hc He. cbv zeta. rewrite (bounding_width 1) by (try exact Hsvd; try lia; try reflexivity; repeat constructor).
  unfold boundingIntervalW. change (ndim (nth 0 [tens c0 c1] (mkT [] []))) with 1%nat.
  replace (if fs then map (fun _ : R => n0) [e] else [e]) with [if fs then 0 else e] by (destruct fs; reflexivity). set (er := if fs then 0 else e). assert (Her : 0 <= er) by (unfold er; destruct fs; lra). clearbody er.
  cbn [combine map]. rewrite row_lin. destruct (scale_lin c0 c1 er Hc) as (s & Hs & Ha & ->). cbn [seq fold_left repeat].
  change (@n1 R R_num) with 1. rewrite scaleCol_lin by auto. cbn [map lA]. pose proof (Hsvd [[c1 / s]] ltac:(repeat constructor)) as SV.
  destruct (svd [[c1 / s]]) as [[U Sv] Vh] eqn:ES. pose proof (svd_inverse 1 _ _ SV) as INV. cbn [fst snd] in INV. change (1 - 1)%nat with 0%nat in *.
  assert (S0 : 0 < nth 0 Sv 0).
  { destruct (Rlt_le_dec 0 (nth 0 Sv 0)) as [L|L]; auto. exfalso. pose proof (proj1 (svd_zero 1 _ _ ltac:(lia) SV) L 0%nat 0%nat ltac:(lia) ltac:(lia)) as Z.
    unfold mget in Z. cbn in Z. rewrite Z, Rabs_R0 in Ha. lra. }
  specialize (INV S0 0%nat 0%nat ltac:(lia) ltac:(lia)). unfold sumn in INV. cbn in INV. unfold delta in INV. cbn in INV.
  unfold ngtb. rnum. change (@n0 R R_num) with 0. replace (Rltb 0 (nth 0 Sv 0)) with true by (symmetry; apply Rltb_true; auto). cbn [negb].
  replace (nth 0 Sv 0 / nth 0 Sv 0) with 1 by (field; lra). replace (Rltb (nlit 1 10000000000) 1) with true by (symmetry; apply Rltb_true; rewrite nlit_R; lra).
  cbn [map lc lerr le nth seq]. fold ww. set (Ai := mget (invMat 1 U Sv Vh) 0 0).
  assert (EA : Ai = s / c1).
  { assert (E : Ai * (c1 / s) = 1) by (rewrite <- INV; unfold Ai, mget, invMat, mget; cbn; rnum; ring).
    apply (Rmult_eq_reg_r (c1 / s)); [rewrite E; field; split; lra|]. intros Z. rewrite Z in E. lra. }
  clearbody Ai. subst Ai. set (lo := - c0 / c1 - er / Rabs c1 - ww). set (hi := - c0 / c1 + er / Rabs c1 + ww).
  match goal with |- context [passBounds ?a ?b ?c ?d ?e ?f] => replace (passBounds a b c d e f) with [(Some lo, Some hi)] by (symmetry; apply pass_lin; auto) end.
  assert (EK : @clipRow R R_num (Some lo, Some hi) = (clip lo, clip hi)) by (unfold clipRow; cbn [fst snd]; rewrite !clipv_R; reflexivity).
  assert (EO : existsb (@rowOut R R_num) [(Some lo, Some hi)] = outside lo hi) by (cbn [existsb rowOut]; rewrite orb_false_r; reflexivity).
  cbn [map]. rewrite EK, EO. assert (EV : @volRatio R R_num 1 [(clip lo, clip hi)] = (clip hi - clip lo) / 2).
  { unfold volRatio, boxDims, nprod. cbn [map fst snd fold_left fold_right]. rewrite nlit_R. rnum. cbn. field. }
  rewrite EV, nlit_R. destruct (outside lo hi || Rltb ((clip hi - clip lo) / 2) (99 / 100)) eqn:E; [cbn [negb]; rewrite andb_false_r; reflexivity|].
  apply orb_false_iff in E. destruct E as [E1 E2]. rewrite E1. cbn [orb].
  match goal with |- (if ?c then _ else _) = _ => replace c with false; auto end. symmetry. apply Rltb_false. apply Rltb_false in E2. cbn. rnum. lra.
Qed.

(** ** the transformed polynomial *)
Lemma t1_lin exact c0 c1 al be : @transform1Dx R R_num exact [c0; c1] al be = [c0 + be * c1; al * c1].
Proof.
  unfold transform1Dx. destruct exact.
  - unfold transform1DErrorFree. destruct (_ && _)%bool eqn:E.
    + apply andb_true_iff in E. destruct E as [E1 E2]. revert E1 E2. rewrite !nlit_R. rnum. intros E1 E2. apply Reqb_true in E1, E2. unfold transform1DErrorFreeSplit. cbn. rewrite ?nlit_R. rnum.
      destruct (Rltb be 0) eqn:E3; [apply Rltb_true in E3; rewrite Rabs_left in E2 by auto|apply Rltb_false in E3; rewrite Rabs_pos_eq in E2 by lra].
      * replace be with (- / 2) by lra. rewrite E1. f_equal; [field|f_equal; field].
      * replace be with (/ 2) by lra. rewrite E1. f_equal; [field|f_equal; field].
    + cbn. rnum. f_equal. f_equal. ring.
  - unfold transform1D. cbn. rnum. f_equal. f_equal. ring.
Qed.
Lemma tr_lin exact c0 c1 e al be :
  @transformChebToInterval R R_num [tens c0 c1] [(al, be)] [e] exact = ([tens (c0 + be * c1) (al * c1)], [e + ww * (Rabs c0 + Rabs c1)]).
Proof.
  assert (EE : @getTransformationError R R_num (tens c0 c1) 0 = ww * (Rabs c0 + Rabs c1)).
  { unfold getTransformationError, tsumabs, nsumabs, nsum, tens, ww. cbn [shp dat nth map fold_left fold_right]. rewrite nlit_R. rnum. cbn. lra. }
  unfold transformChebToInterval. cbn [combine map fst snd]. unfold transformCheb. cbn [firstn ndim shp tens length transformCheb_from]. rewrite EE.
  cbn [fst snd]. f_equal. f_equal. unfold transformND. cbn [nth shp Nat.eqb]. rewrite orb_false_r. rnum.
  destruct (Reqb al 1 && Reqb be 0)%bool eqn:E.
  { apply andb_true_iff in E. destruct E as [E1 E2]. apply Reqb_true in E1, E2. subst. unfold tens. f_equal. f_equal; [ring|f_equal; ring]. }
  unfold apply_axis0. assert (EF : forall i, @fibre R R_num (tens c0 c1) 0 [i] = [c0; c1]) by (intros; reflexivity).
  change (repeat 0%nat (ndim (tens c0 c1))) with [0%nat]. rewrite (EF 0%nat), t1_lin. cbn [length].
  change (upd (shp (tens c0 c1)) 0 2%nat) with [2%nat]. unfold tbuild, tens. f_equal. cbn [indices seq flat_map map app]. rewrite !EF, !t1_lin. reflexivity.
Qed.

(** ** the run on an affine function L + K x *)
Record ast (L K : R) (f : bool) (P : list (box R)) (t : tint R) (c0 c1 e m h : R) : Prop := {
  as_ok : okti 1 t; as_fin : fin t = f; as_pre : f = true -> preT t = P;
  as_fld : cthr t = false /\ dups t = [] /\ extra t = false;
  as_iv : ivl t = [(m - h, m + h)]; as_h : 0 < h <= 1;
  as_c1 : c1 = K * h; as_c0 : c0 = L + K * m; as_in : Rabs c0 <= Rabs c1; as_e : 0 < e }.

Lemma clip_mid u d : -1 <= u <= 1 -> 0 < d -> -1 <= clip (u - d) /\ clip (u - d) <= u <= clip (u + d) /\ clip (u + d) <= 1 /\
  clip (u - d) < clip (u + d) /\ clip (u + d) - clip (u - d) <= 2 * d /\ u - d <= clip (u - d) /\ clip (u + d) <= u + d /\
  Rmin 1 d <= clip (u + d) - clip (u - d).
Proof. intros H Hd. unfold clip, Rmax, Rmin. repeat destruct (Rle_dec _ _); repeat split; lra. Qed.
Lemma outside_mid u d : -1 <= u <= 1 -> 0 < d -> outside (u - d) (u + d) = false.
Proof. intros H Hd. unfold outside. rewrite !orb_false_iff. repeat split; apply Rltb_false; lra. Qed.
Lemma ww_pos : 0 < ww. Proof. unfold ww. lra. Qed.
Lemma ww_small : ww < / 1000000000000. Proof. unfold ww. lra. Qed.

Section Run.
  Variables (X : ext R) (L K : R).
  Hypothesis Hsvd : svd_ok 1 (xsvd X).
  Hypothesis HK : K <> 0.

  Lemma ast_c1 f P t c0 c1 e m h : ast L K f P t c0 c1 e m h -> c1 <> 0.
  Proof. intros [? ? ? ? ? Hh -> ? ? ?]. apply Rmult_integral_contrapositive. split; lra. Qed.
  Lemma ast_u f P t c0 c1 e m h : ast L K f P t c0 c1 e m h -> -1 <= - c0 / c1 <= 1.
  Proof.
    intros H. pose proof (ast_c1 _ _ _ _ _ _ _ _ H) as Hc. apply Rabs_le_inv. unfold Rdiv. rewrite Rabs_mult, Rabs_Ropp, Rabs_inv.
    assert (0 < Rabs c1) by (apply Rabs_pos_lt; auto). apply (Rmult_le_reg_r (Rabs c1)); auto. rewrite Rmult_assoc, Rinv_l by lra. pose proof (as_in _ _ _ _ _ _ _ _ _ _ H). lra.
  Qed.
  (** one step *)
  Lemma step f P t c0 c1 e m h exact : ast L K f P t c0 c1 e m h ->
    let r := (if f then 0 else e) / Rabs c1 in let u := - c0 / c1 in
    let lo := clip (u - (r + ww)) in let hi := clip (u + (r + ww)) in let al := (hi - lo) / 2 in let be := (hi + lo) / 2 in
    exists t', ast L K f P t' (c0 + be * c1) (al * c1) (e + ww * (Rabs c0 + Rabs c1)) (m + h * be) (h * al) /\
      @zoomIter R R_num X exact [tens c0 c1] [e] t =
      if Rltb al (99 / 100) then
        Ok ([tens (c0 + be * c1) (al * c1)], [e + ww * (Rabs c0 + Rabs c1)], t', negb (f && isPoint t'), f && isPoint t')
      else Ok ([tens c0 c1], [e], t, false, true).
  Proof.
    intros H. pose proof (ast_u _ _ _ _ _ _ _ _ H) as Hu. pose proof (ast_c1 _ _ _ _ _ _ _ _ H) as Hc. cbv zeta.
    destruct H as [Hok Hf HP (Hct & Hd & Hx) Hiv Hh E1 E0 Hin He]. assert (Pc : 0 < Rabs c1) by (apply Rabs_pos_lt; auto).
    set (r := (if f then 0 else e) / Rabs c1). assert (Hr : 0 <= r) by (unfold r, Rdiv; apply Rmult_le_pos; [destruct f; lra|left; apply Rinv_0_lt_compat; auto]). pose proof ww_pos as Hw.
    set (u := - c0 / c1) in *. destruct (clip_mid u (r + ww) Hu ltac:(lra)) as (Q1 & Q2 & Q3 & Q4 & Q5 & Q6 & Q7 & Q8).
    pose proof (outside_mid u (r + ww) Hu ltac:(lra)) as HO.
    set (lo := clip (u - (r + ww))) in *. set (hi := clip (u + (r + ww))) in *. set (al := (hi - lo) / 2). set (be := (hi + lo) / 2).
    pose proof (ok_tok 1 t Hok) as Htok.
    assert (Hsub : sub_ok 1 [(lo, hi)]) by (split; auto; constructor; cbn; [lra|constructor]).
    destruct (addTransform_sub 1 t [(lo, hi)] Hsub) as [S1 S2].
    pose proof (addTransform_tok 1 t _ Htok S2 (or_introl Hsub)) as Ht'. rewrite (addTransform_eq t _ S2), S1 in Ht'.
    pose proof (addTransform_eq t _ S2) as EA. rewrite S1 in EA.
    cbn [map combine] in Ht', EA. rewrite Hiv in Ht', EA. cbn [map combine fst snd] in Ht', EA. rewrite newRow_R, alphaBeta_R in Ht', EA by (cbn; lra). cbn [fst snd] in Ht', EA. fold al be in Ht', EA.
    match type of EA with _ = ?x => set (t' := x) in * end.
    assert (Ea : 0 < al <= 1) by (unfold al; lra).
    exists t'. split.
    - constructor; auto.
      + constructor; auto; [apply Hok|]. unfold fresh. cbn. auto.
      + cbn. f_equal. f_equal; unfold al, be; field.
      + split; [apply Rmult_lt_0_compat; lra|]. rewrite <- (Rmult_1_r 1). apply Rmult_le_compat; lra.
      + rewrite E1. ring.
      + rewrite E1, E0. ring.
      + replace (c0 + be * c1) with (- ((u - be) * c1)) by (unfold u; field; auto). rewrite Rabs_Ropp, !Rabs_mult. apply Rmult_le_compat_r; [lra|]. rewrite (Rabs_pos_eq al) by lra.
        apply Rabs_le. unfold al, be. lra.
      + pose proof (Rabs_pos c0). assert (0 <= ww * (Rabs c0 + Rabs c1)) by (apply Rmult_le_pos; lra). lra.
    - unfold zoomIter. cbv zeta. rewrite Hf, bi_lin by (auto; lra).
      replace (- c0 / c1 - (if f then 0 else e) / Rabs c1 - ww) with (u - (r + ww)) by (unfold u, r; ring).
      replace (- c0 / c1 + (if f then 0 else e) / Rabs c1 + ww) with (u + (r + ww)) by (unfold u, r; ring). rewrite HO. cbn [orb]. fold lo hi al.
      destruct (Rltb al (99 / 100)) eqn:E; cbn [blThrow blBox blStop blChanged andb negb]; auto.
      rewrite Hiv. unfold keepPoints. cbn [combine map fst snd]. rnum. replace (Reqb (m - h) (m + h)) with false by (symmetry; apply Reqb_false; lra).
      rewrite EA. unfold getLastTransform. cbn [trs t']. rewrite rev_app_distr. cbn [rev app]. rewrite tr_lin.
      cbn [fin t']. rewrite Hf. fold t'. destruct (f && isPoint t')%bool; auto.
  Qed.
  Lemma ast_emp f P t c0 c1 e m h : ast L K f P t c0 c1 e m h -> empt t = false.
  Proof. intros H. apply (ok_emp 1). apply (as_ok _ _ _ _ _ _ _ _ _ _ H). Qed.
  Lemma ast_size f P t c0 c1 e m h : ast L K f P t c0 c1 e m h -> @dimSize R R_num t = [m + h - (m - h)].
  Proof. intros H. unfold dimSize, boxDims. rewrite (as_iv _ _ _ _ _ _ _ _ _ _ H). reflexivity. Qed.
  Lemma count_half x y : x < y / 2 -> forallb (fun p => @ngeb R R_num (fst p) (snd p / n2)%num) (combine [x] [y]) = false.
  Proof. intros H. cbn [combine forallb fst snd]. unfold ngeb. rewrite n2_R. rnum. rewrite andb_true_r. apply Rleb_false. lra. Qed.

  (** the next step leaves the box alone *)
  Lemma settle o P t c0 c1 e m h k zc ls : ast L K false P t c0 c1 e m h ->
    - c0 / c1 - e / Rabs c1 <= - (99 / 100) -> 99 / 100 <= - c0 / c1 + e / Rabs c1 ->
    @zoomLoop R R_num X (S k) o [tens c0 c1] [e] t zc ls = Ok (Some ([tens c0 c1], [e], t, true)) /\ 98 / 100 * Rabs c1 <= e.
  Proof.
    intros H A B. pose proof (ast_c1 _ _ _ _ _ _ _ _ H) as Hc. pose proof (step false P t c0 c1 e m h (oexact o) H) as S. cbv zeta in S. destruct S as (t' & _ & S).
    pose proof ww_pos. assert (Pc : 0 < Rabs c1) by (apply Rabs_pos_lt; auto). cbn [zoomLoop]. rewrite S. set (r := e / Rabs c1) in *. set (u := - c0 / c1) in *.
    assert (R1 : clip (u - (r + ww)) <= - (99 / 100)) by (unfold clip, Rmax, Rmin; repeat destruct (Rle_dec _ _); lra).
    assert (R2 : 99 / 100 <= clip (u + (r + ww))) by (unfold clip, Rmax, Rmin; repeat destruct (Rle_dec _ _); lra).
    replace (Rltb ((clip (u + (r + ww)) - clip (u - (r + ww))) / 2) (99 / 100)) with false by (symmetry; apply Rltb_false; lra).
    cbn [bindR]. rewrite (ast_emp _ _ _ _ _ _ _ _ H). cbn [andb]. split; auto.
    assert (Er : e = r * Rabs c1) by (unfold r; field; lra). rewrite Er at 1. apply Rmult_le_compat_r; lra.
  Qed.
  (** before the final step: the loop ends with should_stop, on a box of about the size e / |K| *)
  Lemma loop_pre o : (1 <= omaxZoom o)%nat -> forall N k P t c0 c1 e m h, ast L K false P t c0 c1 e m h ->
    / 2 ^ N <= e / Rabs c1 -> (N + 3 <= k)%nat -> exists t' c0' c1' e' m' h',
    @zoomLoop R R_num X k o [tens c0 c1] [e] t 0 (@dimSize R R_num t) = Ok (Some ([tens c0' c1'], [e'], t', true)) /\
    ast L K false P t' c0' c1' e' m' h' /\ 98 / 100 * Rabs c1' <= e' /\ e' <= e + 4 * ww * Rabs c1.
  Proof.
    intros Ho. induction N as [|N IH]; intros k P t c0 c1 e m h H HN Hk.
    all: destruct k as [|k]; [lia|]; pose proof H as H0; pose proof (ast_u _ _ _ _ _ _ _ _ H) as Hu; pose proof (ast_c1 _ _ _ _ _ _ _ _ H) as Hc;
      pose proof (step false P t c0 c1 e m h (oexact o) H) as S; cbv zeta in S;
      assert (Pc : 0 < Rabs c1) by (apply Rabs_pos_lt; auto); pose proof (as_e _ _ _ _ _ _ _ _ _ _ H) as He; pose proof (as_in _ _ _ _ _ _ _ _ _ _ H) as Hin; pose proof (as_h _ _ _ _ _ _ _ _ _ _ H) as Hh;
      pose proof ww_pos as W1; pose proof ww_small as W2;
      set (r := e / Rabs c1) in *; set (u := - c0 / c1) in *;
      assert (Er : e = r * Rabs c1) by (unfold r; field; lra).
    all: assert (Hr : 0 < r) by (unfold r; apply Rdiv_lt_0_compat; auto);
      destruct (clip_mid u (r + ww) Hu ltac:(lra)) as (Q1 & Q2 & Q3 & Q4 & Q5 & Q6 & Q7 & Q8);
      set (lo := clip (u - (r + ww))) in *; set (hi := clip (u + (r + ww))) in *; set (al := (hi - lo) / 2) in *; set (be := (hi + lo) / 2) in *;
      destruct S as (t' & H' & S); cbn [zoomLoop]; rewrite S; cbn [andb negb];
      destruct (Rltb al (99 / 100)) eqn:E; cbn [bindR];
      [apply Rltb_true in E | apply Rltb_false in E; rewrite (ast_emp _ _ _ _ _ _ _ _ H); cbn [andb]; exists t, c0, c1, e, m, h; split; [reflexivity|]; split; [auto|]; split;
         [rewrite Er at 1; apply Rmult_le_compat_r; unfold al in *; lra|assert (0 <= ww * Rabs c1) by (apply Rmult_le_pos; lra); lra]].
    all: rewrite (ast_emp _ _ _ _ _ _ _ _ H'); cbn [andb].
    all: assert (Pa : 0 < al <= 1) by (unfold al; lra); assert (Ec : Rabs (al * c1) = al * Rabs c1) by (rewrite Rabs_mult, (Rabs_pos_eq al); lra);
      pose proof (Rabs_pos c0) as Pc0; assert (G0 : 0 <= ww * (Rabs c0 + Rabs c1)) by (apply Rmult_le_pos; lra);
      assert (G1 : ww * (Rabs c0 + Rabs c1) <= 2 * (ww * Rabs c1)) by (rewrite <- Rmult_assoc, (Rmult_comm 2), Rmult_assoc; apply Rmult_le_compat_l; lra);
      set (e1 := e + ww * (Rabs c0 + Rabs c1)) in *;
      assert (Er1 : r / al <= e1 / Rabs (al * c1)) by (rewrite Ec; replace (r / al) with (e / (al * Rabs c1)) by (unfold r; field; split; lra); unfold Rdiv;
        apply Rmult_le_compat_r; [left; apply Rinv_0_lt_compat, Rmult_lt_0_compat; lra|unfold e1; lra]);
      destruct (Rlt_le_dec (hi - lo) (200 * ww)) as [F|F].
    2,4: match goal with |- context [if ?c then 1%nat else 0%nat] => set (zc := if c then 1%nat else 0%nat); assert (Hz : (zc <= 1)%nat) by (unfold zc; destruct c; lia) end;
      rewrite (proj2 (Nat.leb_le zc (omaxZoom o))) by lia; destruct k as [|k]; [lia|];
      assert (Hu1 : - (c0 + be * c1) / (al * c1) = (u - be) / al) by (unfold u; field; split; lra);
      destruct (settle o P t' (c0 + be * c1) (al * c1) e1 (m + h * be) (h * al) k zc (dimSize t') H') as [Z1 Z2];
      [rewrite Hu1; apply Rle_trans with ((u - be) / al - r / al); [lra|]; apply (Rmult_le_reg_r al); [lra|]; replace (((u - be) / al - r / al) * al) with (u - be - r) by (field; lra); unfold al, be in *; lra
      |rewrite Hu1; apply Rle_trans with ((u - be) / al + r / al); [|lra]; apply (Rmult_le_reg_r al); [lra|]; replace (((u - be) / al + r / al) * al) with (u - be + r) by (field; lra); unfold al, be in *; lra
      |rewrite Z1; exists t', (c0 + be * c1), (al * c1), e1, (m + h * be), (h * al); split; [reflexivity|]; split; [auto|]; split; [exact Z2|]; unfold e1; lra].
    - exfalso. cbn in HN. assert (Rmin 1 (r + ww) = 1) by (apply Rmin_left; lra). lra.
    - rewrite (ast_size _ _ _ _ _ _ _ _ H), (ast_size _ _ _ _ _ _ _ _ H'), count_half by (assert (h * al < h / 2) by (unfold Rdiv; apply Rmult_lt_compat_l; unfold al; lra); lra).
      rewrite (proj2 (Nat.leb_le 0 (omaxZoom o))) by lia. rewrite <- (ast_size _ _ _ _ _ _ _ _ H').
      destruct (IH k P t' (c0 + be * c1) (al * c1) e1 (m + h * be) (h * al) H') as (t2 & d0 & d1 & e2 & m2 & h2 & Z1 & Z2 & Z3 & Z4); [|lia|].
      + eapply Rle_trans; [|exact Er1]. apply Rle_trans with (2 * r). { cbn [pow] in HN. rewrite Rinv_mult in HN. lra. }
        apply (Rmult_le_reg_r al); [lra|]. unfold Rdiv. rewrite (Rmult_assoc r), Rinv_l by lra. rewrite Rmult_1_r. replace (2 * r * al) with (r * (2 * al)) by ring. rewrite <- (Rmult_1_r r) at 2. apply Rmult_le_compat_l; unfold al; lra.
      + exists t2, d0, d1, e2, m2, h2. split; auto. split; auto. split; auto. eapply Rle_trans; [exact Z4|]. rewrite Ec.
        assert (4 * ww * (al * Rabs c1) <= 2 * (ww * Rabs c1)); [|unfold e1; lra].
        replace (4 * ww * (al * Rabs c1)) with ((4 * al) * (ww * Rabs c1)) by ring. apply Rmult_le_compat_r; [apply Rmult_le_pos; lra|unfold al; lra].
  Qed.

  (** in the final step: the loop ends on a point *)
  Lemma point_iff t m h : ivl t = [(m - h, m + h)] -> 0 < h -> @isPoint R R_num t = true <-> 2 * h < / 100000000000000000000000000000000.
  Proof.
    intros E Hh. unfold isPoint. rewrite E. cbn [forallb fst snd]. rewrite andb_true_r, nlit_R. rnum. rewrite Rltb_true. replace (m - h - (m + h)) with (- (2 * h)) by ring.
    rewrite Rabs_Ropp, Rabs_pos_eq by lra. lra.
  Qed.
  Lemma loop_fin o j : forall k P t c0 c1 e m h, ast L K true P t c0 c1 e m h -> 2 * (h * ww ^ j) < / 100000000000000000000000000000000 -> (j < k)%nat ->
    exists t' c0' c1' e' m' h',
    @zoomLoop R R_num X k o [tens c0 c1] [e] t 0 (@dimSize R R_num t) = Ok (Some ([tens c0' c1'], [e'], t', true)) /\
    ast L K true P t' c0' c1' e' m' h' /\ @isPoint R R_num t' = true.
  Proof.
    induction j as [|j IH]; intros k P t c0 c1 e m h H Hj Hk.
    all: destruct k as [|k]; [lia|]; pose proof (ast_u _ _ _ _ _ _ _ _ H) as Hu; pose proof (step true P t c0 c1 e m h (oexact o) H) as S; cbv zeta in S;
      pose proof ww_pos as W1; pose proof ww_small as W2; pose proof (as_h _ _ _ _ _ _ _ _ _ _ H) as Hh; set (u := - c0 / c1) in *;
      cbn iota in S; assert (E0 : 0 / Rabs c1 + ww = ww) by (unfold Rdiv; ring); rewrite E0 in S;
      destruct (clip_mid u ww Hu W1) as (Q1 & Q2 & Q3 & Q4 & Q5 & Q6 & Q7 & Q8);
      set (lo := clip (u - ww)) in *; set (hi := clip (u + ww)) in *; set (al := (hi - lo) / 2) in *; set (be := (hi + lo) / 2) in *;
      destruct S as (t' & H' & S); assert (Pa : 0 < al <= ww) by (unfold al; lra);
      replace (Rltb al (99 / 100)) with true in S by (symmetry; apply Rltb_true; lra); cbn [zoomLoop]; rewrite S; cbn [bindR andb]; rewrite (ast_emp _ _ _ _ _ _ _ _ H');
      assert (Hha : 0 < h * al <= h * ww) by (split; [apply Rmult_lt_0_compat; lra|apply Rmult_le_compat_l; lra]);
      destruct (isPoint t') eqn:Ep; cbn [negb andb];
      [exists t', (c0 + be * c1), (al * c1), (e + ww * (Rabs c0 + Rabs c1)), (m + h * be), (h * al); split; [reflexivity|]; split; auto|].
    - exfalso. apply not_true_iff_false in Ep. apply Ep, (point_iff t' (m + h * be) (h * al)); [apply (as_iv _ _ _ _ _ _ _ _ _ _ H')|lra|]. cbn [pow] in Hj.
      assert (h * ww <= h * 1) by (apply Rmult_le_compat_l; lra). lra.
    - rewrite (ast_size _ _ _ _ _ _ _ _ H), (ast_size _ _ _ _ _ _ _ _ H'), count_half by (assert (h * ww < h / 2) by (unfold Rdiv; apply Rmult_lt_compat_l; lra); lra).
      cbn [Nat.leb]. rewrite <- (ast_size _ _ _ _ _ _ _ _ H'). apply (IH k P t' _ _ _ _ _ H'); [|lia].
      eapply Rle_lt_trans; [|exact Hj]. apply Rmult_le_compat_l; [lra|]. cbn [pow]. rewrite <- Rmult_assoc. apply Rmult_le_compat_r; [apply pow_le; lra|lra].
  Qed.

  (** ** the entry checks and the bookkeeping *)
  Lemma eval_lin c0 c1 x : cheb_eval (tens c0 c1) [x] = c0 + c1 * x.
  Proof. unfold cheb_eval, sumidx, tens. cbn. rnum. unfold tget. cbn. lra. Qed.
  Lemma sq_lin c0 c1 e : squareSystem 1 [tens c0 c1] [e].
  Proof. split; [lia|]. split; auto. split; auto. constructor; auto. split; [|reflexivity]. split; [reflexivity|]. repeat constructor. Qed.
  Lemma cov_lin exact c0 c1 : Forall (all_covered exact) [tens c0 c1].
  Proof. constructor; auto. unfold all_covered. cbn. constructor; auto. destruct exact; cbn; [lra|lia]. Qed.
  Lemma appr_lin exact st c0 c1 e : 0 < e -> appr 1 exact st (fun _ y => cheb_eval (tens c0 c1) y) [] [tens c0 c1] [e].
  Proof.
    intros He. constructor; [apply sq_lin|apply cov_lin|]. intros i Hi y Hy. replace i with 0%nat by lia. cbn [nth place]. unfold Rminus. rewrite Rplus_opp_r, Rabs_R0.
    unfold within. destruct st; lra.
  Qed.
  Lemma zero_lin f P t c0 c1 e m h : ast L K f P t c0 c1 e m h -> zeroAt 1 (fun _ y => cheb_eval (tens c0 c1) y) [] [- c0 / c1].
  Proof.
    intros H. pose proof (ast_u _ _ _ _ _ _ _ _ H). pose proof (ast_c1 _ _ _ _ _ _ _ _ H). split.
    - apply cube_iff. split; auto. intros i Hi. replace i with 0%nat by lia. cbn. lra.
    - intros i Hi. cbn [place]. rewrite eval_lin. field. auto.
  Qed.
  Lemma trim_lin c0 c1 e : @trimMs R R_num [tens c0 c1] [e] = ([tens c0 c1], [e]).
  Proof. unfold trimMs, trimMsTol, trimM. cbn. rewrite andb_false_r. reflexivity. Qed.
  Lemma copy_ast f P t c0 c1 e m h : ast L K f P t c0 c1 e m h -> ast L K f P (@copyT R t) c0 c1 e m h.
  Proof.
    intros [[T E F] Hf HP (D1 & D2 & D3) Hi Hh E1 E0 Hin He]. constructor; auto.
    - constructor; [apply copy_tok; auto|auto|]. unfold fresh. cbn. intros ->. auto.
    - intros Q. cbn. rewrite Hf, Q. auto.
    - cbn. rewrite D1, D2, D3. destruct (fin t); auto.
  Qed.
  Lemma startF_ast P t c0 c1 e m h : ast L K false P t c0 c1 e m h -> ast L K true (trs t) (@startFinalStep R t) c0 c1 e m h.
  Proof.
    intros [[T E F] Hf HP D Hi Hh E1 E0 Hin He]. constructor; auto. constructor; [apply start_tok; auto|auto|]. unfold fresh. cbn. discriminate.
  Qed.
  Lemma copy_size t : @dimSize R R_num (@copyT R t) = @dimSize R R_num t.
  Proof. reflexivity. Qed.

  Hypothesis Hsym : sym_solver_ok 1 (xrank X) (xsolve X).
  Lemma entry_lin o f P t c0 c1 e m h : ast L K f P t c0 c1 e m h ->
    @constantCheck R R_num [tens c0 c1] [e] = false /\ @quadCheck R R_num X o [tens c0 c1] [e] = false.
  Proof.
    intros H. pose proof (as_e _ _ _ _ _ _ _ _ _ _ H) as He. pose proof (zero_lin _ _ _ _ _ _ _ _ H) as Z. split.
    - apply (entry_const 1 o _ _ _ [] _ (sq_lin c0 c1 e) (appr_lin _ _ c0 c1 e He) Z).
    - apply (entry_quad X 1 o Hsym _ _ _ [] _ (sq_lin c0 c1 e) (appr_lin _ _ c0 c1 e He) Z).
  Qed.
  Lemma solve_fin o fuel level P t c0 c1 e m h : ast L K true P t c0 c1 e m h -> (5 <= fuel)%nat ->
    exists i x t' c0' c1' e' m' h', @solvePoly R R_num X fuel o level [tens c0 c1] t [e] = Ok (i, x) /\ i ++ x = [t'] /\
      ast L K true P t' c0' c1' e' m' h' /\ @isPoint R R_num t' = true.
  Proof.
    intros H Hf. destruct fuel as [|fuel]; [lia|]. cbn [solvePoly]. destruct (isPoint t) eqn:Ep; [exists [], [t], t, c0, c1, e, m, h; auto|].
    destruct (entry_lin o _ _ _ _ _ _ _ _ H) as [C1 C2]. rewrite C1, C2, andb_false_r, trim_lin.
    destruct (loop_fin o 3 fuel P (copyT t) c0 c1 e m h (copy_ast _ _ _ _ _ _ _ _ H)) as (t' & d0 & d1 & e' & m' & h' & Z & A & B); [|lia|].
    { pose proof (as_h _ _ _ _ _ _ _ _ _ _ H). assert (h * ww ^ 3 <= 1 * ww ^ 3) by (apply Rmult_le_compat_r; [apply pow_le; pose proof ww_pos|]; lra). unfold ww in *. lra. }
    rewrite Z. cbn [bindR]. rewrite (as_fin _ _ _ _ _ _ _ _ _ _ A). cbn [orb]. destruct (report _ t') as [i x] eqn:Er. exists i, x, t', d0, d1, e', m', h'. split; auto. split; auto.
    pose proof (report_one (copyT (copyT t)) t') as Ro. rewrite Er in Ro. exact Ro.
  Qed.
  Lemma solve_all o fuel N P t c0 c1 e m h : (1 <= omaxZoom o)%nat -> ast L K false P t c0 c1 e m h -> @isPoint R R_num t = false ->
    / 2 ^ N <= e / Rabs c1 -> (N + 10 <= fuel)%nat ->
    exists i x t' c0' c1' e' m' h', @solvePoly R R_num X fuel o 0 [tens c0 c1] t [e] = Ok (i, x) /\ i ++ x = [t'] /\
      ast L K (ofinal o) (preT t') t' c0' c1' e' m' h' /\ (ofinal o = true -> @isPoint R R_num t' = true) /\
      exists d0 d1 e1 m1 h1 t1, ast L K false P t1 d0 d1 e1 m1 h1 /\ 98 / 100 * Rabs d1 <= e1 /\ e1 <= e + 4 * ww * Rabs c1 /\
        @getFinalInterval R R_num t' = ivl t1.
  Proof.
    intros Ho H Ep HN Hf. destruct fuel as [|fuel]; [lia|]. cbn [solvePoly]. rewrite Ep.
    destruct (entry_lin o _ _ _ _ _ _ _ _ H) as [C1 C2]. rewrite C1, C2, andb_false_r, trim_lin.
    destruct (loop_pre o Ho N fuel P (copyT t) c0 c1 e m h (copy_ast _ _ _ _ _ _ _ _ H) HN ltac:(lia)) as (t1 & d0 & d1 & e1 & m1 & h1 & Z & A & B1 & B2).
    rewrite Z. cbn [bindR]. pose proof (as_fin _ _ _ _ _ _ _ _ _ _ A) as Ef. rewrite Ef. cbn [orb]. pose proof (ok_tok 1 t1 (as_ok _ _ _ _ _ _ _ _ _ _ A)) as Tk.
    destruct (ofinal o) eqn:Eo; cbn [negb].
    - destruct (solve_fin o fuel 1 (trs t1) (startFinalStep t1) d0 d1 e1 m1 h1 (startF_ast _ _ _ _ _ _ _ A) ltac:(lia)) as (i & x & t' & c0' & c1' & e' & m' & h' & Q1 & Q2 & Q3 & Q4).
      exists i, x, t', c0', c1', e', m', h'. split; auto. split; auto. pose proof (as_pre _ _ _ _ _ _ _ _ _ _ Q3 eq_refl) as EP. split; [rewrite EP; auto|]. split; auto.
      exists d0, d1, e1, m1, h1, t1. split; auto. split; auto. split; auto.
      unfold getFinalInterval. rewrite (as_fin _ _ _ _ _ _ _ _ _ _ Q3), EP, (tok_ivl 1 t1 Tk). rewrite (tok_top 1 t'); auto. apply (ok_tok 1 t' (as_ok _ _ _ _ _ _ _ _ _ _ Q3)).
    - destruct (report _ t1) as [i x] eqn:Er. exists i, x, t1, d0, d1, e1, m1, h1. split; auto. split; [pose proof (report_one (copyT (copyT t)) t1) as Ro; rewrite Er in Ro; exact Ro|].
      split; [|split; [discriminate|]].
      + destruct A. constructor; auto; discriminate.
      + exists d0, d1, e1, m1, h1, t1. split; auto. split; auto. split; auto.
        unfold getFinalInterval. rewrite Ef, (tok_top 1 t1 Tk), (tok_ivl 1 t1 Tk). reflexivity.
  Qed.
End Run.
