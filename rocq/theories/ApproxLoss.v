(** * Calls of chebApproximate and solve() that go wrong: worked out over R *)
From Coq Require Import List Arith Bool ZArith QArith Qreals Reals Lra Lia.
From Verif Require Import Num RSum Cheb Tensor PolySpec SystemSpec IntervalModel IntervalProofs LinearModel Transfer TransformChebProofs SolverModel SolverTransfer ExtExample SolverProps
  CombinedModel CombinedSpec CombinedTransfer CombinedProps ApproxModel ApproxDct ApproxInterp ApproxError ApproxDegree ApproxOne.
Import ListNotations.
Local Open Scope R_scope.

(** ** one call of solve() whose search needs no second look *)
Lemma one_shot X approx exact minSize sfuel fuel l a b o : @csolve R R_num X approx exact minSize sfuel 1 l a b = COk o ->
  @csolve R R_num X approx exact minSize sfuel (S fuel) l a b = COk o.
Proof.
  assert (G : forall A (F F' : A -> cres R (cout R)), (forall x o, F x = COk o -> F' x = COk o) -> forall l o, @gather R A F l = COk o -> @gather R A F' l = COk o).
  { intros A F F' HF. induction l0 as [|x l0 IH]; intros o0 H; cbn [gather] in *; auto.
    destruct (F x) eqn:E; cbn [cbind] in H; try discriminate. rewrite (HF _ _ E). cbn [cbind].
    destruct (gather F l0) eqn:E2; cbn [cbind] in H; try discriminate. rewrite (IH _ eq_refl). cbn [cbind]. exact H. }
  cbn [csolve]. destruct (existsb _ l); auto. destruct (negb _); auto. destruct (existsb _ _); auto.
  destruct (ofRes (approxAll approx l a b)) as [ps| | | | |]; cbn [cbind]; auto.
  destruct (ofRes (solveChebyshevSubdivision X sfuel _ _ _)) as [sol| | | | |]; cbn [cbind]; auto.
  destruct (_ && _).
  - intros H. match goal with H : cbind (gather ?F ?L) _ = _ |- _ => destruct (gather F L) eqn:E; cbn [cbind] in H; try discriminate end.
    match goal with |- cbind (gather ?F ?L) _ = _ => replace (gather F L) with (COk (A := cout R) (T := R) a0) end; [exact H|]. symmetry.
    revert E. apply G. intros x o0. destruct (splitBounds a b x). cbn [cbind]. discriminate.
  - intros H. match goal with H : cbind (gather ?F ?L) _ = _ |- _ => destruct (gather F L) eqn:E; cbn [cbind] in H; try discriminate end.
    match goal with |- cbind (gather ?F ?L) _ = _ => replace (gather F L) with (COk (A := cout R) (T := R) a0) end; [exact H|]. symmetry.
    revert E. apply G. intros x o0. unfold finish. destruct (bcast _ a); auto. destruct (bcast _ b); auto. destruct (forallb _ _); auto. cbn [cbind]. discriminate.
Qed.
(** an approximator that always gives the same answer *)
Definition constO {T} (p : tensor T * T) : fobj T -> list T -> list T -> res (tensor T * T) := fun _ _ _ => Ok p.
Lemma switch X approx exact minSize sfuel g a b p : approx (Plain g) a b = Ok p ->
  @csolve R R_num X approx exact minSize sfuel 1 [Plain g] a b = @csolve R R_num X (constO p) exact minSize sfuel 1 [Plain g] a b.
Proof. intros H. cbn [csolve approxAll approxFor bindR]. rewrite H. reflexivity. Qed.

(** one variable: the constant check discards the box *)
Lemma discard1 X approx exact minSize sfuel fuel g a b M e : a <= b -> ndim M = 1%nat -> approx (Plain g) [a] [b] = Ok (M, e) ->
  @constantCheck R R_num [M] [e] = true ->
  @csolve R R_num X approx exact minSize (S sfuel) (S fuel) [Plain g] [a] [b] = COk (mkOut [] [] [([a], [b])]).
Proof.
  intros Hab HM HA HC. cbn [csolve existsb orb length Nat.eqb negb combine fst snd]. rnum.
  replace (Rltb b a) with false by (symmetry; apply Rltb_false; lra). cbn [orb approxAll approxFor bindR]. rewrite HA. cbn [bindR ofRes cbind map fst snd].
  assert (E : @solveChebyshevSubdivision R R_num X (S sfuel) (defaultOpts exact true true false) [M] [e] = Ok (mkSol [] [] false false)).
  { unfold solveChebyshevSubdivision. cbn [existsb length]. rewrite HM. cbn [Nat.eqb negb orb length solvePoly].
    match goal with |- context [isPoint ?u] => assert (E1 : isPoint u = false) end.
    { unfold isPoint. cbn [newInterval ivl repeat forallb andb fst snd]. rewrite nlit_R. rnum. apply andb_false_iff. left. apply Rltb_false. rewrite Rabs_left; lra. }
    rewrite E1. cbn [defaultOpts occheck andb]. rewrite HC. reflexivity. }
  rewrite E. reflexivity.
Qed.

(** ** the constant test fails when the values at the two ends are not close *)
Lemma check_ends h a b rel : 0 < rel < 1 -> rel * (Rabs (h [a]) + Rabs (h [b])) < Rabs (h [b] - h [a]) ->
  @checkConstantInDimension R R_num (Plain h) [a] [b] 0 rel 0 = false.
Proof.
  intros Hrel H. unfold checkConstantInDimension. apply andb_false_iff. left. unfold constAlong. cbn [callAt length].
  set (e1 := h _). destruct (isCloseTol e1 n0 rel 0); auto. apply not_true_iff_false. intros HF. rewrite forallb_forall in HF.
  assert (I1 : In (@n1 R R_num) steps1) by (unfold steps1; cbn; tauto).
  assert (I2 : In (@nopp R R_num n1) steps1) by (unfold steps1; cbn; tauto).
  pose proof (HF _ I1) as F1. pose proof (HF _ I2) as F2. clear HF.
  assert (Z : forall v : R, upd (zip3 transformPt (probe1 1) [a] [b]) 0 v = [v]) by reflexivity.
  rewrite Z in F1, F2. cbn [nth] in F1, F2. unfold transformPt in F1, F2. rnum. rewrite n2_R in F1, F2.
  replace (((b - a) * 1 + (b + a)) / 2) with b in F1 by field. replace (((b - a) * - (1) + (b + a)) / 2) with a in F2 by field.
  unfold isCloseTol in F1, F2. rnum. apply Rleb_true in F1, F2.
  assert (Rabs (h [b] - h [a]) <= Rabs (e1 - h [b]) + Rabs (e1 - h [a])).
  { replace (h [b] - h [a]) with (- (e1 - h [b]) + (e1 - h [a])) by ring. eapply Rle_trans; [apply Rabs_triang|]. rewrite Rabs_Ropp. lra. }
  lra.
Qed.
Lemma unit_point y : boxPoint [-1] [1] [y] = [y].
Proof. unfold boxPoint. cbn [combine map fst snd]. f_equal. field. Qed.
Lemma seriesAt_one l c y : seriesAt [(l, c)] y = c * chebT l y.
Proof. unfold seriesAt, Rsum. cbn. ring. Qed.
Lemma seen_one l c g k : seen [(l, c)] g k = if Nat.eqb k (alias g l) then c else 0.
Proof. unfold seen, Rsum. cbn [map fold_right fst snd]. destruct (Nat.eqb k (alias g l)); ring. Qed.
Lemma rootR_1 x : 0 < x -> rootR x 1 = Some x.
Proof.
  intros H. unfold rootR. destruct (Z.eq_dec 1 0); [lia|]. destruct (Req_EM_T x 0); [lra|]. f_equal. replace (1 / IZR 1) with 1 by (simpl; lra). apply Rpower_1; auto.
Qed.

(** ** T_33 *)
Definition chebF (n : nat) : list R -> R := fun x => chebT n (nth 0 x 0).
Lemma chebF_eq n x : chebF n x = chebT n (nth 0 x 0).
Proof. reflexivity. Qed.
Notation T33 := (chebF 33).
Definition e33 : R := / 2251799813685248 / (2251799813685248 - 1).
Lemma chebT_at_m1 n : chebT n (-1) = if Nat.even n then 1 else -1.
Proof.
  enough (chebT n (-1) = (if Nat.even n then 1 else -1) /\ chebT (S n) (-1) = (if Nat.even (S n) then 1 else -1)) by tauto.
  induction n as [|n [I1 I2]]; [split; reflexivity|]. split; auto. rewrite chebT_SS, I1, I2.
  change (Nat.even (S (S n))) with (Nat.even n). rewrite Nat.even_succ, <- Nat.negb_even. destruct (Nat.even n); cbn; lra.
Qed.
Lemma approx_T33 acc fuel rel : 0 < rel < 1 -> acc T33 1%nat = true ->
  chebApproximate cosR rootR acc (S fuel) (Plain T33) [-1] [1] rel = AOk (mkT [2%nat] [0; 1], e33).
Proof.
  intros Hrel Hacc.
  assert (A8 : forall k, seen [(33%nat, 1)] 8 k = if Nat.eqb k 1 then 1 else 0) by (intros; rewrite seen_one; reflexivity).
  assert (A17 : forall k, seen [(33%nat, 1)] 17 k = if Nat.eqb k 1 then 1 else 0) by (intros; rewrite seen_one; reflexivity).
  rewrite (one_call acc fuel T33 (-1) 1 [(33%nat, 1)] rel 1 1 1 1) with (r := 2251799813685248); try lra; auto; try lia.
  - f_equal. f_equal. f_equal. cbn [seq map]. rewrite !seen_one. reflexivity.
  - intros y Hy. rewrite unit_point, seriesAt_one. unfold chebF. cbn [nth]. rewrite Rmult_1_l. reflexivity.
  - rewrite seriesAt_one, chebT_at1, Rmult_1_l, Rabs_R1. lra.
  - intros y Hy. rewrite seriesAt_one, Rmult_1_l. apply chebT_bound; auto.
  - intros k Hk. rewrite A8. destruct (Nat.eqb_spec k 1); [lia|]. rewrite Rabs_R0. lra.
  - intros k Hk. rewrite A8, A17. destruct (Nat.leb_spec k 8), (Nat.eqb_spec k 1); try lia; try (rewrite Rminus_diag_eq by auto; rewrite Rabs_R0; lra).
  - apply check_ends; auto. unfold chebF. cbn [nth]. rewrite chebT_at1, chebT_at_m1. cbn [Nat.even]. rewrite Rabs_R1. replace (1 - -1) with 2 by ring. rewrite (Rabs_left (-1)), Rabs_right by lra. lra.
  - intros k Hk. rewrite A17. destruct (Nat.eqb_spec k 1); [lia|]. rewrite Rabs_R0. left. apply Rinv_0_lt_compat. lra.
  - exists 1%nat. split; [lia|]. rewrite A17. cbn [Nat.eqb]. rewrite Rabs_R1. lra.
  - intros k Hk. rewrite A17. destruct (Nat.eqb_spec k 1); [lia|]. rewrite Rabs_R0. left. apply Rinv_0_lt_compat. lra.
  - intros k Hk Hne. rewrite !A17. destruct (Nat.eqb_spec k 1); [lia|]. cbn [Nat.eqb]. rewrite Rabs_R0, Rabs_R1. lra.
  - rewrite A17. cbn [Nat.eqb]. rewrite Rabs_R1, Rmult_1_l. change (Z.of_nat 1 - Z.of_nat 1 + 1)%Z with 1%Z. apply rootR_1. lra.
Qed.
(** 33 odd: the 33 zeros cos((2k+1) pi / 66); one of them is sqrt 3 / 2 *)
Lemma T33_zero : T33 [sqrt 3 / 2] = 0.
Proof.
  unfold chebF. cbn [nth]. rewrite <- cos_PI6, chebT_cos. replace (INR 33 * (PI / 6)) with (3 * (PI / 2) + 2 * INR 2 * PI) by (rewrite !INR_IZR_INZ; cbn; field).
  rewrite cos_period. apply cos_3PI2.
Qed.
Definition eQ : Q := 1 # (2251799813685248 * 2251799813685247).
Definition runT33Q : cres Q (cout Q) := @csolve Q Q_num (@ext1 Q Q_num) (constO (mkT [2%nat] [0#1; 1#1], eQ)) false (1 # 100000) 50 1 [Plain (fun _ => 0#1)] [(-1)#1] [1#1].
Lemma constO_hom (p : tensor Q * Q) f f' a b : fsim (h := Q2R) f f' -> hres (hte (h := Q2R)) (constO p f a b) = constO (hte (h := Q2R) p) f' (map Q2R a) (map Q2R b).
Proof. reflexivity. Qed.
Lemma solve_T33 acc fa fuel : acc T33 1%nat = true -> exists r B,
  @csolve R R_num (@ext1 R R_num) (approxOf cosR rootR acc (S fa)) false (1 / 100000) 50 (S fuel) [Plain T33] [-1] [1] = COk (mkOut [[r]] [B] [([-1], [1])]) /\
  forall x, inBox B x -> exists v, x = [v] /\ - (1 / 2) <= v <= 1 / 2.
Proof.
  intros Hacc.
  assert (EA : approxOf cosR rootR acc (S fa) (Plain T33) [-1] [1] = Ok (mkT [2%nat] [0; 1], e33)).
  { unfold approxOf. rewrite nlit_R. rewrite approx_T33; auto. lra. }
  assert (RQ : exists r lo hi, runT33Q = COk (mkOut [[r]] [[(lo, hi)]] [([(-1)#1], [1#1])]) /\ (Qle_bool ((-1)#2) lo && Qle_bool hi (1#2) = true)%bool).
  { eexists _, _, _. split; [vm_compute; reflexivity|]. vm_compute. reflexivity. }
  destruct RQ as (r & lo & hi & RQ & HB). apply andb_true_iff in HB. destruct HB as [H1 H2].
  apply Qle_bool_imp_le in H1, H2. apply Qle_Rle in H1, H2.
  exists (Q2R r), [(Q2R lo, Q2R hi)]. split.
  - apply one_shot. rewrite (switch _ _ _ _ _ _ _ _ _ EA).
    pose proof (h_csolve (NA := Q_num) (NB := R_num) (h := Q2R) Q_pos _ (@ext1 R R_num) ext1_hom _ _ (constO_hom (mkT [2%nat] [0#1; 1#1], eQ)) (1 # 100000) 50 1
      [Plain (fun _ => 0#1)] [Plain T33] [(-1)#1] [1#1] ltac:(constructor; constructor)) as HH.
    fold runT33Q in HH. rewrite RQ in HH. cbn [hc] in HH. unfold hout in HH. cbn [cRoots cBoxes cSearched map fst snd] in HH.
    assert (EM : Q2R ((-1)#1) = -1) by (unfold Q2R; cbn; lra). assert (EP : Q2R (1#1) = 1) by (unfold Q2R; cbn; lra).
    rewrite EM, EP in HH. replace (Q2R (1 # 100000)) with (1 / 100000) in HH by (unfold Q2R; cbn; lra).
    replace (hte (h := Q2R) (mkT [2%nat] [0#1; 1#1], eQ)) with (mkT [2%nat] [0; 1], e33) in HH.
    + rewrite <- HH. reflexivity.
    + unfold hte, tmap, e33, eQ. cbn [fst snd shp dat map]. f_equal; [|unfold Q2R; cbn; field]. f_equal. f_equal; [unfold Q2R; cbn; lra|]. f_equal. unfold Q2R; cbn; lra.
  - intros x Hx. unfold inBox in Hx. inversion Hx as [|v p x' l' Hv Hx']; subst. inversion Hx'; subst. exists v. split; auto. cbn [fst snd] in Hv.
    unfold Q2R at 1 in H1. unfold Q2R at 2 in H2. cbn in H1, H2. lra.
Qed.

(** ** a tiny linear function *)
Definition lin (c : R) : list R -> R := fun x => c * nth 0 x 0.
Definition eTiny (c : R) : R := / 2251799813685248 / (Rabs c * 2251799813685248 - 1).
Lemma approx_tiny acc fuel rel c : 0 < rel < 1 -> acc (lin c) 1%nat = true -> c <> 0 -> Rabs c < / 2251799813685248 ->
  chebApproximate cosR rootR acc (S fuel) (Plain (lin c)) [-1] [1] rel = AOk (mkT [2%nat] [0; c], eTiny c).
Proof.
  intros Hrel Hacc Hc Hs. pose proof (Rabs_pos_lt c Hc) as Hp.
  assert (A8 : forall k, seen [(1%nat, c)] 8 k = if Nat.eqb k 1 then c else 0) by (intros; rewrite seen_one; reflexivity).
  assert (A17 : forall k, seen [(1%nat, c)] 17 k = if Nat.eqb k 1 then c else 0) by (intros; rewrite seen_one; reflexivity).
  assert (Hlt : Rabs c * 2251799813685248 < 1).
  { apply (Rmult_lt_compat_r 2251799813685248) in Hs; [|lra]. rewrite Rinv_l in Hs by lra. lra. }
  rewrite (one_call acc fuel (lin c) (-1) 1 [(1%nat, c)] rel (Rabs c) (Rabs c) 1 1) with (r := Rabs c * 2251799813685248); try lra; auto; try lia.
  - f_equal. f_equal. f_equal. cbn [seq map]. rewrite !seen_one. reflexivity.
  - intros y Hy. rewrite unit_point, seriesAt_one. unfold lin. cbn [nth]. rewrite chebT_1. reflexivity.
  - rewrite seriesAt_one, chebT_at1, Rmult_1_r. lra.
  - intros y Hy. rewrite seriesAt_one, chebT_1, Rabs_mult. assert (Rabs y <= 1) by (apply Rabs_le; lra). pose proof (Rabs_pos y). nra.
  - intros k Hk. rewrite A8. destruct (Nat.eqb_spec k 1); [lia|]. rewrite Rabs_R0. nra.
  - intros k Hk. rewrite A8, A17. destruct (Nat.leb_spec k 8), (Nat.eqb_spec k 1); try lia; try (rewrite Rminus_diag_eq by auto; rewrite Rabs_R0; nra).
  - apply check_ends; auto. unfold lin. cbn [nth]. replace (c * 1 - c * -1) with (2 * c) by ring. replace (c * -1) with (- c) by ring. rewrite Rmult_1_r, Rabs_Ropp, Rabs_mult, (Rabs_right 2) by lra. nra.
  - intros k Hk. rewrite A17. destruct (Nat.eqb_spec k 1); [lia|]. rewrite Rabs_R0. left. apply Rinv_0_lt_compat. lra.
  - exists 1%nat. split; [lia|]. rewrite A17. cbn [Nat.eqb]. nra.
  - intros k Hk. rewrite A17. destruct (Nat.eqb_spec k 1); [lia|]. rewrite Rabs_R0. left. apply Rinv_0_lt_compat. lra.
  - intros k Hk Hne. rewrite !A17. destruct (Nat.eqb_spec k 1); [lia|]. cbn [Nat.eqb]. rewrite Rabs_R0. lra.
  - rewrite A17. cbn [Nat.eqb]. change (Z.of_nat 1 - Z.of_nat 1 + 1)%Z with 1%Z. apply rootR_1. apply Rmult_lt_0_compat; lra.
Qed.
Lemma eTiny_neg c : Rabs c < / 2251799813685248 -> eTiny c < - Rabs c.
Proof.
  intros Hs. unfold eTiny. pose proof (Rabs_pos c). set (u := Rabs c) in *.
  assert (Hlt : u * 2251799813685248 < 1).
  { apply (Rmult_lt_compat_r 2251799813685248) in Hs; [|lra]. rewrite Rinv_l in Hs by lra. lra. }
  assert (E : / 2251799813685248 / (u * 2251799813685248 - 1) + u = - ((1 + (u * 2251799813685248) * (u * 2251799813685248) * (1 - 0) - u * 2251799813685248) / (2251799813685248 * (1 - u * 2251799813685248)))).
  { field. split; lra. }
  assert (0 < (1 + (u * 2251799813685248) * (u * 2251799813685248) * (1 - 0) - u * 2251799813685248) / (2251799813685248 * (1 - u * 2251799813685248))).
  { apply Rdiv_lt_0_compat; nra. }
  lra.
Qed.
Lemma solve_tiny X acc exact minSize sfuel fa fuel c : acc (lin c) 1%nat = true -> c <> 0 -> Rabs c < / 2251799813685248 ->
  @csolve R R_num X (approxOf cosR rootR acc (S fa)) exact minSize (S sfuel) (S fuel) [Plain (lin c)] [-1] [1] = COk (mkOut [] [] [([-1], [1])]).
Proof.
  intros Hacc Hc Hs. apply (discard1 _ _ _ _ _ _ _ _ _ (mkT [2%nat] [0; c]) (eTiny c)); [lra|reflexivity| |].
  - unfold approxOf. rewrite nlit_R. rewrite approx_tiny; auto. lra.
  - unfold constantCheck. cbn [combine existsb tconst tsumabs nsumabs dat hd]. apply orb_true_iff. left.
    pose proof (eTiny_neg c Hs). unfold tsumabs, nsumabs, tconst, tget. cbn [dat map]. rewrite nsum_R. rnum. cbn [Rsum fold_right shp map ravel_index nth repeat ndim length prodn Nat.mul Nat.add].
    apply Rltb_true. rewrite Rabs_R0. unfold Rsum. cbn [fold_right]. lra.
Qed.

(** ** a function that is 1 at all the probes and 0 at 1/2 *)
Definition probes : list R := map (fun v => transformPt v (-1) 1) (probe1 1 ++ steps1 ++ probe2 1 ++ steps2).
Fixpoint vanishAt (q : R) (l : list R) : R := match l with [] => 1 | p :: r => (q - p) * vanishAt q r end.
Definition spike (x : list R) : R := 1 - vanishAt (nth 0 x 0) probes / vanishAt (1 / 2) probes.
Lemma vanish_in q l : In q l -> vanishAt q l = 0.
Proof. induction l as [|p l IH]; intros []; cbn [vanishAt]; [subst; ring|rewrite IH by auto; ring]. Qed.
Lemma vanish_out q l : ~ In q l -> vanishAt q l <> 0.
Proof.
  induction l as [|p l IH]; intros H; cbn [vanishAt]; [lra|]. apply Rmult_integral_contrapositive. split; [intros E; apply H; left; lra|].
  apply IH. intros E. apply H. right; auto.
Qed.
Lemma transform_unit (v : R) : @transformPt R R_num v (-1) 1 = v.
Proof. unfold transformPt. rnum. rewrite n2_R. field. Qed.
Lemma probes_half : ~ In (1 / 2) probes.
Proof.
  unfold probes. intros H. apply in_map_iff in H. destruct H as (v & E & H). rewrite transform_unit in E. subst v.
  unfold probe1, probe2, steps1, steps2 in H. cbn [seq map app In Nat.add] in H. rewrite !nofnat_R, !npow_R, !nlit_R in H. rnum. cbn [INR pow] in H.
  rewrite ?npow_R in H. cbn [pow] in H. repeat (destruct H as [H|H]; [lra|]). exact H.
Qed.
Lemma spike_probe p : In p probes -> spike [p] = 1.
Proof. intros H. unfold spike. cbn [nth]. rewrite vanish_in by auto. unfold Rdiv. ring. Qed.
Lemma spike_zero : spike [1 / 2] = 0.
Proof. unfold spike. cbn [nth]. field. apply vanish_out, probes_half. Qed.
Lemma in_probes v : In v (@probe1 R R_num 1 ++ steps1 ++ probe2 1 ++ steps2) -> In (transformPt v (-1) 1) probes.
Proof. intros H. unfold probes. apply (in_map (fun v => transformPt v (-1) 1)). exact H. Qed.
Lemma spike_const rel : 0 <= rel -> @checkConstantInDimension R R_num (Plain spike) [-1] [1] 0 rel 0 = true.
Proof.
  intros Hr. unfold checkConstantInDimension. cbn [length]. apply andb_true_intro.
  assert (A : forall p steps, In p (probe1 1 ++ steps1 ++ probe2 1 ++ steps2) -> (forall v, In v steps -> In v (probe1 1 ++ steps1 ++ probe2 1 ++ steps2)) ->
     @constAlong R R_num (Plain spike) (zip3 transformPt [p] [-1] [1]) [-1] [1] 0 steps rel 0 = true).
  { intros p steps Hp Hst. unfold constAlong. change (zip3 transformPt [p] [-1] [1]) with [transformPt p (-1) 1]. cbn [callAt]. rewrite (spike_probe _ (in_probes p Hp)). rnum.
    destruct (isCloseTol 1 0 rel 0) eqn:E; [apply isClose_zero in E; lra|]. apply forallb_forall. intros v Hv. cbn [upd nth].
    rewrite (spike_probe _ (in_probes v (Hst v Hv))). apply isClose_self; auto. }
  split; apply A; try (intros v Hv); rewrite ?in_app_iff; auto; cbn [probe1 probe2 seq map In]; auto.
Qed.
Lemma approx_spike acc fuel rel : 0 <= rel -> acc spike 1%nat = true ->
  chebApproximate cosR rootR acc fuel (Plain spike) [-1] [1] rel = AOk (mkT [1%nat] [1], 0).
Proof.
  intros Hrel Hacc. unfold chebApproximate. cbn [length Nat.eqb negb combine existsb fst snd]. rnum.
  assert (Q : Rltb 1 (-1) = false) by (apply Rltb_false; lra). rewrite Q. cbn [orb arityOK]. rewrite Hacc. cbn [negb].
  unfold getChebyshevDegrees. cbn [length seq map]. rnum. rewrite spike_const by auto. cbn [degreeLoop nth map].
  pose proof (interval_coeffs (Plain spike) [0%nat] [-1] [1]) as H.
  destruct (intervalApproximate cosR (Plain spike) [0%nat] [-1] [1]) as [[c s'] d'] eqn:EI. destruct H as (Hd & Hsh & [Hlen _] & H). subst d'.
  rewrite getApproxError_R; [|reflexivity|reflexivity|repeat constructor; discriminate].
  assert (E0 : errorFormula (fixDegs [0%nat]) [0] [None] = 0).
  { unfold errorFormula. cbn [fixDegs map Nat.eqb length boolLists app filter existsb orb eprod emax efac]. unfold Rsum. cbn [fold_right map eprod efac emax]. ring. }
  rnum. rewrite E0. do 2 f_equal. specialize (H [0%nat] ltac:(constructor; [simpl; lia|constructor])).
  change (fixDegs [0%nat]) with [1%nat] in H. cbn [allOps sumn] in H.
  assert (G : forall j, (j <= 1)%nat -> callAt (Plain spike) (gridPoint cosR [1%nat] [-1] [1] [j]) = 1).
  { intros j Hj. change (gridPoint cosR [1%nat] [-1] [1] [j]) with [@transformPt R R_num (cosR j 1) (-1) 1]. cbn [callAt]. apply spike_probe, in_probes.
    rewrite !in_app_iff. right; left. unfold steps1. rnum. destruct j as [|[|]]; [rewrite cosR_0; cbn; tauto| |lia].
    replace (cosR 1 1) with (- (1)); [cbn; tauto|]. unfold cosR. simpl. replace (1 * PI / 1) with PI by field. rewrite cos_PI. ring. }
  rewrite !G in H by lia.
  assert (I1 : imat 1 0 0 + imat 1 0 1 = 1) by (unfold imat, ew; cbn; rewrite !cosR_0; field).
  destruct c as [cs cd]. cbn [shp] in Hsh. subst cs. cbn [shp dat map] in Hlen. destruct cd as [|v [|? ?]]; try discriminate Hlen.
  unfold tget in H. cbn in H. f_equal. f_equal. lra.
Qed.
Lemma solve_spike X acc exact minSize sfuel fa fuel : acc spike 1%nat = true ->
  @csolve R R_num X (approxOf cosR rootR acc fa) exact minSize (S sfuel) (S fuel) [Plain spike] [-1] [1] = COk (mkOut [] [] [([-1], [1])]).
Proof.
  intros Hacc. apply (discard1 _ _ _ _ _ _ _ _ _ (mkT [1%nat] [1]) 0); [lra|reflexivity| |].
  - unfold approxOf. rewrite nlit_R. rewrite approx_spike; auto. lra.
  - unfold constantCheck. cbn [combine existsb]. apply orb_true_iff. left.
    unfold tsumabs, nsumabs, tconst, tget. cbn [dat map]. rewrite nsum_R. rnum. cbn [Rsum fold_right shp map ravel_index nth repeat ndim length prodn Nat.mul Nat.add].
    apply Rltb_true. unfold Rsum. cbn [fold_right]. rewrite Rabs_R1. lra.
Qed.
