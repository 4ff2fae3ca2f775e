(** * Whole calls of chebApproximate: arguments, shape of the result, endless calls, aliasing *)
From Coq Require Import List Arith Bool ZArith Reals Lra Lia.
From Verif Require Import Num RSum Cheb Tensor PolySpec IntervalModel IntervalProofs LinearModel TransformChebProofs SolverModel CombinedModel CombinedSpec
  ApproxModel ApproxDct ApproxInterp ApproxError ApproxDegree ApproxTerm ApproxPoly ApproxOne ApproxLoss.
From Verif Require PolyModel.
Import ListNotations.
Local Open Scope R_scope.

Lemma degreeLoop_length f a b rel abs fuel todo : forall cur cd cd' es rs,
  degreeLoop cosR rootR todo fuel f a b rel abs cur cd = Some (cd', es, rs) -> length cd' = length cd /\ length es = todo /\ length rs = todo.
Proof.
  induction todo as [|todo IH]; intros cur cd cd' es rs H; cbn [degreeLoop] in H; [injection H; intros; subst; auto|].
  assert (G : forall c2 e r, match degreeLoop cosR rootR todo fuel f a b rel abs (S cur) c2 with Some (c3, es, rs) => Some (c3, e :: es, r :: rs) | None => None end = Some (cd', es, rs) ->
     length cd' = length c2 /\ length es = S todo /\ length rs = S todo).
  { intros c2 e r Q. destruct (degreeLoop _ _ _ _ _ _ _ _ _ (S cur) c2) as [[[c3 es'] rs']|] eqn:E; [|discriminate]. injection Q. intros. subst.
    apply IH in E. cbn [length]. intuition. }
  assert (G2 : match guessLoop cosR rootR fuel f a b rel abs cur (startDegs cd) 8 with None => None | Some (deg, eps, rho) =>
      match degreeLoop cosR rootR todo fuel f a b rel abs (S cur) (upd cd cur (Some deg)) with Some (c3, es, rs) => Some (c3, eps :: es, rho :: rs) | None => None end end = Some (cd', es, rs) ->
     length cd' = length cd /\ length es = S todo /\ length rs = S todo).
  { intros Q. destruct (guessLoop _ _ _ _ _ _ _ _ _ _ _) as [[[d e] r]|]; [|discriminate]. apply G in Q. rewrite upd_length in Q. exact Q. }
  destruct (nth cur cd None) as [[|k]|]; auto. apply G in H; auto.
Qed.
Lemma degrees_length f a b rel abs fuel degs es rs : getChebyshevDegrees cosR rootR fuel f a b rel abs = Some (degs, es, rs) ->
  length degs = length a /\ length es = length a /\ length rs = length a.
Proof.
  unfold getChebyshevDegrees. intros H. destruct (degreeLoop _ _ _ _ _ _ _ _ _ _ _) as [[[c e] r]|] eqn:E; [|discriminate].
  injection H. intros. subst. apply degreeLoop_length in E. rewrite map_length in *. rewrite seq_length in E. intuition.
Qed.

Section Call.
  Variable acc : (list R -> R) -> nat -> bool.
  Notation call := (chebApproximate cosR rootR acc).
  Lemma call_ok fuel f a b rel M e : call fuel f a b rel = AOk (M, e) -> exists degs es rs,
    getChebyshevDegrees cosR rootR fuel f a b rel 0 = Some (degs, es, rs) /\ M = fst (fst (intervalApproximate cosR f degs a b)) /\
    getApproxError (fixDegs degs) es rs = Some e /\ length degs = length a /\ length es = length a /\ length rs = length a /\ length a = length b.
  Proof.
    unfold chebApproximate. intros H.
    assert (G : (if negb (length a =? length b) then ABadLengths else if existsb (fun p => nltb (snd p) (fst p)) (combine a b) then AInverted
       else if negb (arityOK acc f (length a)) then AArity else if length a =? 0 then AEmpty
       else match getChebyshevDegrees cosR rootR fuel f a b rel n0 with None => AFuel | Some (degs, eps, rhos) =>
           let '(coeffs, _, degs) := intervalApproximate cosR f degs a b in match getApproxError degs eps rhos with None => ANotFinite | Some e => AOk (coeffs, e) end end) = AOk (M, e)) by (destruct f; [discriminate|exact H..]).
    clear H. destruct (Nat.eqb_spec (length a) (length b)) as [Q|Q]; cbn [negb] in G; [|discriminate].
    destruct (existsb _ _); [discriminate|]. destruct (arityOK acc f (length a)); cbn [negb] in G; [|discriminate]. destruct (length a =? 0); [discriminate|].
    change (@n0 R R_num) with 0 in G. destruct (getChebyshevDegrees cosR rootR fuel f a b rel 0) as [[[degs es] rs]|] eqn:E; [|discriminate].
    exists degs, es, rs. split; [reflexivity|]. apply degrees_length in E.
    destruct (intervalApproximate cosR f degs a b) as [[c s] d] eqn:E2.
    assert (d = fixDegs degs) by (change d with (snd (c, s, d)); rewrite <- E2; reflexivity). subst d.
    destruct (getApproxError (fixDegs degs) es rs) as [e'|]; [|discriminate]. injection G. intros. subst. cbn [fst]. intuition.
  Qed.
  Lemma call_shape fuel f a b rel M e : call fuel f a b rel = AOk (M, e) -> wf M /\ ndim M = length a.
  Proof.
    intros H. apply call_ok in H. destruct H as (degs & es & rs & _ & -> & _ & L & _).
    pose proof (interval_coeffs f degs a b) as I. destruct (intervalApproximate cosR f degs a b) as [[c s] d]. destruct I as (_ & S & W & _). cbn [fst].
    split; auto. unfold ndim. rewrite S, map_length. auto.
  Qed.

  Definition inverted (a b : list R) : Prop := exists i, (i < length a)%nat /\ nth i b 0 < nth i a 0.
  Lemma inverted_iff a b : length a = length b -> (existsb (fun p => nltb (snd p) (fst p)) (combine a b) = true <-> inverted a b).
  Proof.
    unfold inverted. revert b; induction a as [|x a IH]; intros [|y b] H; simpl in H; try lia; cbn [combine existsb fst snd].
    - split; [discriminate|intros (i & Hi & _); simpl in Hi; lia].
    - rewrite orb_true_iff, IH by lia. unfold nltb at 1, R_num at 1. rewrite Rltb_true. split.
      + intros [Q|(i & Hi & Q)]; [exists 0%nat; split; [simpl; lia|exact Q]|exists (S i); split; [simpl; lia|exact Q]].
      + intros ([|i] & Hi & Q); [left; exact Q|right; exists i; split; [simpl in Hi; lia|exact Q]].
  Qed.
  Lemma call_args fuel f a b rel :
    (call fuel f a b rel = ANotCallable <-> f = NotCallable) /\
    (call fuel f a b rel = ABadLengths <-> f <> NotCallable /\ length a <> length b) /\
    (call fuel f a b rel = AInverted <-> f <> NotCallable /\ length a = length b /\ inverted a b) /\
    (call fuel f a b rel = AArity <-> f <> NotCallable /\ length a = length b /\ ~ inverted a b /\ arityOK acc f (length a) = false).
  Proof.
    destruct f as [|h|t|t].
    { unfold chebApproximate. repeat split; try discriminate; intros H; try (destruct H as (H & _); contradiction); auto. }
    all: match goal with |- (chebApproximate _ _ _ _ ?f _ _ _ = _ <-> _) /\ _ => set (F := f); assert (NC : F <> NotCallable) by discriminate end.
    all: assert (G : call fuel F a b rel =
      (if negb (length a =? length b) then ABadLengths else if existsb (fun p => nltb (snd p) (fst p)) (combine a b) then AInverted
       else if negb (arityOK acc F (length a)) then AArity else if length a =? 0 then AEmpty
       else match getChebyshevDegrees cosR rootR fuel F a b rel n0 with None => AFuel | Some (degs, eps, rhos) =>
           let '(coeffs, _, degs) := intervalApproximate cosR F degs a b in match getApproxError degs eps rhos with None => ANotFinite | Some e => AOk (coeffs, e) end end)) by reflexivity.
    all: clearbody F.
    all: rewrite G; clear G; destruct (Nat.eqb_spec (length a) (length b)) as [Q|Q]; cbn [negb];
      [pose proof (inverted_iff a b Q) as II; destruct (existsb _ _);
        [assert (inverted a b) by tauto; repeat split; try discriminate; try tauto
        |assert (~ inverted a b) by (intros X; apply II in X; discriminate); destruct (arityOK acc F (length a)); cbn [negb];
           [set (r := if length a =? 0 then _ else _);
            assert (r <> ANotCallable /\ r <> ABadLengths /\ r <> AInverted /\ r <> AArity) by
             (unfold r; destruct (length a =? 0); [repeat split; discriminate|]; destruct (getChebyshevDegrees _ _ _ _ _ _ _ _) as [[[? ?] ?]|];
               [destruct (intervalApproximate _ _ _ _ _) as [[? ?] ?]; destruct (getApproxError _ _ _)|]; repeat split; discriminate); clearbody r;
            repeat split; try tauto; intros X; exfalso; try tauto; destruct X as (_ & _ & _ & X); discriminate
           |repeat split; try discriminate; try tauto]]
      |repeat split; try discriminate; try tauto].
  Qed.

  (** what remains when the arguments are right *)
  Lemma call_right fuel f a b rel : f <> NotCallable -> length a = length b -> ~ inverted a b -> arityOK acc f (length a) = true -> (0 < length a)%nat ->
    call fuel f a b rel = match getChebyshevDegrees cosR rootR fuel f a b rel 0 with None => AFuel | Some (degs, eps, rhos) =>
           match getApproxError (fixDegs degs) eps rhos with None => ANotFinite | Some e => AOk (fst (fst (intervalApproximate cosR f degs a b)), e) end end.
  Proof.
    intros H1 H2 H3 H4 H5. unfold chebApproximate. rewrite (proj2 (Nat.eqb_eq _ _) H2).
    assert (E : existsb (fun p => nltb (snd p) (fst p)) (combine a b) = false) by (apply not_true_iff_false; rewrite inverted_iff; auto).
    rewrite E, H4. cbn [negb]. assert (E0 : (length a =? 0) = false) by (apply Nat.eqb_neq; lia). rewrite E0. change (@n0 R R_num) with 0.
    destruct f; [contradiction| | |]; reflexivity.
  Qed.
  Lemma ordered_not_inverted a b : ordered a b -> ~ inverted a b.
  Proof.
    intros [L F] (i & Hi & Q). rewrite Forall_forall in F. specialize (F (nth i a 0, nth i b 0)). cbn [fst snd] in F.
    assert (In (nth i a 0, nth i b 0) (combine a b)) by (rewrite <- combine_nth by auto; apply nth_In; rewrite combine_length; lia). specialize (F H). lra.
  Qed.

  (** ** endless calls *)
  Lemma loop_None fuel f a b rel cur cd todo : (cur < length a)%nat -> nth cur cd None = None ->
    guessLoop cosR rootR fuel f a b rel 0 cur (startDegs cd) 8 = None -> degreeLoop cosR rootR (S todo) fuel f a b rel 0 cur cd = None.
  Proof. intros H1 H2 H3. cbn [degreeLoop]. rewrite H2, H3. reflexivity. Qed.
  Lemma call_endless fuel f a b rel : f <> NotCallable -> length a = length b -> ~ inverted a b -> arityOK acc f (length a) = true -> (0 < length a)%nat ->
    checkConstantInDimension f a b 0 rel 0 = false ->
    (let D := fixDegs (startDegs (map (fun cur => if checkConstantInDimension f a b cur rel 0 then Some 0%nat else None) (seq 0 (length a)))) in
     forall g idx, inrange (map S (upd D 0 g)) idx -> callAt f (gridPoint cosR (upd D 0 g) a b idx) = 0) ->
    call fuel f a b rel = AFuel.
  Proof.
    intros H1 H2 H3 H4 H5 HC HZ. rewrite call_right by auto. unfold getChebyshevDegrees.
    set (cd := map _ _) in *. destruct (length a) as [|n] eqn:L; [lia|]. rewrite loop_None; auto; [lia| |].
    - unfold cd. cbn [seq map nth]. rewrite HC. reflexivity.
    - apply (vanish_loop f a b rel 0 (startDegs cd)); auto; try lia. rewrite startDegs_length. unfold cd. rewrite map_length, seq_length. auto.
  Qed.
  Lemma call_zero fuel f a b rel : (forall x, length x = length a -> callAt f x = 0) -> f <> NotCallable -> length a = length b -> ~ inverted a b -> arityOK acc f (length a) = true -> (0 < length a)%nat ->
    call fuel f a b rel = AFuel.
  Proof.
    intros HZ H1 H2 H3 H4 H5. apply call_endless; auto.
    - apply check_zero_probe. apply HZ. unfold zip3, probe1. rewrite map_length, !combine_length, map_length, seq_length. lia.
    - intros D g idx HI. apply HZ. apply inrange_length in HI. rewrite map_length in HI.
      assert (LD : length (upd D 0 g) = length a) by (unfold D; rewrite upd_length, fixDegs_length, startDegs_length, map_length, seq_length; reflexivity).
      unfold gridPoint, zip3. rewrite map_length, !combine_length, map_length, combine_length. lia.
  Qed.

  (** x (T_4(y) - T_6(y)) vanishes on the 6 grid lines y = cos(j pi/5) *)
  Definition slats : fobj R := MCheb (mkT [2; 7]%nat [0;0;0;0;0;0;0; 0;0;0;0;1;0;-1]).
  Lemma slats_value x y : valueOf slats [x; y] = x * (chebT 4 y - chebT 6 y).
  Proof.
    unfold slats, valueOf, cheb_eval. cbn [shp sumidx sumn basis].
    cbn. ring.
  Qed.
  Lemma slats_object : polyObject 2 slats.
  Proof. eexists. split; [|split; [|right; reflexivity]]; [split; [reflexivity|repeat constructor; lia]|reflexivity]. Qed.
  Lemma slats_call x y : callAt slats [x; y] = x * (chebT 4 y - chebT 6 y).
  Proof. rewrite (callAt_value 2) by (try apply slats_object; reflexivity). apply slats_value. Qed.
  Lemma slats_node j : chebT 4 (cosR j 5) - chebT 6 (cosR j 5) = 0.
  Proof.
    unfold cosR. rewrite !chebT_cos. replace (INR 6 * (INR j * PI / INR 5)) with (- (INR 4 * (INR j * PI / INR 5)) + 2 * INR j * PI) by (rewrite !(INR_IZR_INZ 5), !(INR_IZR_INZ 4), !(INR_IZR_INZ 6); cbn; field).
    rewrite cos_period, cos_neg. ring.
  Qed.
  Lemma slats_endless fuel f rel : f <> NotCallable -> arityOK acc f 2 = true -> (forall x y, callAt f [x; y] = x * (chebT 4 y - chebT 6 y)) ->
    0 < rel < 1 -> call fuel f [-1; -1] [1; 1] rel = AFuel.
  Proof.
    intros HN HAr slats_call Hrel. assert (CP : forall x y, @transformPt R R_num x (-1) 1 = y -> x = y) by (intros; rewrite transform_unit in H; auto).
    assert (HC : @checkConstantInDimension R R_num f [-1; -1] [1; 1] 0 rel 0 = false).
    { unfold checkConstantInDimension. apply andb_false_iff. left. unfold constAlong. cbn [length]. set (x := zip3 _ _ _ _).
      destruct (isCloseTol (callAt f x) n0 rel 0) eqn:E; auto. apply not_true_iff_false. intros HF. rewrite forallb_forall in HF.
      specialize (HF 0). cbn [nth] in HF. rewrite transform_unit in HF.
      assert (HX : exists u v, x = [u; v]) by (unfold x, probe1, zip3; cbn [seq map combine]; eauto). destruct HX as (u & v & HX). rewrite HX in *. cbn [upd] in HF.
      rewrite !slats_call in *. rewrite Rmult_0_l in HF. change (@n0 R R_num) with 0 in E. rewrite HF in E; [discriminate|]. cbn [steps1 In]. change (@n0 R R_num) with 0. tauto. }
    apply call_endless; auto; try discriminate; try reflexivity.
    - apply ordered_not_inverted. split; [reflexivity|]. repeat constructor; cbn; lra.
    - cbn; lia.
    - intros D g idx. unfold D. clear D. cbn [length seq map]. rewrite HC.
      match goal with |- context [startDegs [None; ?c]] => assert (Hc : c = None) end.
      { assert (E : @checkConstantInDimension R R_num f [-1; -1] [1; 1] 1 rel 0 = false); [|rewrite E; reflexivity].
        unfold checkConstantInDimension. apply andb_false_iff. left. unfold constAlong. cbn [length]. set (x := zip3 _ _ _ _).
        destruct (isCloseTol (callAt f x) n0 rel 0) eqn:E; auto. apply not_true_iff_false. intros HF. rewrite forallb_forall in HF.
        specialize (HF 1). cbn [nth] in HF. rewrite transform_unit in HF.
        assert (HX : exists u v, x = [u; v]) by (unfold x, probe1, zip3; cbn [seq map combine]; eauto). destruct HX as (u & v & HX). rewrite HX in *. cbn [upd] in HF.
        rewrite !slats_call in *. rewrite !chebT_at1 in HF. replace (u * (1 - 1)) with 0 in HF by ring. change (@n0 R R_num) with 0 in E. rewrite HF in E; [discriminate|]. cbn [steps1 In]. change (@n1 R R_num) with 1. tauto. }
      rewrite Hc. change (fixDegs (startDegs [None; None])) with [5; 5]%nat. cbn [upd].
      intros HI. inversion HI as [|i ? r ? Hi Hr]; subst. inversion Hr as [|j ? r' ? Hj Hr']; subst. inversion Hr'; subst.
      unfold gridPoint, zip3. cbn [combine map fst snd]. rewrite !transform_unit, slats_call, slats_node. ring.
  Qed.
End Call.

(** ** x + T_2(x) / 2^102: geometric decay at exactly the rate the approximator assumes *)
Definition bentC : R := / 2251799813685248 / 2251799813685248.
Definition bent : list R -> R := fun x => nth 0 x 0 + bentC * (2 * nth 0 x 0 * nth 0 x 0 - 1).
Definition bentP : tensor R := mkT [3%nat] [0; 1; bentC].
Notation bentT := [(1%nat, 1); (2%nat, bentC)].
Lemma bentC_small : 0 < bentC < / 4503599627370496.
Proof.
  unfold bentC. assert (P : 0 < / 2251799813685248) by (apply Rinv_0_lt_compat; lra). split; [apply Rmult_lt_0_compat; auto|].
  apply Rlt_le_trans with (/ 2251799813685248 / 2); [|right; field]. unfold Rdiv. apply Rmult_lt_compat_l; auto. apply Rinv_lt_contravar; lra.
Qed.
Lemma seen_bent g k : seen bentT g k = (if Nat.eqb k (alias g 1) then 1 else 0) + (if Nat.eqb k (alias g 2) then bentC else 0).
Proof. unfold seen. cbn [map fst snd]. rewrite !Rsum_cons. unfold Rsum. cbn [fold_right]. destruct (k =? alias g 1), (k =? alias g 2); ring. Qed.
Lemma bent_series y : seriesAt bentT y = y + bentC * (2 * y * y - 1).
Proof. unfold seriesAt. cbn [map fst snd]. rewrite !Rsum_cons. unfold Rsum. cbn [fold_right chebT]. change (chebT 2 y) with (2 * y * y - 1). change (chebT 1 y) with y. ring. Qed.
Lemma bentP_eval y : cheb_eval bentP [y] = y + bentC * (2 * y * y - 1).
Proof. unfold cheb_eval, bentP. cbn. ring. Qed.
Lemma bent_box y : bent (boxPoint [-1] [1] [y]) = y + bentC * (2 * y * y - 1).
Proof. rewrite unit_point. reflexivity. Qed.
Lemma bent_facts fuel rel : 0 < rel <= 1 / 2 -> getChebyshevDegrees cosR rootR (S fuel) (Plain bent) [-1] [1] rel 0 = Some ([1%nat], [/ 2251799813685248], [Some 2251799813685248]).
Proof.
  intros Hrel. pose proof bentC_small as HB. assert (PS : / 4503599627370496 < 1) by (apply Rlt_le_trans with (/ 1); [apply Rinv_lt_contravar; lra|lra]).
  assert (A8 : forall k, seen bentT 8 k = (if Nat.eqb k 1 then 1 else 0) + (if Nat.eqb k 2 then bentC else 0)) by (intros; rewrite seen_bent; reflexivity).
  assert (A17 : forall k, seen bentT 17 k = (if Nat.eqb k 1 then 1 else 0) + (if Nat.eqb k 2 then bentC else 0)) by (intros; rewrite seen_bent; reflexivity).
  apply (one_degrees fuel bent (-1) 1 bentT rel 1 2 1 1); try lra; try lia.
  - intros y Hy. rewrite bent_box, bent_series. reflexivity.
  - rewrite bent_series. rewrite Rabs_right by lra. lra.
  - intros y Hy. rewrite bent_series. apply Rabs_le. nra.
  - intros k Hk. rewrite A8. destruct (Nat.eqb_spec k 1), (Nat.eqb_spec k 2); try lia. rewrite Rplus_0_r, Rabs_R0. lra.
  - intros k Hk. rewrite A8, A17. destruct (Nat.leb_spec k 8), (Nat.eqb_spec k 1), (Nat.eqb_spec k 2); try lia; try (rewrite Rminus_diag_eq by auto; rewrite Rabs_R0; lra).
    rewrite Rplus_0_r, Rminus_0_r, Rabs_R0. lra.
  - apply check_ends; [lra|]. unfold bent. cbn [nth]. replace (1 + bentC * (2 * 1 * 1 - 1) - (-1 + bentC * (2 * -1 * -1 - 1))) with 2 by ring.
    rewrite (Rabs_left (-1 + _)) by lra. rewrite (Rabs_right 2), (Rabs_right (1 + _)) by lra. lra.
  - intros k Hk. rewrite A17. destruct (Nat.eqb_spec k 1), (Nat.eqb_spec k 2); try lia. rewrite Rplus_0_r, Rabs_R0. lra.
  - exists 1%nat. split; [lia|]. rewrite A17. cbn [Nat.eqb]. rewrite Rplus_0_r, Rabs_R1. lra.
  - intros k Hk. rewrite A17. destruct (Nat.eqb_spec k 1); [lia|]. assert (/ 4503599627370496 < / 2251799813685248) by (apply Rinv_lt_contravar; lra).
    destruct (Nat.eqb_spec k 2); rewrite Rplus_0_l; [rewrite Rabs_right by lra|rewrite Rabs_R0]; lra.
  - intros k Hk Hne. rewrite !A17. cbn [Nat.eqb]. destruct (Nat.eqb_spec k 1); [lia|]. rewrite Rplus_0_l, Rplus_0_r, Rabs_R1.
    destruct (Nat.eqb_spec k 2); [rewrite Rabs_right by lra|rewrite Rabs_R0]; lra.
  - rewrite A17. cbn [Nat.eqb]. rewrite Rplus_0_r, Rabs_R1, Rmult_1_l. change (Z.of_nat 1 - Z.of_nat 1 + 1)%Z with 1%Z. apply rootR_1. lra.
Qed.
Lemma bent_call acc fuel rel : 0 < rel <= 1 / 2 -> acc bent 1%nat = true ->
  chebApproximate cosR rootR acc (S fuel) (Plain bent) [-1] [1] rel = AOk (mkT [2%nat] [bentC; 1], e33).
Proof.
  intros Hrel Ha. rewrite call_right; auto; try discriminate.
  2:{ apply ordered_not_inverted. split; [reflexivity|]. repeat constructor. cbn. lra. }
  rewrite bent_facts by auto. rewrite getApproxError_R; [|reflexivity|reflexivity|repeat constructor; intros Q; injection Q; lra].
  rewrite (one_tensor (Plain bent) (-1) 1 bentT) by (auto; intros; cbn [callAt]; rewrite bent_box, bent_series; reflexivity).
  cbn [seq map]. rewrite !seen_bent. change (alias 1 1) with 1%nat. change (alias 1 2) with 0%nat. cbn [Nat.eqb]. rewrite Rplus_0_l, Rplus_0_r.
  enough (E : errorFormula (fixDegs [1%nat]) [/ 2251799813685248] [Some 2251799813685248] = e33) by (rewrite E; reflexivity).
  unfold errorFormula, e33. cbn [fixDegs map Nat.eqb length boolLists app filter existsb orb eprod emax efac]. unfold Rsum. cbn [map fold_right eprod emax efac].
  rewrite Rmax_left by (left; apply Rinv_0_lt_compat; lra). field.
Qed.
Lemma bent_error : e33 < Rabs (bent [0] - cheb_eval (mkT [2%nat] [bentC; 1]) [0]).
Proof.
  pose proof bentC_small. unfold bent, cheb_eval. cbn. replace (0 + bentC * (2 * 0 * 0 - 1) - (bentC * (1 * 1) + (1 * (0 * 1) + 0))) with (- (2 * bentC)) by ring.
  rewrite Rabs_Ropp, Rabs_right by lra. unfold bentC, e33. replace (2 * (/ 2251799813685248 / 2251799813685248)) with (/ 2251799813685248 * / (2251799813685248 / 2)) by field.
  unfold Rdiv at 1. apply Rmult_lt_compat_l; [apply Rinv_0_lt_compat; lra|]. apply Rinv_lt_contravar; lra.
Qed.
Lemma bent_decay : decaysFrom [1%nat] [/ 2251799813685248] [Some 2251799813685248] bentP.
Proof.
  intros L HL HW. inversion HL as [|k ? r ? Hk Hr]; subst. inversion Hr; subst. unfold within in HW. cbn [combine forallb fst snd] in HW. rewrite andb_true_r in HW.
  apply Nat.leb_gt in HW. assert (k = 2%nat) by (cbn in Hk; lia). subst k. pose proof bentC_small.
  unfold bentP, tget, beyond. cbn. rewrite Rabs_right by lra. rewrite Rmax_left by (left; apply Rinv_0_lt_compat; lra). rewrite !Rmult_1_r. right. unfold bentC. reflexivity.
Qed.
