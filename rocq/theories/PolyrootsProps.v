(** * Property theorem C112: eigensolve of polyroots.py *)
From Coq Require Import List Arith Bool ZArith Reals Lia Lra Permutation Sorting.Sorted.
From Coquelicot Require Import Complex.
From Coq Require Import List.
From Verif Require Import Num OneDSpec OneDModel OneDProofs OneDLink OneDProps PolyrootsModel PolyrootsSpec.
Import ListNotations.
Local Open Scope R_scope.

(** ** unique *)
Lemma lexLt_iff x y : lexLt x y = true <-> before x y.
Proof. unfold lexLt, before. destruct (Rlt_dec (fst x) (fst y)); [intuition|]. destruct (Req_EM_T (fst x) (fst y)); [|split; [discriminate|intros [?|(? & _)]; contradiction]]. destruct (Rlt_dec (snd x) (snd y)); split; intros; auto; try discriminate. exfalso. destruct H as [?|(_ & ?)]; lra. Qed.
Lemma before_total x y : before x y \/ before y x \/ x = y.
Proof. unfold before. destruct (Rtotal_order (fst x) (fst y)) as [|[|]]; [auto| |auto]. destruct (Rtotal_order (snd x) (snd y)) as [|[|]]; [auto| |auto]. right. right. destruct x, y; cbn in *; congruence. Qed.
Lemma before_trans x y z : before x y -> before y z -> before x z.
Proof. unfold before. intros [?|(? & ?)] [?|(? & ?)]; lra. Qed.
Lemma before_irrefl x : ~ before x x.
Proof. unfold before. lra. Qed.
Lemma insertC_in z l x : In x (insertC z l) <-> x = z \/ In x l.
Proof.
  induction l as [|y l IH]; cbn [insertC]; [cbn; intuition|]. destruct (lexLt z y) eqn:E1; [cbn; intuition|]. destruct (lexLt y z) eqn:E2; [cbn [In]; rewrite IH; intuition|].
  assert (y = z) as ->; [|cbn; intuition]. destruct (before_total y z) as [H|[H|H]]; auto; apply lexLt_iff in H; congruence.
Qed.
Lemma insertC_sorted z l : StronglySorted before l -> StronglySorted before (insertC z l).
Proof.
  induction 1 as [|y l HS IH HF]; cbn [insertC]; [repeat constructor|]. destruct (lexLt z y) eqn:E1.
  - apply lexLt_iff in E1. constructor; [constructor; auto|]. constructor; [auto|]. eapply Forall_impl; [|exact HF]. intros a. apply before_trans; auto.
  - destruct (lexLt y z) eqn:E2; [|constructor; auto]. apply lexLt_iff in E2. constructor; [auto|]. apply Forall_forall. intros a Ha. apply insertC_in in Ha. destruct Ha as [->|Ha]; [auto|]. rewrite Forall_forall in HF. auto.
Qed.
Lemma sorted_NoDup l : StronglySorted before l -> NoDup l.
Proof. induction 1 as [|y l HS IH HF]; constructor; auto. intros Hy. rewrite Forall_forall in HF. exact (before_irrefl y (HF y Hy)). Qed.
Lemma sorted_filter (f : C -> bool) l : StronglySorted before l -> StronglySorted before (filter f l).
Proof. induction 1 as [|y l HS IH HF]; cbn [filter]; [constructor|]. destruct (f y); [|auto]. constructor; [auto|]. rewrite Forall_forall in *. intros a Ha. apply filter_In in Ha. apply HF, Ha. Qed.
Lemma unique_finite l (P : C -> Prop) : (forall o, In o l <-> exists z, o = Some z /\ P z) -> exists u, unique l = map Some u /\ StronglySorted before u /\ forall z, In z u <-> P z.
Proof.
  intros H. assert (F : forall l, (forall o, In o l -> o <> None) -> filter (fun o : option C => match o with None => true | Some _ => false end) l = [] /\ forall z, In z (finite l) <-> In (Some z) l).
  { clear. induction l as [|[z|] l IH]; intros H; cbn [filter finite].
    - split; [reflexivity|cbn; tauto].
    - destruct IH as (I1 & I2); [intros o Ho; apply H; right; auto|]. split; [auto|]. intros w. cbn [In]. rewrite I2. split; [intros [->|]; auto|intros [E|]; auto; injection E; auto].
    - exfalso. exact (H None (or_introl eq_refl) eq_refl). }
  destruct (F l) as (F1 & F2); [intros o Ho; apply H in Ho; destruct Ho as (z & -> & _); discriminate|]. exists (fold_right insertC [] (finite l)). unfold unique. rewrite F1, app_nil_r. split; [reflexivity|]. split.
  - clear. induction (finite l); cbn [fold_right]; [constructor|apply insertC_sorted; auto].
  - intros z. assert (G : forall k, In z (fold_right insertC [] k) <-> In z k) by (induction k as [|w k IH]; cbn [fold_right]; [tauto|rewrite insertC_in, IH; cbn; intuition]). rewrite G, F2, H. split; [intros (w & E & Hw); injection E as ->; auto|intros Hz; exists z; auto].
Qed.
Lemma near_iff zs z : near (map Some zs) (Some z) = true <-> exists w, In w zs /\ Cmod (w - z)%C < 1 / 10 ^ 10.
Proof.
  unfold near. rewrite existsb_exists. split.
  - intros (o & Ho & E). apply in_map_iff in Ho. destruct Ho as (w & <- & Hw). exists w. split; [auto|]. destruct (Rlt_dec _ _) as [H|]; [exact H|discriminate].
  - intros (w & Hw & H). exists (Some w). split; [apply in_map; auto|]. destruct (Rlt_dec _ _) as [|N]; [reflexivity|]. destruct (N H).
Qed.
Lemma filter_near zs u : filter (near (map Some zs)) (map Some u) = map Some (filter (fun z => near (map Some zs) (Some z)) u).
Proof. induction u as [|z u IH]; [reflexivity|]. cbn [map filter]. destruct (near (map Some zs) (Some z)); cbn [map]; rewrite IH; reflexivity. Qed.

(** ** the loop *)
Lemma solveOne_exact eigvals eigLeft MS u p : (forall n M, spectrum n M (eigvals n M)) -> (forall n M, leftSpectrum n M (eigLeft n M)) -> goodPoly p -> (MS = 0%Z \/ MS = (-1)%Z /\ fst (fst p) = Power) ->
  exists l, solveOne eigvals eigLeft MS u p = Other (Zeros l) /\ forall o, In o l <-> exists z, o = Some z /\ valueAt p z = RtoC 0.
Proof.
  intros He Hf HG HM. destruct p as [[k d] coeff]. destruct HG as (-> & HL). cbn [solveOne valueAt fst] in *. destruct k.
  - apply C67_power_zeros; auto. destruct HM as [|(? & _)]; auto.
  - destruct HM as [->|(_ & ?)]; [|discriminate]. apply C68_chebyshev_zeros; auto.
Qed.
Lemma nth_end {A} (l : list A) d : nth (length l - 1) l d = last l d.
Proof. induction l as [|a [|b l] IH]; [reflexivity|reflexivity|]. change (last (a :: b :: l) d) with (last (b :: l) d). rewrite <- IH. cbn [length]. replace (S (S (length l)) - 1)%nat with (S (S (length l) - 1)) by lia. reflexivity. Qed.
Lemma chain_snoc ps p zs z : zs <> [] -> chain (ps ++ [p]) (zs ++ [z]) <-> chain ps zs /\ valueAt p z = RtoC 0 /\ Cmod (last zs (RtoC 0) - z)%C < 1 / 10 ^ 10.
Proof.
  intros NZ. unfold chain. split.
  - intros (F & H). apply Forall2_app_inv_l in F. destruct F as (z1 & z2 & F1 & F2 & E). inversion F2 as [|? w ? ? Hw F3]; subst. inversion F3; subst. apply app_inj_tail in E. destruct E as (<- & <-).
    split; [split; [auto|]|split; [auto|]].
    + intros i Hi. specialize (H i). rewrite app_length in H. cbn [length] in H. rewrite !app_nth1 in H by lia. apply H. lia.
    + assert (L : (0 < length zs)%nat) by (destruct zs; [congruence|cbn; lia]). specialize (H (length zs - 1)%nat). rewrite app_length in H. cbn [length] in H. rewrite app_nth1 in H by lia. rewrite app_nth2 in H by lia. replace (S (length zs - 1) - length zs)%nat with 0%nat in H by lia. cbn [nth] in H.
      rewrite nth_end in H. apply H. lia.
  - intros ((F & H) & HV & HC). split; [apply Forall2_app; auto|]. intros i Hi. rewrite app_length in Hi. cbn [length] in Hi. destruct (Nat.eq_dec (S i) (length zs)) as [E|E].
    + rewrite app_nth1 by lia. rewrite app_nth2 by lia. rewrite E, Nat.sub_diag. cbn [nth].
      replace i with (length zs - 1)%nat by lia. rewrite nth_end. exact HC.
    + rewrite !app_nth1 by lia. apply H. lia.
Qed.
Lemma chain_length ps zs : chain ps zs -> length zs = length ps.
Proof. intros (F & _). induction F; cbn; auto. Qed.
Lemma loop_chain eigvals eigLeft MS u : (forall n M, spectrum n M (eigvals n M)) -> (forall n M, leftSpectrum n M (eigLeft n M)) ->
  forall rest done zs, Forall goodPoly rest -> (MS = 0%Z \/ MS = (-1)%Z /\ Forall (fun p => fst (fst p) = Power) rest) -> done <> [] -> StronglySorted before zs ->
    (forall z, In z zs <-> exists c, chain done c /\ last c (RtoC 0) = z) ->
    exists l, commonLoop eigvals eigLeft MS u (map Some zs) rest = Finds (map Some l) /\ StronglySorted before l /\ forall z, In z l <-> exists c, chain (done ++ rest) c /\ last c (RtoC 0) = z.
Proof.
  intros He Hf. induction rest as [|p rest IH]; intros done zs HG HM ND HS HZ; cbn [commonLoop].
  - exists zs. rewrite app_nil_r. auto.
  - inversion HG as [|? ? Hp HG']; subst. destruct zs as [|z0 zs0]; cbn [map].
    + exists []. split; [reflexivity|]. split; [constructor|]. intros z. split; [intros []|]. intros (c & (F & H) & _). exfalso. apply Forall2_app_inv_l in F. destruct F as (c1 & c2 & F1 & F2 & ->).
      apply (HZ (last c1 (RtoC 0))). exists c1. split; [|reflexivity]. split; [auto|]. intros i Hi. specialize (H i). rewrite app_length in H. rewrite !app_nth1 in H by lia. apply H. lia.
    + set (zs := z0 :: zs0) in *. change (Some z0 :: map Some zs0) with (map Some zs). assert (HM1 : MS = 0%Z \/ MS = (-1)%Z /\ fst (fst p) = Power) by (destruct HM as [|(? & HF)]; [auto|inversion HF; auto]).
      destruct (solveOne_exact eigvals eigLeft MS u p He Hf Hp HM1) as (l & E & Hl). rewrite E. destruct (unique_finite l _ Hl) as (w & EU & SU & HU). rewrite EU, filter_near.
      replace (done ++ p :: rest) with ((done ++ [p]) ++ rest) by (rewrite <- app_assoc; reflexivity). apply IH; auto.
      { destruct HM as [|(? & HF)]; [auto|inversion HF; auto]. }
      { destruct done; discriminate. }
      { apply sorted_filter; auto. }
      intros z. rewrite filter_In, HU, near_iff. split.
      * intros (V & y & Hy & Hc). apply HZ in Hy. destruct Hy as (c & Hc1 & <-). assert (c <> []) by (intros ->; apply chain_length in Hc1; destruct done; [congruence|discriminate]). exists (c ++ [z]). split; [apply chain_snoc; auto|apply last_last].
      * intros (c & Hc & EL). pose proof (chain_length _ _ Hc) as Lc. rewrite app_length in Lc. cbn [length] in Lc. destruct (exists_last (l := c)) as (c' & y & ->); [intros ->; cbn in Lc; lia|]. rewrite last_last in EL. subst y.
        assert (c' <> []) by (intros ->; cbn in Lc; destruct done; [congruence|cbn in Lc; lia]). apply chain_snoc in Hc; [|auto]. destruct Hc as (Hc & HV & HD). split; [auto|]. exists (last c' (RtoC 0)). split; [apply HZ; exists c'; auto|auto].
Qed.
(** C112: eigensolve on two or more polynomials in one variable, with exact eigenvalues: it returns, in increasing order and once each, exactly the last numbers of the
    chains that lead from a zero of the first polynomial to a zero of the last one, each within 1e-10 of the one before. *)
Theorem C112_common_zeros_are_chains :
  forall eigvals eigLeft (MSmatrix : Z) (useEigvals : bool) polys, (forall n M, spectrum n M (eigvals n M)) -> (forall n M, leftSpectrum n M (eigLeft n M)) ->
    (2 <= length polys)%nat -> Forall goodPoly polys -> (MSmatrix = 0%Z \/ MSmatrix = (-1)%Z /\ Forall (fun p => fst (fst p) = Power) polys) ->
    exists l, eigensolve1 eigvals eigLeft MSmatrix useEigvals polys = Some (Finds (map Some l)) /\ StronglySorted before l /\ NoDup l /\
      forall z, In z l <-> exists zs, chain polys zs /\ last zs (RtoC 0) = z.
Proof.
  intros e f MS u polys He Hf HL HG HM. destruct polys as [|p [|q rest]]; cbn [length] in HL; try lia. cbn [eigensolve1].
  pose proof (Forall_inv HG) as Hp. pose proof (Forall_inv_tail HG) as HG'.
  assert (HM1 : MS = 0%Z \/ MS = (-1)%Z /\ fst (fst p) = Power) by (destruct HM as [|(? & HF)]; [auto|right; split; [auto|exact (Forall_inv HF)]]).
  destruct (solveOne_exact e f MS u p He Hf Hp HM1) as (l & E & Hl). rewrite E. destruct (unique_finite l _ Hl) as (w & -> & SU & HU).
  destruct (loop_chain e f MS u He Hf (q :: rest) [p] w HG') as (r & E2 & S2 & H2); auto.
  - destruct HM as [|(? & HF)]; [auto|right; split; [auto|exact (Forall_inv_tail HF)]].
  - discriminate.
  - intros z. rewrite HU. split.
    + intros V. exists [z]. split; [|reflexivity]. split; [auto|]. cbn [length]. intros i Hi. lia.
    + intros (c & (F & _) & EL). inversion F as [|? y ? ? V F2]; subst. inversion F2; subst. exact V.
  - exists r. rewrite E2. split; [reflexivity|]. split; [auto|]. split; [apply sorted_NoDup; auto|auto].
Qed.
Print Assumptions C112_common_zeros_are_chains.
(** So every common zero is returned, every answer is a zero of the last polynomial, and if different zeros of different polynomials are never within 1e-10, the
    answer is exactly the set of common zeros. *)
Theorem C112_common_zeros :
  forall eigvals eigLeft (MSmatrix : Z) (useEigvals : bool) polys, (forall n M, spectrum n M (eigvals n M)) -> (forall n M, leftSpectrum n M (eigLeft n M)) ->
    (2 <= length polys)%nat -> Forall goodPoly polys -> (MSmatrix = 0%Z \/ MSmatrix = (-1)%Z /\ Forall (fun p => fst (fst p) = Power) polys) ->
    exists l, eigensolve1 eigvals eigLeft MSmatrix useEigvals polys = Some (Finds (map Some l)) /\ NoDup l /\
      (forall z, (forall p, In p polys -> valueAt p z = RtoC 0) -> In z l) /\
      (forall z, In z l -> valueAt (last polys (Power, Floats, [])) z = RtoC 0) /\
      ((forall p q x y, In p polys -> In q polys -> valueAt p x = RtoC 0 -> valueAt q y = RtoC 0 -> Cmod (x - y)%C < 1 / 10 ^ 10 -> x = y) ->
       forall z, In z l <-> forall p, In p polys -> valueAt p z = RtoC 0).
Proof.
  intros e f MS u polys He Hf HL HG HM. destruct (C112_common_zeros_are_chains e f MS u polys He Hf HL HG HM) as (l & E & _ & ND & H). exists l. split; [auto|]. split; [auto|].
  assert (LT : 0 < 1 / 10 ^ 10) by (apply Rdiv_lt_0_compat; [lra|apply pow_lt; lra]).
  assert (A : forall z, (forall p, In p polys -> valueAt p z = RtoC 0) -> In z l).
  { intros z HZ. apply H. exists (repeat z (length polys)). split.
    - split.
      + clear -HZ. induction polys as [|p ps IH]; cbn [length repeat]; constructor; [apply HZ; left; auto|apply IH; intros; apply HZ; right; auto].
      + intros i Hi. rewrite repeat_length in Hi. assert (R : forall k j, (j < k)%nat -> nth j (repeat z k) (RtoC 0) = z) by (clear; induction k; intros [|j] Hj; cbn; auto; try lia; apply IHk; lia). rewrite !R by lia. replace (z - z)%C with (RtoC 0) by ring. rewrite Cmod_0. auto.
    - assert (R : forall k, (0 < k)%nat -> last (repeat z k) (RtoC 0) = z) by (clear; induction k as [|[|k] IH]; intros; [lia|reflexivity|]; cbn [repeat last] in *; apply IH; lia). apply R. lia. }
  split; [auto|]. split.
  - intros z Hz. apply H in Hz. destruct Hz as (c & (F & _) & <-). clear -F HL. assert (polys <> []) by (destruct polys; [cbn in HL; lia|discriminate]). clear HL. induction F as [|p z ps zs HV F IH]; [congruence|]. destruct F; [exact HV|]. cbn [last] in *. apply IH. discriminate.
  - intros SEP z. split; [|apply A]. intros Hz. apply H in Hz. destruct Hz as (c & (F & HC) & <-).
    assert (G : forall ps c, Forall2 (fun p z => valueAt p z = RtoC 0) ps c -> (forall p, In p ps -> In p polys) -> (forall i, (S i < length c)%nat -> Cmod (nth i c (RtoC 0) - nth (S i) c (RtoC 0))%C < 1 / 10 ^ 10) -> forall p, In p ps -> valueAt p (last c (RtoC 0)) = RtoC 0).
    { clear -SEP. induction 1 as [|p z ps zs HV F IH]; intros HI HC q Hq; [destruct Hq|]. destruct F as [|p2 z2 ps zs HV2 F].
      - destruct Hq as [<-|[]]. exact HV.
      - assert (Q : forall q, In q (p2 :: ps) -> valueAt q (last (z2 :: zs) (RtoC 0)) = RtoC 0).
        { apply IH; [intros; apply HI; right; auto|]. intros i Hi. apply (HC (S i)). cbn [length] in *. lia. }
        change (last (z :: z2 :: zs) (RtoC 0)) with (last (z2 :: zs) (RtoC 0)). destruct Hq as [<-|Hq]; [|auto].
        (* z = z2 and the others follow *)
        assert (z = z2) as -> by (apply (SEP p p2); [apply HI; left; auto|apply HI; right; left; auto|auto|auto|apply (HC 0%nat); cbn; lia]).
        assert (ALL : forall ps zs z, Forall2 (fun p z => valueAt p z = RtoC 0) ps zs -> (forall p, In p ps -> In p polys) -> (forall i, (S i < length (z :: zs))%nat -> Cmod (nth i (z :: zs) (RtoC 0) - nth (S i) (z :: zs) (RtoC 0))%C < 1 / 10 ^ 10) -> (exists q, In q polys /\ valueAt q z = RtoC 0) -> last (z :: zs) (RtoC 0) = z).
        { clear -SEP. intros ps zs z F. revert z. induction F as [|p y ps zs HV F IH]; intros z HI HC (q & Iq & Vq); [reflexivity|].
          assert (z = y) as <- by (apply (SEP q p); [auto|apply HI; left; auto|auto|auto|apply (HC 0%nat); cbn; lia]). change (last (z :: z :: zs) (RtoC 0)) with (last (z :: zs) (RtoC 0)). apply IH; [intros; apply HI; right; auto| |exists q; auto]. intros i Hi. apply (HC (S i)). cbn [length] in *. lia. }
        rewrite (ALL ps zs z2); auto; [intros; apply HI; right; right; auto|intros i Hi; apply (HC (S i)); cbn [length] in *; lia|exists p2; split; [apply HI; right; left; auto|auto]]. }
    intros p Hp. apply (G polys c F); auto.
Qed.
Print Assumptions C112_common_zeros.

(** ** one polynomial, and exceptions *)
(** C112: one polynomial: exactly its zeros, as often as the eigenvalue routine lists them. *)
Theorem C112_one_polynomial :
  forall eigvals eigLeft (MSmatrix : Z) (useEigvals : bool) p, (forall n M, spectrum n M (eigvals n M)) -> (forall n M, leftSpectrum n M (eigLeft n M)) ->
    goodPoly p -> (MSmatrix = 0%Z \/ MSmatrix = (-1)%Z /\ fst (fst p) = Power) ->
    exists l, eigensolve1 eigvals eigLeft MSmatrix useEigvals [p] = Some (Finds l) /\ forall o, In o l <-> exists z, o = Some z /\ valueAt p z = RtoC 0.
Proof. intros e f MS u p He Hf HG HM. destruct (solveOne_exact e f MS u p He Hf HG HM) as (l & E & H). exists l. cbn [eigensolve1]. rewrite E. auto. Qed.
Print Assumptions C112_one_polynomial.

(** ** answers that are not common zeros *)
Definition lineAt (c : R) : kind * dtype * list R := (Power, Floats, [- c; 1]).
Lemma lineAt_zero c z : valueAt (lineAt c) z = RtoC 0 <-> z = RtoC c.
Proof.
  unfold valueAt, lineAt, powerValue. cbn [length csum nth cpow]. replace (RtoC 0 + RtoC (- c) * RtoC 1 + RtoC 1 * (z * RtoC 1))%C with (z - RtoC c)%C by (rewrite RtoC_opp; ring). split; [|intros ->; ring].
  intros H. replace z with ((z - RtoC c) + RtoC c)%C by ring. rewrite H. ring.
Qed.
Lemma lineAt_good c : goodPoly (lineAt c).
Proof. split; [reflexivity|]. cbn. lra. Qed.
Lemma nat_above x : exists m, x < INR m.
Proof. exists (Z.to_nat (up x)). pose proof (archimed x) as [H _]. rewrite INR_IZR_INZ. apply (Rlt_le_trans _ _ _ H). apply IZR_le. lia. Qed.
(** "Every answer is close to a zero of every polynomial" is false, however generous the distance: the tolerance is applied from one polynomial to the next. *)
Theorem C112_answers_near_all_polynomials_refuted :
  forall eigvals eigLeft useEigvals (D : R), (forall n M, spectrum n M (eigvals n M)) -> (forall n M, leftSpectrum n M (eigLeft n M)) ->
    exists p polys z, Forall goodPoly (p :: polys) /\ eigensolve1 eigvals eigLeft 0 useEigvals (p :: polys) = Some (Finds [Some z]) /\
      forall w, valueAt p w = RtoC 0 -> D < Cmod (z - w)%C.
Proof.
  intros e f u D He Hf. set (h := 5 / 10 ^ 11). assert (Hh : 0 < h < 1 / 10 ^ 10) by (unfold h; replace (10 ^ 11) with 100000000000 by ring; replace (10 ^ 10) with 10000000000 by ring; lra).
  destruct (nat_above (D / h)) as (m0 & Hm). set (m := S m0). set (c := fun i => INR i * h).
  set (polys := map (fun i => lineAt (c i)) (seq 0 (S m))).
  assert (EP : polys = lineAt (c 0%nat) :: map (fun i => lineAt (c i)) (seq 1 m)) by reflexivity.
  assert (HG : Forall goodPoly polys) by (apply Forall_forall; intros p Hp; apply in_map_iff in Hp; destruct Hp as (i & <- & _); apply lineAt_good).
  assert (HL : (2 <= length polys)%nat) by (unfold polys; rewrite map_length, seq_length; unfold m; lia).
  destruct (C112_common_zeros_are_chains e f 0 u polys He Hf HL HG (or_introl eq_refl)) as (l & E & _ & ND & HC).
  destruct (C112_common_zeros e f 0 u polys He Hf HL HG (or_introl eq_refl)) as (l' & E' & _ & _ & HZ & _). rewrite E in E'. injection E' as E'.
  assert (l = l') as <-. { revert E'. clear. revert l'. induction l as [|a l IH]; intros [|b l'] E; try discriminate; auto. cbn [map] in E. injection E as -> E. f_equal. auto. } clear E'.
  assert (LP : last polys (Power, Floats, []) = lineAt (c m)).
  { unfold polys. rewrite seq_S, map_app. cbn [map Nat.add]. apply last_last. }
  assert (IN : In (RtoC (c m)) l).
  { apply HC. exists (map (fun i => RtoC (c i)) (seq 0 (S m))). split; [split|].
    - unfold polys. clear. induction (seq 0 (S m)) as [|i k IH]; cbn [map]; constructor; [apply lineAt_zero; reflexivity|auto].
    - intros i Hi. rewrite map_length, seq_length in Hi. rewrite !(nth_indep _ (RtoC 0) (RtoC (c 0%nat))) by (rewrite map_length, seq_length; lia). rewrite !(map_nth (fun i => RtoC (c i))), !seq_nth by lia. cbn [Nat.add].
      rewrite <- RtoC_minus, Cmod_R. unfold c. rewrite S_INR. replace (INR i * h - (INR i + 1) * h) with (- h) by ring. rewrite Rabs_Ropp, Rabs_right; lra.
    - rewrite seq_S, map_app. cbn [map Nat.add]. apply last_last. }
  assert (EL : l = [RtoC (c m)]).
  { assert (ALL : forall z, In z l -> z = RtoC (c m)) by (intros z Hz; apply HZ in Hz; rewrite LP in Hz; apply lineAt_zero; auto). destruct l as [|a [|b l]]; [destruct IN|rewrite (ALL a (or_introl eq_refl)); reflexivity|].
    exfalso. inversion ND as [|? ? N _]; subst. apply N. left. rewrite (ALL a (or_introl eq_refl)), (ALL b (or_intror (or_introl eq_refl))). reflexivity. }
  exists (lineAt (c 0%nat)), (map (fun i => lineAt (c i)) (seq 1 m)), (RtoC (c m)). rewrite <- EP. split; [auto|]. split; [rewrite E, EL; reflexivity|].
  intros w Hw. apply (proj1 (lineAt_zero _ _)) in Hw. rewrite Hw. clear w Hw. rewrite <- RtoC_minus, Cmod_R. unfold c. cbn [INR]. rewrite Rmult_0_l, Rminus_0_r. assert (HI : D / h < INR m) by (unfold m; rewrite S_INR; lra).
  apply (Rmult_lt_compat_r h) in HI; [|lra]. replace (D / h * h) with D in HI by (field; lra). pose proof (Rle_abs (INR m * h)). lra.
Qed.
Print Assumptions C112_answers_near_all_polynomials_refuted.
(** Two polynomials without a common zero: x and x - 5e-11 give an answer, and another one in the other order; x^2 - 1 and x - 1 give 1. *)
Example C112_case :
  exists eigvals eigLeft, (forall n M, spectrum n M (eigvals n M)) /\ (forall n M, leftSpectrum n M (eigLeft n M)) /\
    eigensolve1 eigvals eigLeft 0 true [lineAt 0; lineAt (5 / 10 ^ 11)] = Some (Finds [Some (RtoC (5 / 10 ^ 11))]) /\
    eigensolve1 eigvals eigLeft 0 true [lineAt (5 / 10 ^ 11); lineAt 0] = Some (Finds [Some (RtoC 0)]) /\
    eigensolve1 eigvals eigLeft 0 true [(Power, Floats, [-1; 0; 1]); lineAt 1] = Some (Finds [Some (RtoC 1)]).
Proof.
  destruct exact_eigenvalue_routines_exist as (e & f & He & Hf). exists e, f. split; auto. split; auto.
  assert (G : forall p c d, goodPoly p -> valueAt p (RtoC d) = RtoC 0 -> Rabs (d - c) < 1 / 10 ^ 10 -> eigensolve1 e f 0 true [p; lineAt c] = Some (Finds [Some (RtoC c)])).
  { intros p c d HG HV HD. assert (HG2 : Forall goodPoly [p; lineAt c]) by (repeat constructor; auto; cbn; lra).
    destruct (C112_common_zeros_are_chains e f 0 true [p; lineAt c] He Hf (le_n 2) HG2 (or_introl eq_refl)) as (l & E & _ & ND & H). rewrite E. do 2 f_equal.
    assert (ALL : forall z, In z l <-> z = RtoC c).
    { intros z. rewrite H. split.
      - intros (zs & (F & _) & <-). inversion F as [|? a ? ? V1 F2]; subst. inversion F2 as [|? b ? ? V2 F3]; subst. inversion F3; subst. cbn [last]. apply lineAt_zero. auto.
      - intros ->. exists [RtoC d; RtoC c]. split; [|reflexivity]. split; [constructor; [auto|constructor; [apply lineAt_zero; reflexivity|constructor]]|]. intros [|i] Hi; cbn [length] in Hi; [|lia]. cbn [nth]. rewrite <- RtoC_minus, Cmod_R. auto. }
    destruct l as [|a [|b l]]; [destruct (proj2 (ALL (RtoC c)) eq_refl)|rewrite (proj1 (ALL a) (or_introl eq_refl)); reflexivity|].
    exfalso. inversion ND as [|? ? N _]; subst. apply N. left. rewrite (proj1 (ALL a) (or_introl eq_refl)), (proj1 (ALL b) (or_intror (or_introl eq_refl))). reflexivity. }
  assert (T : 5 / 10 ^ 11 < 1 / 10 ^ 10 /\ 0 < 5 / 10 ^ 11) by (replace (10 ^ 11) with 100000000000 by ring; replace (10 ^ 10) with 10000000000 by ring; lra).
  split; [|split].
  - apply (G _ _ 0); [apply lineAt_good|apply lineAt_zero; reflexivity|]. rewrite Rminus_0_l, Rabs_Ropp, Rabs_right; lra.
  - apply (G _ _ (5 / 10 ^ 11)); [apply lineAt_good|apply lineAt_zero; reflexivity|]. rewrite Rminus_0_r, Rabs_right; lra.
  - apply (G _ _ 1); [split; [reflexivity|cbn; lra]| |rewrite Rminus_diag_eq, Rabs_R0 by reflexivity; lra]. unfold valueAt, powerValue. cbn [length csum nth cpow]. unfold Cplus, Cmult, RtoC. cbn. f_equal; lra.
Qed.
