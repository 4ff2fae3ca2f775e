(** * Proofs about the solver in several variables of subdivision.py *)
From Coq Require Import Reals List Lia Lra Arith Bool.
From Coquelicot Require Import Complex.
From Coq Require Import List.
From Verif Require Import Num RSum Tensor CombinedModel ApproxDct SubApproxModel TrackerModel TrimcModel SubcheckModel SubcheckCover SubcheckProps.
From Verif Require LinAlgModel MsModel MakerModel SubNdModel.
Import SubNdModel.
From Verif Require Import SubNdSpec.
Import ListNotations.
Local Open Scope R_scope.

(** ** one call of get_subintervals *)
Definition subBox (n : nat) (a b : list R) (s : list R * list R) : Prop :=
  box n (fst s) (snd s) /\ forall i, (i < n)%nat -> nth i a 0 <= nth i (fst s) 0 /\ nth i (snd s) 0 <= nth i b 0.
Lemma area_positive n : forall l h, length l = n -> length h = n -> (forall i, (i < n)%nat -> nth i l 0 <= nth i h 0) -> @boxArea R R_num (l, h) <> 0 -> forall i, (i < n)%nat -> nth i l 0 < nth i h 0.
Proof.
  induction n as [|n IH]; intros [|x l] [|y h] L1 L2 H N i Hi; try discriminate; try lia. rewrite boxArea_cons in N. injection L1 as L1. injection L2 as L2.
  destruct i as [|i]; cbn [nth].
  - pose proof (H 0%nat ltac:(lia)) as H0. cbn [nth] in H0. destruct H0 as [|E]; auto. exfalso. apply N. rewrite E. ring.
  - apply IH; auto; [intros j Hj; apply (H (S j)); lia| |lia]. intros Z. apply N. rewrite Z. ring.
Qed.
Lemma bound_cases n las polys errors ms : Forall (fun P : tensor R => ndim P = n) polys -> (length errors = length polys \/ length polys <> n) ->
  forall s, boundOf las ms polys errors = Done (Some s) -> length (fst s) = n /\ length (snd s) = n /\ forall i, (i < n)%nat -> -1 <= lo s i <= hi s i /\ hi s i <= 1.
Proof.
  intros HP HL s E. unfold boundOf in E. destruct ms as [|m ms]; [discriminate|]. destruct HL as [HL|HL]; [eapply bounding_shape; eauto|].
  exfalso. unfold getBoundingInterval in E. destruct polys as [|P polys]; [discriminate|]. inversion HP as [|? ? D HP']; subst. destruct (Nat.eqb_spec (length (P :: polys)) (ndim P)); [congruence|]. discriminate.
Qed.
Lemma get_polishing las rk sv ms a b (polys : list (tensor R)) errors ck d out d' : @get_subintervals R R_num las rk sv ms a b polys errors ck d = Done (out, d') -> SubcheckModel.polishing d' = SubcheckModel.polishing d.
Proof.
  assert (T : forall l d0, SubcheckModel.polishing (fold_left (@SubcheckModel.track R R_num) l d0) = SubcheckModel.polishing d0) by (induction l as [|x l IH]; intros d0; [reflexivity|]; cbn [fold_left]; rewrite IH; reflexivity).
  intros H. unfold get_subintervals in H. cbn [mask area SubcheckModel.polishing quadLog boundLog] in H. cbv zeta in H.
  destruct (match ms with [] => _ | _ => _ end) as [[s|]| |]; try discriminate; cbn [option_map] in H.
  - destruct (neqb _ _); [injection H as <- <-; auto|]. destruct (nltb _ (nlit 1 2)); [injection H as <- <-; auto|].
    destruct (if ck then _ else _) as [m thrown]. destruct (nltb _ _ && _); injection H as <- <-; [reflexivity|]. rewrite T. reflexivity.
  - destruct (if ck then _ else _) as [m thrown]. injection H as <- <-. rewrite T. reflexivity.
Qed.
Lemma volume_mono n : forall a b l h, length a = n -> length b = n -> length l = n -> length h = n -> (forall i, (i < n)%nat -> nth i a 0 <= nth i l 0 /\ nth i l 0 <= nth i h 0 /\ nth i h 0 <= nth i b 0) -> 0 <= volume l h <= volume a b.
Proof.
  induction n as [|n IH]; intros [|a0 a] [|b0 b] [|l0 l] [|h0 h] La Lb Ll Lh H; try discriminate; cbn [volume]; [lra|].
  pose proof (H 0%nat ltac:(lia)) as H0. cbn [nth] in H0. destruct (IH a b l h) as (V1 & V2); auto; [intros i Hi; apply (H (S i)); lia|].
  split; [apply Rmult_le_pos; lra|]. apply Rmult_le_compat; lra.
Qed.
Lemma select_area : forall (m : list bool) (l : list (@sbox R)), (forall s, In s l -> 0 <= @boxArea R R_num s) -> totalArea (select m l) <= totalArea l.
Proof.
  unfold select, totalArea. induction m as [|x m IH]; intros l H.
  - cbn [combine filter map]. unfold Rsum. induction l as [|s l IHl]; cbn [map fold_right]; [lra|]. cbn [map fold_right] in IHl. pose proof (H s (or_introl eq_refl)). assert (0 <= fold_right Rplus 0 (map (@boxArea R R_num) l)) by (apply IHl; intros; apply H; right; auto). lra.
  - destruct l as [|s l]; [cbn; lra|]. cbn [combine filter fst]. specialize (IH l ltac:(intros; apply H; right; auto)). pose proof (H s (or_introl eq_refl)). destruct x; cbn [map snd]; unfold Rsum in *; cbn [fold_right]; lra.
Qed.
Lemma get_ok n las rk sv ms a b (polys : list (tensor R)) errors ck d out d' : box n a b -> length (mask d) = (2 ^ n)%nat ->
  Forall (fun P => ndim P = n) polys -> (length errors = length polys \/ length polys <> n) -> get_subintervals las rk sv ms a b polys errors ck d = Done (out, d') ->
  length (mask d') = (2 ^ n)%nat /\ SubcheckModel.polishing d' = SubcheckModel.polishing d /\ Forall (subBox n a b) out /\ area d' + volumes out = area d + volume a b /\ volumes out <= volume a b.
Proof.
  intros (La & Lb & Hlt) Hm HP HL Hg. subst n. pose proof (bound_cases (length a) las polys errors ms HP HL) as HB.
  split; [eapply mask_kept; eauto|]. split; [eapply get_polishing; eauto|].
  pose proof (inside las rk sv ms a b polys errors ck Lb Hlt d out d' Hm HB Hg) as HI.
  assert (HS : Forall (subBox (length a) a b) out).
  { apply Forall_forall. intros s Hs. destruct (HI s Hs) as (L1 & L2 & HI'). assert (ST : forall i, (i < length a)%nat -> lo s i < hi s i).
    { destruct (get_course las rk sv ms a b polys errors ck d out d' Hm Hg) as (v & Hc & _). inversion Hc as [s0 Hs0 H0 E1 E2|s0 Hs0 H0 E1 E2|Hs0 E1 E2]; subst out.
      - destruct Hs.
      - destruct Hs as [<-|[]]. destruct (HB s0 Hs0) as (M1 & M2 & HB'). intros i Hi. unfold transformBox, lo, hi in *. cbn [fst snd] in *. rewrite !mapBounds_nth by auto. rewrite !transform1_R.
        destruct s0 as [l h]. cbn [fst snd] in *. pose proof (area_positive (length a) l h M1 M2 ltac:(intros j Hj; apply (HB' j Hj)) H0 i Hi). specialize (Hlt i Hi). cbn [n0 R_num] in *. nra.
      - apply select_incl in Hs. unfold newSubs in Hs. apply in_map_iff in Hs. destruct Hs as (s0 & <- & Hin). destruct (unitSubs_shape (length a) s0 Hin) as (M1 & M2 & HB').
        intros i Hi. unfold scaleBox, lo, hi in *. cbn [fst snd] in *. rewrite !mapBounds_nth by auto. rewrite !scale1_R. specialize (HB' i Hi). specialize (Hlt i Hi). cbn [n0 R_num] in *. nra. }
    split; [split; [auto|split; [auto|exact ST]]|]. intros i Hi. destruct (HI' i Hi) as ((? & ?) & ?). unfold lo, hi in *. cbn [n0 R_num] in *. split; auto. }
  split; [exact HS|]. assert (VO : volumes out = totalArea out) by (apply volumes_area; eapply Forall_impl; [|exact HS]; intros s ((E1 & E2 & _) & _); congruence). split.
  2: { destruct (get_course las rk sv ms a b polys errors ck d out d' Hm Hg) as (v & Hc & _). inversion Hc as [s0 Hs0 H0 E1 E2|s0 Hs0 H0 E1 E2|Hs0 E1 E2]; subst out.
    - cbn [volumes fold_right]. destruct (volume_mono (length a) a b a b) as (V & _); auto. intros i Hi. specialize (Hlt i Hi). lra.
    - inversion HS as [|s0' ? ((M1 & M2 & M3) & M4) _]; subst. cbn [volumes fold_right]. rewrite Rplus_0_r. apply (volume_mono (length a)); auto. intros i Hi. specialize (M3 i Hi). specialize (M4 i Hi). lra.
    - rewrite VO. eapply Rle_trans; [apply select_area|]; [|unfold newSubs; rewrite news_area by auto; rewrite volume_area by auto; lra].
      intros s Hs. unfold newSubs in Hs. apply in_map_iff in Hs. destruct Hs as (s0 & <- & Hin). destruct (unitSubs_shape (length a) s0 Hin) as (M1 & M2 & HB').
      unfold scaleBox. rewrite volume_area by (rewrite !mapBounds_len; auto). apply (volume_mono (length a) a b); rewrite ?mapBounds_len; auto.
      intros i Hi. rewrite !mapBounds_nth by auto. rewrite !scale1_R. specialize (HB' i Hi). specialize (Hlt i Hi). unfold lo, hi in *. cbn [n0 R_num] in *. nra. }
  rewrite volumes_area by (eapply Forall_impl; [|exact HS]; intros s ((E1 & E2 & _) & _); congruence). rewrite <- volume_area by auto.
  apply (area_balance las rk sv ms a b polys errors ck Lb d out d' Hm); auto. intros s Es. destruct (HB s Es) as (? & ? & _). auto.
Qed.

(** every returned box has at most three quarters of the volume *)
Lemma volume_map f n : (forall l h x, f l h x = ((h - l) * x + (h + l)) / 2) -> forall a b l h, length a = n -> length b = n -> length l = n -> length h = n ->
  volume (@mapBounds R f a b l) (@mapBounds R f a b h) * 2 ^ n = volume l h * volume a b.
Proof.
  intros Hf. unfold mapBounds. induction n as [|n IH]; intros [|a0 a] [|b0 b] [|l0 l] [|h0 h] La Lb Ll Lh; try discriminate; [cbn; ring|]. cbn [combine map fst snd volume pow].
  injection La as La. injection Lb as Lb. injection Ll as Ll. injection Lh as Lh. specialize (IH a b l h La Lb Ll Lh). rewrite !Hf.
  set (V := volume (map _ _) (map _ _)) in *. clearbody V. transitivity ((((b0 - a0) * h0 + (b0 + a0)) / 2 - ((b0 - a0) * l0 + (b0 + a0)) / 2) * 2 * (V * 2 ^ n)); [ring|]. rewrite IH. field.
Qed.
Lemma volume_le_pow r n : 0 <= r -> forall l h, length l = n -> length h = n -> (forall i, (i < n)%nat -> 0 <= nth i h 0 - nth i l 0 <= r) -> 0 <= volume l h <= r ^ n.
Proof.
  intros Hr. induction n as [|n IH]; intros [|l0 l] [|h0 h] Ll Lh H; try discriminate; cbn [volume pow]; [lra|]. pose proof (H 0%nat ltac:(lia)) as H0. cbn [nth] in H0. destruct (IH l h ltac:(auto) ltac:(auto) ltac:(intros i Hi; apply (H (S i)); lia)) as (V1 & V2).
  split; [apply Rmult_le_pos; lra|]. apply Rmult_le_compat; lra.
Qed.
Lemma get_shrink n las rk sv ms a b (polys : list (tensor R)) errors ck d out d' : (2 <= n)%nat -> box n a b -> length (mask d) = (2 ^ n)%nat ->
  Forall (fun P => ndim P = n) polys -> (length errors = length polys \/ length polys <> n) -> get_subintervals las rk sv ms a b polys errors ck d = Done (out, d') ->
  Forall (fun s => volume (fst s) (snd s) <= 3 / 4 * volume a b) out.
Proof.
  intros Hn (La & Lb & Hlt) Hm HP HL Hg. subst n. pose proof (bound_cases (length a) las polys errors ms HP HL) as HB.
  assert (VP : 0 <= volume a b) by (apply (volume_mono (length a) a b a b); auto; intros i Hi; specialize (Hlt i Hi); lra).
  assert (P4 : 4 <= 2 ^ length a). { replace (length a) with (2 + (length a - 2))%nat by lia. rewrite pow_add. assert (1 <= 2 ^ (length a - 2)) by (apply pow_R1_Rle; lra). replace (2 ^ 2) with 4 by ring. lra. }
  assert (SM : forall V v, 0 <= v -> V * 2 ^ length a = v * volume a b -> v <= 3 / 4 * 2 ^ length a -> V <= 3 / 4 * volume a b).
  { intros V v Hv E Hle. apply (Rmult_le_reg_r (2 ^ length a)); [lra|]. rewrite E. replace (3 / 4 * volume a b * 2 ^ length a) with (3 / 4 * 2 ^ length a * volume a b) by ring. apply Rmult_le_compat_r; auto. }
  assert (BX : forall s, boundOf las ms polys errors = Done (Some s) -> @boxArea R R_num s < 3 -> volume (fst (@transformBox R R_num a b s)) (snd (@transformBox R R_num a b s)) <= 3 / 4 * volume a b).
  { intros s Es H3. destruct (HB s Es) as (L1 & L2 & HI). destruct s as [l h]. cbn [fst snd] in *. rewrite volume_area in H3 by congruence. unfold transformBox. cbn [fst snd].
    apply (SM _ (volume l h)); [|apply volume_map; auto; intros; apply transform1_R|lra]. apply (volume_mono (length a) l h l h); auto. intros i Hi. specialize (HI i Hi). unfold lo, hi in HI. cbn [fst snd n0 R_num] in HI. lra. }
  assert (SP : forall m, Forall (fun s => volume (fst s) (snd s) <= 3 / 4 * volume a b) (select m (map (@scaleBox R R_num a b) (@unitSubs R R_num (length a))))).
  { intros m. apply Forall_forall. intros s Hs. apply select_incl in Hs. apply in_map_iff in Hs. destruct Hs as ([l h] & <- & Hin). destruct (unitSubs_shape (length a) (l, h) Hin) as (M1 & M2 & _). cbn [fst snd] in M1, M2. unfold scaleBox. cbn [fst snd].
    assert (HV : 0 <= volume l h <= (11 / 10) ^ length a).
    { apply volume_le_pow; auto; [lra|]. unfold unitSubs in Hin. apply in_map_iff in Hin. destruct Hin as (spot & E & Hi). apply in_indices in Hi. pose proof (inrange_length _ _ Hi) as HLs. rewrite repeat_length in HLs. injection E as <- <-. intros i Hi'.
      match goal with |- 0 <= nth i (map ?G spot) 0 - nth i (map ?F spot) 0 <= _ => set (f := F); set (g := G) end. rewrite (nth_indep (map f spot) 0 (f 0%nat)), (nth_indep (map g spot) 0 (g 0%nat)) by (rewrite map_length; lia). rewrite !map_nth. unfold f, g. destruct (_ =? 0)%nat; lra. }
    apply (SM _ (volume l h)); [apply HV|apply volume_map; auto; intros; rewrite scale1_R; field|]. destruct HV as (_ & HV). eapply Rle_trans; [exact HV|].
    replace (length a) with (2 + (length a - 2))%nat by lia. rewrite !pow_add. assert (X1 : (11 / 10) ^ (length a - 2) <= 2 ^ (length a - 2)) by (apply pow_incr; lra). replace ((11 / 10) ^ 2) with (121 / 100) by field. replace (2 ^ 2) with 4 by ring.
    assert (0 <= (11 / 10) ^ (length a - 2)) by (apply pow_le; lra). lra. }
  unfold get_subintervals in Hg. fold (boundOf las ms polys errors) in Hg. cbn [mask area SubcheckModel.polishing quadLog boundLog] in Hg. cbv zeta in Hg.
  destruct (boundOf las ms polys errors) as [[s|]| |] eqn:EB; try discriminate; cbn [option_map] in Hg.
  - destruct (neqb _ _); [injection Hg as <- <-; constructor|]. destruct (nltb (boxArea s) (nlit 1 2)) eqn:E1.
    { injection Hg as <- <-. constructor; [|constructor]. apply (BX s); auto. cbn [nltb R_num] in E1. apply Rltb_true in E1. rewrite nlit_R in E1. lra. }
    destruct (if ck then _ else _) as [m thrown]. destruct (nltb (boxArea s) (nofnat _) && nltb (boxArea s) (nlit 3 1)) eqn:E2; injection Hg as <- <-; [|apply SP].
    apply andb_prop in E2. destruct E2 as (_ & E2). constructor; [|constructor]. apply (BX s); auto. cbn [nltb R_num] in E2. apply Rltb_true in E2. rewrite nlit_R in E2. lra.
  - destruct (if ck then _ else _) as [m thrown]. injection Hg as <- <-. apply SP.
Qed.

(** ** boxes *)
Definition bump : R := 5 / 10 ^ 10.
Lemma bump_val : bump = 5 / 10000000000. Proof. unfold bump. f_equal. ring. Qed.
Lemma buffer_len a b : length b = length a -> length (bufferLow a b) = length a /\ length (bufferHigh a b) = length a.
Proof. intros H. unfold bufferLow, bufferHigh. rewrite !map_length, !combine_length, H, Nat.min_id. auto. Qed.
Lemma buffer_nth a b i : length b = length a -> (i < length a)%nat ->
  nth i (bufferLow a b) 0 = nth i a 0 - (nth i b 0 - nth i a 0) * bump /\ nth i (bufferHigh a b) 0 = nth i b 0 + (nth i b 0 - nth i a 0) * bump.
Proof.
  intros H Hi. unfold bufferLow, bufferHigh. fold bump. assert (G : forall f : R * R -> R, nth i (map f (combine a b)) 0 = f (nth i a 0, nth i b 0)).
  { intros f. rewrite (nth_indep (map f (combine a b)) 0 (f (0, 0))) by (rewrite map_length, combine_length; lia). rewrite map_nth, combine_nth; auto. }
  rewrite !G. cbn [fst snd]. auto.
Qed.
Lemma buffer_box n a b : box n a b -> box n (bufferLow a b) (bufferHigh a b).
Proof.
  intros (La & Lb & H). destruct (buffer_len a b ltac:(congruence)) as (L1 & L2). split; [congruence|]. split; [congruence|]. intros i Hi. destruct (buffer_nth a b i ltac:(congruence) ltac:(lia)) as (-> & ->).
  specialize (H i Hi). rewrite bump_val. lra.
Qed.
Lemma buffer_volume a : forall b, length b = length a -> volume (bufferLow a b) (bufferHigh a b) = (1 + 1 / 10 ^ 9) ^ length a * volume a b.
Proof.
  assert (E : forall x y, (y + (y - x) * bump) - (x - (y - x) * bump) = (1 + 1 / 10 ^ 9) * (y - x)) by (intros; rewrite bump_val; replace (10 ^ 9) with 1000000000 by ring; field).
  induction a as [|x a IH]; intros [|y b] H; try discriminate; [cbn [length volume bufferLow bufferHigh combine map pow]; ring|]. injection H as H.
  change (volume (bufferLow (x :: a) (y :: b)) (bufferHigh (x :: a) (y :: b))) with (((y + (y - x) * bump) - (x - (y - x) * bump)) * volume (bufferLow a b) (bufferHigh a b)).
  rewrite E, IH by auto. cbn [length volume]. rewrite <- (tech_pow_Rmult (1 + 1 / 10 ^ 9)). ring.
Qed.
Lemma volume_pos n : forall a b, box n a b -> 0 < volume a b.
Proof.
  induction n as [|n IH]; intros [|x a] [|y b] (La & Lb & H); try discriminate; cbn [volume]; [lra|]. apply Rmult_lt_0_compat; [pose proof (H 0%nat ltac:(lia)) as H0; cbn [nth] in H0; lra|].
  apply IH. split; [auto|]. split; [auto|]. intros i Hi. apply (H (S i)). lia.
Qed.

(** ** filters *)
Lemma zeros_in zs a b dim z : In z (zeros_in_interval zs a b dim) -> In z zs /\ forall i, (i < dim)%nat -> - (1 / 10 ^ 9) <= nth i z 0 - nth i a 0 /\ nth i z 0 - nth i b 0 <= 1 / 10 ^ 9.
Proof.
  unfold zeros_in_interval. induction dim as [|d IH]; [cbn; intros; split; auto; lia|]. rewrite seq_S, fold_left_app. cbn [fold_left Nat.add]. intros H.
  apply filter_In in H. destruct H as (H & H2). apply filter_In in H. destruct H as (H & H1). destruct (IH H) as (H3 & H4). split; auto. intros i Hi.
  destruct (Nat.eq_dec i d) as [->|]; [|apply H4; lia]. destruct (Rge_dec (nth d z 0 - nth d a 0) (- (1 / 10 ^ 9))); [|discriminate]. destruct (Rle_dec (nth d z 0 - nth d b 0) (1 / 10 ^ 9)); [|discriminate]. split; lra.
Qed.

(** ** shapes *)
Lemma approx_shape junk f a b deg st N m st' : interval_approximate_nd cosR junk f a b deg st = Some (N, m, st') -> ndim N = length a.
Proof. unfold interval_approximate_nd. destruct (chebyshev_block_copy _ _ _) as [[v st1]|]; [|discriminate]. intros E. injection E as <- _ _. unfold MakerModel.coeffsOf, ndim. cbn [shp tbuild]. rewrite map_length, repeat_length. reflexivity. Qed.
Lemma full_shape junk f a b deg at_ rt g st c m e st' : full_cheb_approximate cosR junk f a b deg at_ rt g st = Some ((Some c, m, e), st') -> ndim c = length a.
Proof.
  unfold full_cheb_approximate. destruct (interval_approximate_nd cosR junk f a b _ st) as [[[N m1] st1]|] eqn:E1; [|discriminate]. destruct (interval_approximate_nd cosR junk f a b (_ * 2) st1) as [[[N2 m2] st2]|]; [|discriminate].
  intros E. destruct (ngtb _ _) in E; [discriminate|]. injection E as <- _ _ _. eapply approx_shape; eauto.
Qed.
Lemma loop_shape X tols : forall funcs gs a b deg tol num st failed cs ns es st', length gs = length funcs ->
  approxLoop X tols funcs gs a b deg tol num st = Some (failed, cs, ns, es, st') -> Forall (fun P => ndim P = length a) cs /\
  match failed with None => length cs = length funcs /\ length ns = length funcs /\ length es = length funcs | Some k => (length cs < length funcs)%nat end.
Proof.
  induction funcs as [|f fs IH]; intros [|g gs] a b deg tol num st failed cs ns es st' HL E; try discriminate; cbn [approxLoop] in E; [injection E as <- <- <- <- _; auto|].
  destruct (full_cheb_approximate _ _ _ _ _ _ _ _ _ _) as [[[[[c|] m] e] st1]|] eqn:E1; try discriminate.
  - destruct (approxLoop X tols fs gs a b deg tol (S num) st1) as [[[[[fl cs1] ns1] es1] st2]|] eqn:E2; [|discriminate]. injection E as <- <- <- <- <-. injection HL as HL.
    destruct (IH _ _ _ _ _ _ _ _ _ _ _ _ HL E2) as (F & G). split; [constructor; auto; eapply full_shape; eauto|]. destruct fl; cbn [length]; [lia|]. destruct G as (-> & -> & ->). auto.
  - injection E as <- <- <- <- _. split; [constructor|]. cbn [length]. lia.
Qed.
Lemma zeroAt_ndim (M : tensor R) mons : ndim (TrimcModel.zeroAt M mons) = ndim M.
Proof. destruct mons; reflexivity. Qed.
Lemma slice_ndim k (M : tensor R) : ndim (sliceTop k M) = ndim M.
Proof. unfold sliceTop, ndim. cbn [shp tbuild]. apply map_length. Qed.
Lemma cut_ndim : forall deg (M : tensor R) e al M' e', cutLoop deg M e al = Some (M', e') -> ndim M' = ndim M.
Proof.
  induction deg as [|d IH]; intros M e al M' e' E; cbn [cutLoop] in E; [injection E as <- _; auto|]. destruct (_ <=? 1)%nat; [injection E as <- _; auto|].
  destruct (mon_combos_limited _ _ _) as [mons|]; [|discriminate]. destruct (ngtb _ _); [injection E as <- _; destruct (_ <? _)%nat; auto; apply slice_ndim|].
  destruct (_ =? 1)%nat; [injection E as <- _; rewrite slice_ndim, zeroAt_ndim; auto|]. apply IH in E. rewrite E, zeroAt_ndim. auto.
Qed.
Lemma trimOne_ndim (M : tensor R) e al M' g e' : trimOne M e al = Some (M', g, e') -> ndim M' = ndim M.
Proof.
  unfold trimOne. destruct (shp M) as [|s sh] eqn:ES; [discriminate|]. destruct (highMons M) as [mons|]; [|discriminate]. destruct (ngtb _ _); [intros E; injection E as <- _ _; auto|].
  destruct (cutLoop _ _ _ _) as [[M1 e1]|] eqn:EC; [|discriminate]. intros E. injection E as <- _ _. apply cut_ndim in EC. rewrite EC, zeroAt_ndim. reflexivity.
Qed.
Lemma trim_shape n at_ rt : forall (cs : list (tensor R)) ns es cs' g es', length ns = length cs -> length es = length cs -> trim_coeffs cs at_ rt ns es = Some (cs', g, es') -> Forall (fun P => ndim P = n) cs ->
  Forall (fun P => ndim P = n) cs' /\ length cs' = length cs /\ length es' = length cs.
Proof.
  induction cs as [|c cs IH]; intros [|m ns] [|e es] cs' g es' L1 L2 E F; try discriminate; cbn [trim_coeffs] in E; [injection E as <- <- <-; auto|].
  destruct (trimOne c e _) as [[[c1 g1] e1]|] eqn:E1; [|discriminate]. destruct (trim_coeffs cs _ _ ns es) as [[[cs2 g2] es2]|] eqn:E2; [|discriminate]. injection E as <- <- <-.
  inversion F as [|? ? F1 F2]; subst. injection L1 as L1. injection L2 as L2. destruct (IH _ _ _ _ _ L1 L2 E2 F2) as (G1 & G2 & G3). split; [constructor; auto; apply trimOne_ndim in E1; congruence|]. cbn [length]. auto.
Qed.

(** ** the search *)
Definition eBox (two : bool) : R := if two then 5 / 10 ^ 10 else 11 / 10 ^ 10.
Definition ePoint (two : bool) : R := if two then 0 else 5 / 10 ^ 10.
Definition growth (two : bool) (n : nat) : R := (1 + 1 / 10 ^ 9) ^ (if two then n else 2 * n).
Lemma e_values two : eBox two = (if two then 5 / 10000000000 else 11 / 10000000000) /\ ePoint two = (if two then 0 else 5 / 10000000000) /\ 1 / 10 ^ 9 = 1 / 1000000000 /\ bump = 5 / 10000000000.
Proof. unfold eBox, ePoint. rewrite bump_val. assert (E : 10 ^ 10 = 10000000000) by ring. assert (E9 : 10 ^ 9 = 1000000000) by ring. rewrite E, E9. destruct two; auto. Qed.
Lemma growth_ge two n : 1 <= growth two n.
Proof. apply pow_R1_Rle. replace (10 ^ 9) with 1000000000 by ring. lra. Qed.

Definition outcomeOf (n : nat) (two : bool) (vin vout : R) (P : leaf -> Prop) (s s' : search) : Prop := exists leaves,
  length (mask (idata s')) = (2 ^ n)%nat /\ SubcheckModel.polishing (idata s') = false /\ results s' = results s ++ map stored leaves /\
  tracked s' = fold_left step (map callOf leaves) (tracked s) /\ Forall P leaves /\
  area (idata s) + vin <= area (idata s') <= area (idata s) + growth two n * vout.
(** the largest volume of a box given up after k further levels *)
Definition deepest (two : bool) (n k : nat) (v : R) : R := (1 + 1 / 10 ^ 9) ^ (if two then 0 else n) * ((3 / 4) ^ k * v).
Lemma deepest_S two n k u v : u <= 3 / 4 * v -> deepest two n k u <= deepest two n (S k) v.
Proof.
  intros H. unfold deepest. cbn [pow]. apply Rmult_le_compat_l; [apply pow_le; replace (10 ^ 9) with 1000000000 by ring; lra|]. rewrite (Rmult_comm (3 / 4)), Rmult_assoc. apply Rmult_le_compat_l; [apply pow_le; lra|auto].
Qed.
Lemma leaf_mono n e1 e2 V1 V2 a b s l : 0 <= e1 -> 0 <= e2 -> V1 <= V2 -> subBox n a b s -> leafOK n e1 e2 V1 (fst s) (snd s) l -> leafOK n e1 e2 V2 a b l.
Proof.
  intros H1 H2 HV ((L1 & L2 & LT) & HS) (M1 & M2 & HB & HP & HD). split; [auto|]. split; [auto|]. split; [|split; [|intros HW; destruct (HD HW); split; [lra|auto]]].
  - intros i Hi. destruct (HB i Hi) as (A & B & C). specialize (HS i Hi). specialize (LT i Hi). split; [auto|]. unfold within in *.
    assert (e1 * (nth i (snd s) 0 - nth i (fst s) 0) <= e1 * (nth i b 0 - nth i a 0)) by (apply Rmult_le_compat_l; lra). lra.
  - intros z i Hz Hi. specialize (HP z i Hz Hi). specialize (HS i Hi). specialize (LT i Hi). unfold within in *.
    assert (e2 * (nth i (snd s) 0 - nth i (fst s) 0) <= e2 * (nth i b 0 - nth i a 0)) by (apply Rmult_le_compat_l; lra). lra.
Qed.
Lemma leaf_deg2 n V a b l : box n a b -> leafOK n (eBox true) (ePoint true) V (bufferLow a b) (bufferHigh a b) l -> leafOK n (eBox false) (ePoint false) V a b l.
Proof.
  intros (La & Lb & LT) (M1 & M2 & HB & HP & HD). destruct (e_values true) as (E1 & E2 & E3 & E4). destruct (e_values false) as (F1 & F2 & _). split; [auto|]. split; [auto|]. split; [|split; [|auto]].
  - intros i Hi. destruct (HB i Hi) as (A & B & C). specialize (LT i Hi). split; [auto|]. unfold within in *. destruct (buffer_nth a b i ltac:(congruence) ltac:(lia)) as (X1 & X2). rewrite X1, X2, E1, E4 in *. rewrite F1. lra.
  - intros z i Hz Hi. specialize (HP z i Hz Hi). specialize (LT i Hi). unfold within in *. destruct (buffer_nth a b i ltac:(congruence) ltac:(lia)) as (X1 & X2). rewrite X1, X2, E2, E4, E3 in *. rewrite F2. lra.
Qed.
Lemma each_ok n two k (P : leaf -> Prop) (step : list R -> list R -> search -> ending search) : (forall a b s s', box n a b -> length (mask (idata s)) = (2 ^ n)%nat -> SubcheckModel.polishing (idata s) = false ->
    step a b s = Finished s' -> outcomeOf n two (volume a b) (volume a b) (leafOK n (eBox two) (ePoint two) (deepest two n k (volume a b)) a b) s s') ->
  forall l s s', (forall u v, In (u, v) l -> box n u v /\ forall lf, leafOK n (eBox two) (ePoint two) (deepest two n k (volume u v)) u v lf -> P lf) -> length (mask (idata s)) = (2 ^ n)%nat -> SubcheckModel.polishing (idata s) = false ->
    each step l s = Finished s' -> outcomeOf n two (volumes l) (volumes l) P s s'.
Proof.
  intros HS. induction l as [|[u v] l IH]; intros s s' HB HM HP E; cbn [each] in E.
  - injection E as <-. exists []. cbn [map List.app fold_left volumes fold_right]. rewrite app_nil_r. split; [auto|]. split; [auto|]. split; [auto|]. split; [auto|]. split; [constructor|]. lra.
  - destruct (step u v s) as [s1| |] eqn:E1; try discriminate. destruct (HB u v (or_introl eq_refl)) as (B1 & B2).
    destruct (HS u v s s1 B1 HM HP E1) as (l1 & M1 & P1 & R1 & T1 & F1 & A1).
    destruct (IH s1 s' ltac:(intros u' v' Hin; apply HB; right; auto) M1 P1 E) as (l2 & M2 & P2 & R2 & T2 & F2 & A2).
    exists (l1 ++ l2). split; [auto|]. split; [auto|]. split; [rewrite R2, R1, map_app, app_assoc; reflexivity|]. split; [rewrite map_app, fold_left_app, <- T1; auto|].
    split; [apply Forall_app; split; [eapply Forall_impl; [|exact F1]; auto|auto]|]. cbn [volumes fold_right fst snd]. fold (volumes l). lra.
Qed.

Section Search.
  Variable X : tools.
  Variable tols : tolset.
  Variables target_deg max_level : nat.
  Variable methods : list reduction.
  Variable trust : bool.
  Variable n : nat.
  Hypothesis Hn2 : (2 <= n)%nat.

  Lemma update_keeps funcs a b deg level ut s s' : updateTols X tols funcs a b deg level ut s = Some s' -> idata s' = idata s /\ results s' = results s /\ tracked s' = tracked s.
  Proof.
    unfold updateTols. destruct (check_eval_error tols); [|intros E; injection E as <-; auto]. destruct (if (level mod _ =? 0)%nat then _ else _) as [[t w]|]; [|discriminate].
    intros E. injection E as <-. destruct ut; auto.
  Qed.
  Lemma subs_ok a b polys errors ck s l s' : box n a b -> length (mask (idata s)) = (2 ^ n)%nat -> SubcheckModel.polishing (idata s) = false -> Forall (fun P => ndim P = n) polys -> (length errors = length polys \/ length polys <> n) ->
    subintervals X methods a b polys errors ck s = Some (l, s') ->
    length (mask (idata s')) = (2 ^ n)%nat /\ SubcheckModel.polishing (idata s') = false /\ results s' = results s /\ tracked s' = tracked s /\ Forall (subBox n a b) l /\ area (idata s') + volumes l = area (idata s) + volume a b /\ volumes l <= volume a b /\
    Forall (fun u => volume (fst u) (snd u) <= 3 / 4 * volume a b) l.
  Proof.
    intros HB HM HP HF HL E. unfold subintervals in E. destruct (get_subintervals _ _ _ _ _ _ _ _ _ _) as [[l0 d]| |] eqn:EG; try discriminate. injection E as <- <-. cbn [idata results tracked].
    destruct (get_ok n _ _ _ _ _ _ _ _ _ _ _ _ HB HM HF HL EG) as (A & B & C & D & E). split; [auto|]. split; [congruence|]. split; [auto|]. split; [auto|]. split; [auto|]. split; [auto|]. split; [auto|]. exact (get_shrink n _ _ _ _ _ _ _ _ _ _ _ _ Hn2 HB HM HF HL EG).
  Qed.
  Lemma sub_search two k (step : list R -> list R -> search -> ending search) a b polys errors ck s l s1 s' : box n a b -> length (mask (idata s)) = (2 ^ n)%nat -> SubcheckModel.polishing (idata s) = false -> Forall (fun P => ndim P = n) polys -> (length errors = length polys \/ length polys <> n) ->
    subintervals X methods a b polys errors ck s = Some (l, s1) ->
    (forall a b s s', box n a b -> length (mask (idata s)) = (2 ^ n)%nat -> SubcheckModel.polishing (idata s) = false ->
      step a b s = Finished s' -> outcomeOf n two (volume a b) (volume a b) (leafOK n (eBox two) (ePoint two) (deepest two n k (volume a b)) a b) s s') ->
    each step l s1 = Finished s' -> outcomeOf n two (volume a b) (volume a b) (leafOK n (eBox two) (ePoint two) (deepest two n (S k) (volume a b)) a b) s s'.
  Proof.
    intros HB HM HP HF HL E HS EE. destruct (subs_ok a b polys errors ck s l s1 HB HM HP HF HL E) as (M1 & P1 & R1 & T1 & F1 & A1 & A0 & A3).
    destruct (each_ok n two k (leafOK n (eBox two) (ePoint two) (deepest two n (S k) (volume a b)) a b) step HS l s1 s') as (ls & M2 & P2 & R2 & T2 & F2 & A2); auto.
    { intros u v Hin. rewrite Forall_forall in F1. specialize (F1 _ Hin). rewrite Forall_forall in A3. specialize (A3 _ Hin). cbn [fst snd] in A3. split; [apply F1|]. intros lf Hlf. destruct (e_values two) as (E1 & E2 & _). eapply leaf_mono; [| |apply (deepest_S two n k); exact A3|exact F1|exact Hlf]; destruct two; lra. }
    exists ls. split; [auto|]. split; [auto|]. split; [congruence|]. split; [congruence|]. split; [auto|].
    pose proof (growth_ge two n) as G. pose proof (volume_pos n a b HB) as VP. 
    assert (volumes l * (growth two n - 1) <= volume a b * (growth two n - 1)) by (apply Rmult_le_compat_r; lra). lra.
  Qed.
  Lemma growth_one two : (1 + 1 / 10 ^ 9) ^ n <= growth two n.
  Proof. unfold growth. apply Rle_pow; [replace (10 ^ 9) with 1000000000 by ring; lra|]. destruct two; lia. Qed.
  Lemma solved_leaf two V a b (r : reason) zs s : box n a b -> length (mask (idata s)) = (2 ^ n)%nat -> SubcheckModel.polishing (idata s) = false -> r <> TooDeep ->
    let low := bufferLow a b in let high := bufferHigh a b in
    outcomeOf n two (volume a b) (volume a b) (leafOK n (eBox two) (ePoint two) V a b) s (addRoots (zeros_in_interval zs a b n) low high r (trackInterval r low high s)).
  Proof.
    intros HB HM HP HR low high. destruct (buffer_box n a b HB) as (L1 & L2 & L3). fold low in L1, L3. fold high in L2, L3. pose proof HB as (La & Lb & LT).
    exists [mkLeaf r low high (zeros_in_interval zs a b n)]. unfold addRoots, trackInterval. cbn [idata mask area SubcheckModel.polishing results tracked work]. rewrite HP. cbn [map stored why SubNdSpec.low SubNdSpec.high fold_left].
    split; [auto|]. split; [auto|]. split; [reflexivity|]. split; [unfold callOf; cbn [why points SubNdSpec.low SubNdSpec.high]; destruct r; [congruence|reflexivity|reflexivity]|]. destruct (e_values two) as (E1 & E2 & E3 & E4). split.
    - constructor; [|constructor]. split; [auto|]. split; [auto|]. cbn [SubNdSpec.low SubNdSpec.high points why]. split; [|split; [|congruence]].
      + intros i Hi. split; [auto|]. specialize (LT i Hi). unfold within, low, high. destruct (buffer_nth a b i ltac:(congruence) ltac:(lia)) as (-> & ->). rewrite E1, E4. destruct two; lra.
      + intros z i Hz Hi. apply zeros_in in Hz. destruct Hz as (_ & Hz). specialize (Hz i Hi). specialize (LT i Hi). unfold within. rewrite E2. rewrite E3 in *. destruct two; lra.
    - rewrite volume_area by congruence. unfold low, high. rewrite buffer_volume by congruence. rewrite La. pose proof (volume_pos n a b HB) as VP. pose proof (growth_one two) as G.
      assert (1 <= (1 + 1 / 10 ^ 9) ^ n) by (apply pow_R1_Rle; rewrite E3; lra).
      assert ((1 + 1 / 10 ^ 9) ^ n * volume a b <= growth two n * volume a b) by (apply Rmult_le_compat_r; lra).
      assert (1 * volume a b <= (1 + 1 / 10 ^ 9) ^ n * volume a b) by (apply Rmult_le_compat_r; lra). rnum. lra.
  Qed.
  Lemma search_ok : forall fuel funcs a b deg gd level ut s s', length funcs = n -> match gd with Some g => length g = n | None => True end -> box n a b ->
    length (mask (idata s)) = (2 ^ n)%nat -> SubcheckModel.polishing (idata s) = false ->
    subdivision_solve_nd X tols target_deg max_level methods trust fuel funcs a b deg gd level ut s = Finished s' ->
    let two := (deg =? 2)%nat in outcomeOf n two (volume a b) (volume a b) (leafOK n (eBox two) (ePoint two) (deepest two n (max_level - level) (volume a b)) a b) s s'.
  Proof.
    induction fuel as [|fuel IH]; intros funcs a b deg gd level ut s s' HF HG HB HM HP E two; cbn [subdivision_solve_nd] in E; [discriminate|]. pose proof HB as (La & Lb & LT).
    destruct (Nat.leb_spec max_level level) as [HLv|HLv].
    - injection E as <-. exists [mkLeaf TooDeep a b [map (fun p => (fst p + snd p) / 2) (combine a b)]]. unfold trackInterval. cbn [idata mask area SubcheckModel.polishing results tracked work]. rewrite HP. cbn [map stored why low high fold_left].
      split; [auto|]. split; [auto|]. split; [reflexivity|]. split; [reflexivity|]. destruct (e_values two) as (E1 & E2 & E3 & E4). split.
      + constructor; [|constructor]. split; [auto|]. split; [auto|]. cbn [low high points why]. split; [|split].
        * intros i Hi. specialize (LT i Hi). split; [auto|]. unfold within. rewrite E1. destruct two; lra.
        * intros z i [<-|[]] Hi. specialize (LT i Hi). set (F := fun p : R * R => (fst p + snd p) / 2). rewrite (nth_indep (map F (combine a b)) 0 (F (0, 0))) by (rewrite map_length, combine_length; lia). rewrite map_nth, combine_nth by congruence. unfold F. cbn [fst snd].
          unfold within. rewrite E2, E3. destruct two; lra.
        * intros _. split.
          -- unfold deepest. replace (max_level - level)%nat with 0%nat by lia. change ((3 / 4) ^ 0) with 1. rewrite (Rmult_1_l (volume a b)). pose proof (volume_pos n a b HB) as VP.
             assert (1 <= (1 + 1 / 10 ^ 9) ^ (if two then 0 else n)) by (apply pow_R1_Rle; rewrite E3; lra). assert (1 * volume a b <= (1 + 1 / 10 ^ 9) ^ (if two then 0 else n) * volume a b) by (apply Rmult_le_compat_r; lra). lra.
          -- eexists. split; [reflexivity|]. split; [rewrite map_length, combine_length; lia|]. intros i Hi. set (F := fun p : R * R => (fst p + snd p) / 2). rewrite (nth_indep (map F (combine a b)) 0 (F (0, 0))) by (rewrite map_length, combine_length; lia). rewrite map_nth, combine_nth by congruence. reflexivity.
      + rewrite volume_area by congruence. pose proof (volume_pos n a b HB) as VP. pose proof (growth_ge two n) as G. assert (1 * volume a b <= growth two n * volume a b) by (apply Rmult_le_compat_r; lra). rnum. lra.
    - destruct (updateTols X tols funcs a b deg level ut s) as [s0|] eqn:E0; [|discriminate]. destruct (update_keeps _ _ _ _ _ _ _ _ E0) as (I0 & R0 & T0).
      assert (BACK : forall vi vo P st, outcomeOf n two vi vo P s0 st -> outcomeOf n two vi vo P s st) by (intros vi vo P st (ls & Q); rewrite I0, R0, T0 in Q; exists ls; exact Q).
      set (gs := match gd with Some g => g | None => _ end) in E. assert (LG : length gs = length funcs) by (unfold gs; destruct gd; [congruence|apply repeat_length]).
      destruct (approxLoop X tols funcs gs _ _ deg _ 0 (work s0)) as [[[[[failed cs] ns] es] w]|] eqn:EA; [|discriminate].
      destruct (loop_shape _ _ _ _ _ _ _ _ _ _ _ _ _ _ _ LG EA) as (SH & CNT). destruct (buffer_len a b ltac:(congruence)) as (BL1 & BL2). rewrite BL1, La in SH.
      set (s1 := mkSearch w (idata s0) (results s0) (tracked s0) (abs_approx_tol s0) (target_tol s0)) in E.
      apply BACK. assert (BACK1 : forall vi vo P st, outcomeOf n two vi vo P s1 st -> outcomeOf n two vi vo P s0 st) by (intros vi vo P st H; exact H). apply BACK1. clear BACK BACK1.
      assert (M1 : length (mask (idata s1)) = (2 ^ n)%nat) by (cbn [s1 idata]; rewrite I0; auto). assert (P1 : SubcheckModel.polishing (idata s1) = false) by (cbn [s1 idata]; rewrite I0; auto).
      clearbody s1. destruct failed as [num|].
      + destruct (subintervals X methods a b cs _ false s1) as [[l s2]|] eqn:ES; [|discriminate].
        replace (max_level - level)%nat with (S (max_level - (level + 1)))%nat by lia. eapply (sub_search two); [exact HB|exact M1|exact P1|exact SH| |exact ES| |exact E]; [right; lia|].
        intros a' b' t t' B' M' P' E'. unfold two. eapply IH; [| |exact B'|exact M'|exact P'|exact E']; [|exact I]. unfold reorder. destruct (nth_error funcs num) as [f|] eqn:EN; [|auto].
        assert (num < length funcs)%nat by (apply nth_error_Some; congruence). rewrite !app_length, firstn_length, skipn_length. cbn [length]. lia.
      + destruct CNT as (C1 & C2 & C3). destruct (trim_coeffs cs _ _ ns es) as [[[coeffs good] es']|] eqn:ET; [|discriminate].
        destruct (trim_shape n _ _ cs ns es coeffs good es' ltac:(congruence) ltac:(congruence) ET SH) as (SH' & C1' & C3').
        set (errs := floorErrors trust es') in E. assert (LE : length errs = length coeffs) by (unfold errs, floorErrors; destruct trust; rewrite ?map_length; congruence).
        set (gs' := if good then _ else gs) in E. assert (LG' : length gs' = n) by (unfold gs'; destruct good; [rewrite map_length|]; congruence).
        set (gz := Rmax _ _) in E. set (sub := match subintervals X methods a b coeffs errs true s1 with Some _ => _ | None => _ end) in E.
        assert (SUB : sub = Finished s' -> outcomeOf n two (volume a b) (volume a b) (leafOK n (eBox two) (ePoint two) (deepest two n (max_level - level) (volume a b)) a b) s1 s').
        { unfold sub. destruct (subintervals X methods a b coeffs errs true s1) as [[l s2]|] eqn:ES; [|discriminate]. intros E'.
          replace (max_level - level)%nat with (S (max_level - (level + 1)))%nat by lia. eapply (sub_search two); [exact HB|exact M1|exact P1|exact SH'| |exact ES| |exact E']; [left; auto|].
          intros a' b' t t' B' M' P' E''. unfold two. eapply IH; [exact HF| |exact B'|exact M'|exact P'|exact E'']. auto. }
        clearbody sub. rewrite La in E. destruct (existsb _ coeffs || negb good); [auto|]. destruct (existsb _ (combine errs ns)); [auto|]. destruct (forallb _ coeffs).
        * destruct (Nat.eqb_spec deg 2) as [D|D]; cbn [negb] in E.
          -- subst two. destruct (LinAlgModel.solve_linear coeffs) as [x| | |]; try discriminate; injection E as <-; apply solved_leaf; auto; discriminate.
          -- unfold two. assert (DD : deepest false n (max_level - level) (volume a b) = deepest true n (max_level - level) (volume (bufferLow a b) (bufferHigh a b))) by (rewrite buffer_volume by congruence; rewrite La; unfold deepest; cbn [pow]; ring). destruct (IH funcs _ _ 2%nat (Some gs') level true s1 s' HF LG' (buffer_box n a b HB) M1 P1 E) as (ls & MM & PP & RR & TT & FF & AA). exists ls.
             split; [auto|]. split; [auto|]. split; [auto|]. split; [auto|]. split; [eapply Forall_impl; [|exact FF]; intros l Hl; apply leaf_deg2; auto; rewrite DD; exact Hl|].
             cbn [Nat.eqb growth] in AA. rewrite buffer_volume in AA by congruence. rewrite La in AA. unfold growth in *. replace (2 * n)%nat with (n + n)%nat by lia. rewrite pow_add.
             pose proof (volume_pos n a b HB) as VP. destruct (e_values true) as (_ & _ & E3 & _). assert (1 <= (1 + 1 / 10 ^ 9) ^ n) by (apply pow_R1_Rle; rewrite E3; lra).
             assert (1 * volume a b <= (1 + 1 / 10 ^ 9) ^ n * volume a b) by (apply Rmult_le_compat_r; lra). rewrite <- Rmult_assoc in AA. lra.
        * destruct (takesLeadTerm X); [|discriminate]. destruct (tMult X _) as [[|z zs]| | | |]; try discriminate; auto. injection E as <-. apply solved_leaf; auto. discriminate.
  Qed.
End Search.
Section Fuel.
  Variables (X : tools) (tols : tolset) (target_deg max_level : nat) (methods : list reduction) (trust : bool).
  Lemma each_fuel (step : list R -> list R -> search -> ending search) : (forall a b s, step a b s <> NoFuel) -> forall l s, each step l s <> NoFuel.
  Proof. intros H. induction l as [|[u v] l IH]; intros s; cbn [each]; [discriminate|]. specialize (H u v s). destruct (step u v s); congruence || auto. Qed.
  Lemma fuel_ok : forall fuel funcs a b deg gd level ut s, (2 * (max_level - level) + (if (deg =? 2)%nat then 1 else 2) <= fuel)%nat ->
    subdivision_solve_nd X tols target_deg max_level methods trust fuel funcs a b deg gd level ut s <> NoFuel.
  Proof.
    induction fuel as [|fuel IH]; intros funcs a b deg gd level ut s HF; [destruct (deg =? 2)%nat; lia|]. cbn [subdivision_solve_nd].
    destruct (Nat.leb_spec max_level level) as [|HL]; [discriminate|]. destruct (updateTols X tols funcs a b deg level ut s) as [s0|]; [|discriminate].
    destruct (approxLoop _ _ _ _ _ _ _ _ _ _) as [[[[[failed cs] ns] es] w]|]; [|discriminate].
    assert (ST : forall fs g u a' b' t, subdivision_solve_nd X tols target_deg max_level methods trust fuel fs a' b' deg g (level + 1) u t <> NoFuel) by (intros; apply IH; destruct (deg =? 2)%nat; lia).
    destruct failed as [num|].
    - destruct (subintervals _ _ _ _ _ _ _ _) as [[l s2]|]; [|discriminate]. apply each_fuel. intros. apply ST.
    - destruct (trim_coeffs _ _ _ _ _) as [[[coeffs good] es']|]; [|discriminate]. set (sub := match subintervals X methods a b coeffs _ true _ with Some _ => _ | None => _ end).
      assert (SUB : sub <> NoFuel). { unfold sub. destruct (subintervals _ _ _ _ _ _ _ _) as [[l s2]|]; [|discriminate]. apply each_fuel. intros. apply ST. }
      clearbody sub. destruct (existsb _ coeffs || negb good); [auto|]. destruct (existsb _ (combine _ ns)); [auto|]. destruct (forallb _ coeffs).
      + destruct (Nat.eqb_spec deg 2) as [D|D]; cbn [negb].
        * destruct (LinAlgModel.solve_linear coeffs); discriminate.
        * apply IH. cbn [Nat.eqb]. lia.
      + destruct (takesLeadTerm X); [|discriminate]. destruct (tMult X _) as [[|z zs]| | | |]; try discriminate; auto.
  Qed.
End Fuel.

(** the tracker only returns points it was given *)
Lemma tracker_points (ls : list leaf) : forall s, let s' := fold_left step (map callOf ls) s in
  (forall z, In z (roots s') -> In z (roots s) \/ exists l, In l ls /\ why l <> TooDeep /\ In z (points l)) /\
  (forall z, In z (map (fun d => fst (fst (fst d))) (possible_duplicates s')) -> In z (map (fun d => fst (fst (fst d))) (possible_duplicates s)) \/ exists l, In l ls /\ why l <> TooDeep /\ In z (points l)).
Proof.
  assert (ONE : forall zs a b r (s : tracker R reason), (forall z, In z (roots (fold_left (add_one a b r) zs s)) -> In z (roots s) \/ In z zs) /\
     (forall z, In z (map (fun d => fst (fst (fst d))) (possible_duplicates (fold_left (add_one a b r) zs s))) -> In z (map (fun d => fst (fst (fst d))) (possible_duplicates s)) \/ In z zs)).
  { induction zs as [|x zs IH]; intros a b r s; [cbn [fold_left]; auto|]. cbn [fold_left]. destruct (IH a b r (add_one a b r s x)) as (A & B). unfold add_one in A, B |- *.
    destruct (rootInBox x a b); [|destruct (existsb _ _)]; cbn [add_root roots possible_duplicates] in *.
    - split; [intros z Hz; apply A in Hz; rewrite in_app_iff in Hz; cbn [In] in *; tauto|intros z Hz; apply B in Hz; cbn [In]; tauto].
    - split; [intros z Hz; apply A in Hz|intros z Hz; apply B in Hz]; cbn [In]; tauto.
    - split; [intros z Hz; apply A in Hz; cbn [In]; tauto|intros z Hz; apply B in Hz; rewrite map_app, in_app_iff in Hz; cbn [map fst In] in *; tauto]. }
  induction ls as [|l ls IH]; intros s; cbn [map fold_left]; [cbn; auto|]. destruct (IH (step s (callOf l))) as (A & B).
  assert (C : (forall z, In z (roots (step s (callOf l))) -> In z (roots s) \/ why l <> TooDeep /\ In z (points l)) /\
     (forall z, In z (map (fun d => fst (fst (fst d))) (possible_duplicates (step s (callOf l)))) -> In z (map (fun d => fst (fst (fst d))) (possible_duplicates s)) \/ why l <> TooDeep /\ In z (points l))).
  { assert (AR : why l <> TooDeep -> (forall z, In z (roots (add_roots s (points l) (low l) (high l) (why l))) -> In z (roots s) \/ why l <> TooDeep /\ In z (points l)) /\
     (forall z, In z (map (fun d => fst (fst (fst d))) (possible_duplicates (add_roots s (points l) (low l) (high l) (why l)))) -> In z (map (fun d => fst (fst (fst d))) (possible_duplicates s)) \/ why l <> TooDeep /\ In z (points l))).
    { intros NT. destruct (ONE (points l) (low l) (high l) (why l) s) as (O1 & O2). unfold add_roots, drop_inside. cbn [roots possible_duplicates]. split; [intros z Hz; apply O1 in Hz; tauto|].
      intros z Hz. apply in_map_iff in Hz. destruct Hz as (d & <- & Hd). apply filter_In in Hd. destruct Hd as (Hd & _). destruct (O2 _ (in_map _ _ _ Hd)); tauto. }
    unfold callOf. destruct (why l) eqn:EW; cbn [step].
    - cbn [add_potential_roots roots possible_duplicates]. auto.
    - apply AR. congruence.
    - apply AR. congruence. }
  destruct C as (C1 & C2). split; intros z Hz; [apply A in Hz|apply B in Hz]; destruct Hz as [Hz|(l' & H1 & H2 & H3)]; try (right; exists l'; cbn [In]; tauto); [apply C1 in Hz|apply C2 in Hz]; destruct Hz as [Hz|(H1 & H2)]; auto; right; exists l; cbn [In]; tauto.
Qed.
Lemma tracker_potential (ls : list leaf) : forall s, potential_roots (fold_left step (map callOf ls) s) = potential_roots s ++ flat_map (fun l => match why l with TooDeep => points l | _ => [] end) ls.
Proof.
  assert (ONE : forall zs a b r (s : tracker R reason), potential_roots (fold_left (add_one a b r) zs s) = potential_roots s).
  { induction zs as [|x zs IH]; intros a b r s; [reflexivity|]. cbn [fold_left]. rewrite IH. unfold add_one. destruct (rootInBox x a b); [|destruct (existsb _ _)]; reflexivity. }
  induction ls as [|l ls IH]; intros s; cbn [map fold_left flat_map]; [rewrite app_nil_r; auto|]. rewrite IH. unfold callOf. destruct (why l); cbn [step].
  - cbn [add_potential_roots potential_roots]. rewrite app_assoc. reflexivity.
  - unfold add_roots, drop_inside. cbn [potential_roots]. rewrite ONE. reflexivity.
  - unfold add_roots, drop_inside. cbn [potential_roots]. rewrite ONE. reflexivity.
Qed.
Lemma keep_roots (s : tracker R reason) : roots (keep_possible_duplicates s) = roots s ++ map (fun d => fst (fst (fst d))) (possible_duplicates s) /\ potential_roots (keep_possible_duplicates s) = potential_roots s.
Proof.
  unfold keep_possible_duplicates. cbn [roots potential_roots]. match goal with |- context [fold_left ?F _ _] => set (f := F) end.
  assert (G : forall l t, roots (fold_left f l t) = roots t ++ map (fun d => fst (fst (fst d))) l /\ potential_roots (fold_left f l t) = potential_roots t).
  { induction l as [|[[[z a] b] m] l IH]; intros t; cbn [fold_left map]; [rewrite app_nil_r; auto|]. destruct (IH (f t (z, a, b, m))) as (A & B). rewrite A, B. cbn [f add_root roots potential_roots fst]. rewrite <- app_assoc. auto. }
  apply G.
Qed.
