(** * Property C119: the reflection arrays give the reflected half of a Chebyshev product *)
From Coq Require Import List Arith Bool Lia Permutation Reals Lra.
From Verif Require Import RSum Cheb Tensor PolySpec MonMultProofs TermModel PermModel PermProofs PermProps PerturbModel.
Import ListNotations.

(** ** Specification *)
(** the polynomial with coefficient row_i at the monomial cs_i, Chebyshev basis, at the point x *)
Definition chebRow (cs : list (list nat)) (row : list R) (x : list R) : R := Rsum (map (fun p => (snd p * basis chebT (fst p) x)%R) (combine cs row)).
(** the exponents k in the variable var and 0 elsewhere *)
Definition powerOf (dim var k : nat) : list nat := upd (repeat 0 dim) var k.

(** ** Proofs *)
Lemma nthmap {A B} (f : A -> B) l i d d' : i < length l -> nth i (map f l) d' = f (nth i l d).
Proof. intros H. rewrite (nth_indep _ d' (f d)) by (rewrite map_length; auto). apply map_nth. Qed.
Lemma sum_zeros d : list_sum (repeat 0 d) = 0. Proof. induction d; auto. Qed.
Lemma Rsum_cons a l : Rsum (a :: l) = (a + Rsum l)%R. Proof. reflexivity. Qed.
Lemma sumn_R0 : forall n, sumn n (fun _ => 0%R) = 0%R.
Proof. induction n; cbn; auto. rewrite IHn. lra. Qed.
Lemma dget_notin d k : ~ In k (map fst d) -> dget d k = None.
Proof.
  induction d as [|[k' j] d IH]; intros H; cbn [dget]; auto. cbn in H. rewrite IH by tauto. destruct (sameKey k k') eqn:E; auto. apply sameKey_iff in E. subst. tauto.
Qed.
Lemma fst_combine {A} (U : list A) s n : length U = n -> map fst (combine U (seq s n)) = U.
Proof. revert s n. induction U as [|u U IH]; intros s n L; cbn in L; subst n; cbn; auto. rewrite IH; auto. Qed.
Lemma dget_nth U : forall s j, NoDup U -> j < length U -> dget (combine U (seq s (length U))) (nth j U []) = Some (s + j).
Proof.
  induction U as [|u U IH]; intros s j ND Hj; cbn [length] in *; [lia|]. inversion ND as [|? ? Hn ND']; subst. cbn [seq combine dget]. destruct j as [|j]; cbn [nth].
  - rewrite dget_notin by (rewrite fst_combine; auto). rewrite (proj2 (sameKey_iff u u) eq_refl). f_equal. lia.
  - rewrite IH by (auto; lia). f_equal. lia.
Qed.

Section Gather.
  Variables (U : list (list nat)) (mult : list nat) (row : list R) (g : nat -> R).
  Hypothesis ND : NoDup U.
  Hypothesis R0 : nth 0 row 0%R = 0%R.
  Notation N := (length U). Notation d := (combine U (seq 0 N)).
  Lemma dget_some k i : dget d k = Some i -> i < N /\ nth i U [] = k.
  Proof.
    intros H. destruct (in_dec (list_eq_dec Nat.eq_dec) k U) as [I|I].
    - destruct (In_nth _ _ [] I) as (j & Hj & <-). rewrite dget_nth in H by auto. injection H as <-. auto.
    - rewrite dget_notin in H by (rewrite fst_combine; auto). discriminate.
  Qed.
  Lemma dget_in k : In k U -> exists i, dget d k = Some i /\ i < N /\ nth i U [] = k.
  Proof. intros I. destruct (In_nth _ _ [] I) as (j & Hj & E). exists j. split; auto. rewrite <- E. rewrite dget_nth by auto. reflexivity. Qed.
  Definition total (p : list nat) : R := sumn N (fun i => nth (nth i p 0%nat) row 0 * g i)%R.
  Definition term (m : list nat) : R :=
    match dget d m, dget d (absDiff m mult) with Some idx, Some i => (nth idx row 0 * g i)%R | _, _ => 0%R end.
  Lemma gather L : forall p, length p = N -> incl L U -> NoDup L ->
    (forall m m', In m L -> In m' L -> absDiff m mult = absDiff m' mult -> m = m') ->
    (forall m i, In m L -> dget d (absDiff m mult) = Some i -> nth i p 0 = 0) ->
    exists q, fold_left (perturbStep d mult) L (Some p) = Some q /\ length q = N /\ total q = (total p + Rsum (map term L))%R.
  Proof.
    induction L as [|m L IH]; intros p Lp HI HN Hinj H0; [exists p; cbn; repeat split; auto; lra|]. inversion HN as [|? ? Hm HN']; subst. cbn [fold_left perturbStep].
    destruct (dget_in m (HI m (or_introl eq_refl))) as (idx & Ei & _). rewrite Ei. destruct (dget d (absDiff m mult)) as [i|] eqn:Ed.
    - destruct (dget_some _ _ Ed) as [Hi Ui].
      destruct (IH (upd p i idx)) as (q & Q1 & Q2 & Q3).
      + rewrite upd_length. auto.
      + intros v Hv. apply HI. right. auto.
      + auto.
      + intros v v' Hv Hv'. apply Hinj; right; auto.
      + intros v j Hv Ej. destruct (Nat.eq_dec i j) as [<-|Nj]; [|rewrite nth_upd_neq by auto; apply (H0 v); [right|]; auto].
        exfalso. destruct (dget_some _ _ Ej) as [_ Uj]. assert (m = v) by (apply Hinj; [left; auto|right; auto|congruence]). subst v. contradiction.
      + exists q. split; auto. split; auto. rewrite Q3. cbn [map]. rewrite Rsum_cons. replace (term m) with (nth idx row 0 * g i)%R by (unfold term; rewrite Ei, Ed; auto).
        assert (E : total (upd p i idx) = (total p + nth idx row 0 * g i)%R).
        { unfold total. rewrite <- (sumn_pick N i (fun j => nth idx row 0 * g j)%R Hi), <- sumn_plus. apply sumn_ext. intros j Hj. destruct (Nat.eqb_spec j i) as [->|Nj].
          - rewrite nth_upd_eq by lia. rewrite (H0 m i (or_introl eq_refl) Ed), R0. ring.
          - rewrite nth_upd_neq by auto. ring. }
        rewrite E. lra.
    - destruct (IH p) as (q & Q1 & Q2 & Q3); auto.
      + intros v Hv. apply HI. right. auto.
      + intros v v' Hv Hv'. apply Hinj; right; auto.
      + intros v j Hv. apply H0. right. auto.
      + exists q. split; auto. split; auto. rewrite Q3. cbn [map]. rewrite Rsum_cons. replace (term m) with 0%R by (unfold term; rewrite Ei, Ed; auto). lra.
  Qed.
  Lemma total_zeros : total (repeat 0 N) = 0%R.
  Proof. unfold total. transitivity (sumn N (fun _ => 0%R)); [|apply sumn_R0]. apply sumn_ext. intros i Hi. rewrite nth_repeat, R0. ring. Qed.
  Lemma gather0 L : incl L U -> NoDup L -> (forall m m', In m L -> In m' L -> absDiff m mult = absDiff m' mult -> m = m') ->
    exists q, fold_left (perturbStep d mult) L (Some (repeat 0 (length d))) = Some q /\ length q = N /\ total q = Rsum (map term L).
  Proof.
    intros A B C. rewrite combine_length, seq_length, Nat.min_id. destruct (gather L (repeat 0 N)) as (q & Q1 & Q2 & Q3); auto; [apply repeat_length|intros; apply nth_repeat|].
    exists q. rewrite Q3, total_zeros. repeat split; auto. lra.
  Qed.
End Gather.

Lemma absDiff_power dim var k m : length m = dim -> var < dim -> absDiff m (powerOf dim var k) = upd m var (dist (nth var m 0) k).
Proof.
  intros L Hv. unfold absDiff, powerOf. apply (nth_ext _ _ 0 0); rewrite ?map_length, ?combine_length, ?upd_length, ?repeat_length; [lia|]. intros i Hi.
  rewrite (nthmap _ _ _ (0, 0)) by (rewrite combine_length, upd_length, repeat_length; lia).
  rewrite combine_nth by (rewrite upd_length, repeat_length; auto). cbn [fst snd]. destruct (Nat.eq_dec var i) as [<-|Ni].
  - rewrite !nth_upd_eq by (rewrite ?repeat_length; lia). reflexivity.
  - rewrite !nth_upd_neq, nth_repeat by auto. lia.
Qed.
Lemma basis_split dim : forall var m x, length m = dim -> length x = dim -> var < dim ->
  exists r, forall j, basis chebT (upd m var j) x = (chebT j (nth var x 0%R) * r)%R.
Proof.
  induction dim as [|dim IH]; intros var m x Lm Lx Hv; [lia|]. destruct m as [|a m]; [discriminate|]. destruct x as [|u x]; [discriminate|]. destruct var as [|var]; cbn [nth upd basis].
  - eexists. reflexivity.
  - destruct (IH var m x ltac:(cbn in Lm; lia) ltac:(cbn in Lx; lia) ltac:(lia)) as (r & A). exists (chebT a u * r)%R. intros j. rewrite A. ring.
Qed.
Lemma basis_product dim var k m x : length m = dim -> length x = dim -> var < dim ->
  (2 * chebT k (nth var x 0) * basis chebT m x = basis chebT (upd m var (nth var m 0%nat + k)%nat) x + basis chebT (upd m var (dist (nth var m 0%nat) k)) x)%R.
Proof.
  intros Lm Lx Hv. destruct (basis_split dim var m x Lm Lx Hv) as (r & A). rewrite <- (upd_nth m var 0) at 1. rewrite !A.
  pose proof (chebT_product k (nth var m 0%nat) (nth var x 0%R)) as Q. rewrite <- Rmult_assoc, Q. ring.
Qed.
Lemma Rsum_perm l l' : Permutation l l' -> Rsum l = Rsum l'.
Proof. induction 1; rewrite ?Rsum_cons; try lra. Qed.
Lemma Rsum_filter {A} (f : A -> R) (b : A -> bool) l : Rsum (map f l) = (Rsum (map f (filter b l)) + Rsum (map f (filter (fun x => negb (b x)) l)))%R.
Proof. induction l as [|a l IH]; cbn [map filter]; [cbn; lra|]. destruct (b a); cbn [negb map]; rewrite !Rsum_cons; lra. Qed.
Lemma Rsum_zero {A} (f : A -> R) l : (forall x, In x l -> f x = 0%R) -> Rsum (map f l) = 0%R.
Proof. induction l as [|a l IH]; intros H; cbn [map]; auto. rewrite Rsum_cons, H by (left; auto). rewrite IH by (intros; apply H; right; auto). lra. Qed.
Lemma chebRow_sum (U : list (list nat)) row x : length row = length U -> chebRow U row x = sumn (length U) (fun i => nth i row 0 * basis chebT (nth i U []) x)%R.
Proof.
  intros L. unfold chebRow. rewrite Rsum_nth, map_length, combine_length, L, Nat.min_id. apply sumn_ext. intros i Hi.
  rewrite (nthmap _ _ _ ([], 0%R)) by (rewrite combine_length; lia). rewrite combine_nth by auto. reflexivity.
Qed.
Lemma chebRow_map (U : list (list nat)) c x : chebRow U (rowOf c U) x = Rsum (map (fun v => c v * basis chebT v x)%R U).
Proof. unfold chebRow, rowOf. f_equal. induction U; cbn; auto. rewrite IHU. reflexivity. Qed.

(** For the dictionary over the monomials of degree at most D, the monomials of degree at most D - 1 and the multiplier T_k(x_var) - the arguments
    all_permutations_cheb uses - both calls succeed, and for every polynomial whose product fits into degree D
    2 T_k(x_var) p = (the polynomial with every T_m replaced by T_(m + k)) + (row permuted by the one array) + (row permuted by the other). *)
Theorem C119_reflection_arrays :
  forall (dim D var k : nat), var < dim -> 1 <= D -> 1 <= k ->
    exists ms ms' p2 p3, mons_ordered dim D = Some ms /\ mons_ordered dim (D - 1) = Some ms' /\
      cheb_perturbation2 (powerOf dim var k) ms' (monDict ms) var = Some p2 /\ cheb_perturbation3 (powerOf dim var k) ms' (monDict ms) var = Some p3 /\
      length p2 = length ms /\ length p3 = length ms /\
      forall (c : list nat -> R) (x : list R), length x = dim -> (forall v, length v = dim -> D < list_sum v + k -> c v = 0%R) ->
        (2 * chebT k (nth var x 0) * chebRow (rev ms) (rowOf c (rev ms)) x =
           chebRow (map (fun v => upd v var (nth var v 0%nat + k)%nat) (rev ms)) (rowOf c (rev ms)) x
           + chebRow (rev ms) (permuteRow 0 (rowOf c (rev ms)) p2) x + chebRow (rev ms) (permuteRow 0 (rowOf c (rev ms)) p3) x)%R.
Proof.
  intros dim D var k Hv HD Hk. destruct (C85_mons_ordered dim D ltac:(lia)) as (ms & E1 & ND & IN & OR). destruct (C85_mons_ordered dim (D - 1) ltac:(lia)) as (ms' & E2 & ND' & IN' & _).
  set (U := rev ms). assert (NU : NoDup U) by (apply NoDup_rev; auto). assert (LU : length U = length ms) by apply rev_length.
  assert (INU : forall v, In v U <-> length v = dim /\ list_sum v <= D) by (intros v; unfold U; rewrite <- in_rev; apply IN).
  assert (MD : monDict ms = combine U (seq 0 (length U))) by (unfold monDict; fold U; rewrite LU; reflexivity).
  assert (Sub : forall b, incl (filter b ms') U) by (intros b v Hv'; apply filter_In in Hv' as [Hv' _]; apply IN' in Hv' as [? ?]; apply INU; split; auto; lia).
  set (mult := powerOf dim var k). assert (NM : nth var mult 0 = k) by (unfold mult, powerOf; rewrite nth_upd_eq by (rewrite repeat_length; auto); auto).
  assert (AD : forall m, In m ms' -> absDiff m mult = upd m var (dist (nth var m 0) k)) by (intros m Hm; apply absDiff_power; auto; apply IN' in Hm; tauto).
  assert (Inj : forall m m', In m ms' -> In m' ms' -> absDiff m mult = absDiff m' mult ->
    (k <= nth var m 0 /\ k <= nth var m' 0) \/ (nth var m 0 < k /\ nth var m' 0 < k) -> m = m').
  { intros m m' Hm Hm' E Hc. rewrite !AD in E by auto. apply IN' in Hm as [L1 _]. apply IN' in Hm' as [L2 _]. apply (nth_ext _ _ 0 0); [congruence|]. intros i Hi.
    pose proof (f_equal (fun l => nth i l 0) E) as Ei. cbn beta in Ei. destruct (Nat.eq_dec var i) as [<-|Ni].
    - rewrite !nth_upd_eq in Ei by lia. unfold dist in Ei. lia.
    - rewrite !nth_upd_neq in Ei by auto. exact Ei. }
  assert (Inj2 : forall m m', In m (filter (fun m => nth var mult 0 <=? nth var m 0) ms') -> In m' (filter (fun m => nth var mult 0 <=? nth var m 0) ms') -> absDiff m mult = absDiff m' mult -> m = m').
  { intros m m' Hm Hm' E. apply filter_In in Hm as [Hm B]. apply filter_In in Hm' as [Hm' B']. apply Nat.leb_le in B, B'. apply Inj; auto. left. lia. }
  assert (Inj3 : forall m m', In m (filter (fun m => nth var m 0 <? nth var mult 0) ms') -> In m' (filter (fun m => nth var m 0 <? nth var mult 0) ms') -> absDiff m mult = absDiff m' mult -> m = m').
  { intros m m' Hm Hm' E. apply filter_In in Hm as [Hm B]. apply filter_In in Hm' as [Hm' B']. apply Nat.ltb_lt in B, B'. apply Inj; auto. right. lia. }
  assert (G : forall row g, nth 0 row 0%R = 0%R -> exists p2 p3, cheb_perturbation2 mult ms' (monDict ms) var = Some p2 /\ cheb_perturbation3 mult ms' (monDict ms) var = Some p3 /\ length p2 = length U /\ length p3 = length U /\
     (total U row g p2 + total U row g p3 = Rsum (map (term U mult row g) ms'))%R).
  { intros row g R0. unfold cheb_perturbation2, cheb_perturbation3. rewrite MD.
    destruct (gather0 U mult row g NU R0 _ (Sub _) (NoDup_filter _ ND') Inj2) as (p2 & A1 & A2 & A3). destruct (gather0 U mult row g NU R0 _ (Sub _) (NoDup_filter _ ND') Inj3) as (p3 & B1 & B2 & B3).
    exists p2, p3. repeat split; auto. rewrite A3, B3, (Rsum_filter (term U mult row g) (fun m => nth var mult 0 <=? nth var m 0) ms'). f_equal. f_equal. f_equal. apply filter_ext. intros m.
    rewrite Nat.ltb_antisym. reflexivity. }
  destruct (G [] (fun _ => 0%R) eq_refl) as (p2 & p3 & P2 & P3 & L2 & L3 & _). exists ms, ms', p2, p3. do 4 (split; [assumption|]). split; [congruence|]. split; [congruence|].
  intros c x Lx Hc. fold U. set (row := rowOf c U). set (g := fun i => basis chebT (nth i U []) x).
  assert (LR : length row = length U) by (unfold row, rowOf; apply map_length).
  assert (NR : forall i, i < length U -> nth i row 0%R = c (nth i U [])).
  { intros i Hi. unfold row, rowOf. apply nthmap. auto. }
  assert (R0 : nth 0 row 0%R = 0%R).
  { assert (Hp : 0 < length U). { destruct U; [|cbn; lia]. exfalso. apply (proj2 (INU (repeat 0 dim))). split; [apply repeat_length|]. rewrite sum_zeros. lia. }
    rewrite NR by auto. assert (I0 : In (nth 0 U []) U) by (apply nth_In; auto). pose proof (proj1 (INU _) I0) as [L0 S0]. apply Hc; auto.
    assert (T : exists v, In v ms /\ list_sum v = D).
    { exists (powerOf dim var D). assert (S : forall d w, w < d -> list_sum (upd (repeat 0 d) w D) = D).
      { clear. induction d; intros w Hw; [lia|]. destruct w; cbn [repeat upd]; [change (D + list_sum (repeat 0 d) = D); rewrite sum_zeros; lia|]. change (list_sum (upd (repeat 0 d) w D) = D). apply IHd. lia. }
      split; [apply IN; unfold powerOf; split; [rewrite upd_length, repeat_length; auto|rewrite S; lia]|apply S; auto]. }
    destruct T as (v & Iv & Sv). destruct (In_nth_error _ _ Iv) as (i & Ei). assert (Hi : i < length ms) by (apply nth_error_Some; congruence).
    assert (EL : nth_error ms (length ms - 1) = Some (nth 0 U [])).
    { unfold U. rewrite rev_nth by lia. apply nth_error_nth'. lia. }
    destruct (Nat.eq_dec i (length ms - 1)) as [->|Ni]; [rewrite Ei in EL; injection EL as <-; lia|]. destruct (OR i (length ms - 1) v _ ltac:(lia) Ei EL) as [Q|[Q _]]; lia. }
  destruct (G row g R0) as (q2 & q3 & Q2 & Q3 & _ & _ & QS). rewrite P2 in Q2. rewrite P3 in Q3. injection Q2 as <-. injection Q3 as <-.
  assert (CP : forall p, length p = length U -> chebRow U (permuteRow 0%R row p) x = total U row g p).
  { intros p Lp. rewrite chebRow_sum by (unfold permuteRow; rewrite map_length; auto). unfold total. apply sumn_ext. intros i Hi. unfold permuteRow.
    rewrite (nthmap _ _ _ 0) by lia. reflexivity. }
  rewrite !CP by auto. rewrite Rplus_assoc, QS. unfold row at 1 2. rewrite chebRow_map.
  assert (SH : chebRow (map (fun v => upd v var (nth var v 0 + k)) U) (rowOf c U) x = Rsum (map (fun v => c v * basis chebT (upd v var (nth var v 0%nat + k)%nat) x)%R U)).
  { unfold chebRow, rowOf. f_equal. generalize U. clear. induction U as [|u U IHU]; cbn; auto. rewrite IHU. reflexivity. }
  rewrite SH. clear SH.
  assert (TM : Rsum (map (term U mult row g) ms') = Rsum (map (fun v => c v * basis chebT (upd v var (dist (nth var v 0%nat) k)) x)%R U)).
  { rewrite (Rsum_filter _ (fun v => list_sum v <=? D - 1) U).
    rewrite (Rsum_zero _ (filter (fun v => negb (list_sum v <=? D - 1)) U)).
    2:{ intros v Hv'. apply filter_In in Hv' as [Iv B]. apply negb_true_iff, Nat.leb_gt in B. apply INU in Iv as [L S]. rewrite Hc by (auto; lia). ring. }
    rewrite Rplus_0_r. transitivity (Rsum (map (fun v => c v * basis chebT (upd v var (dist (nth var v 0%nat) k)) x)%R ms')); [|apply Rsum_perm, Permutation_sym].
    - apply Rsum_map_ext. intros m Hm. unfold term. assert (Im : In m U) by (apply IN' in Hm as [? ?]; apply INU; split; auto; lia).
      destruct (dget_in U NU m Im) as (i & -> & Hi & Ui). rewrite AD by auto. rewrite NR, Ui by auto.
      destruct (dget (combine U (seq 0 (length U))) (upd m var (dist (nth var m 0) k))) as [j|] eqn:Ej.
      + apply (dget_some U NU) in Ej as [_ Uj]. unfold g. rewrite Uj. reflexivity.
      + assert (c m = 0%R); [|rewrite H; ring]. apply IN' in Hm as [Lm Sm]. apply Hc; auto. destruct (Nat.le_gt_cases (list_sum m + k) D) as [Q|Q]; auto. exfalso.
        assert (I2 : In (upd m var (dist (nth var m 0) k)) U).
        { apply INU. split; [rewrite upd_length; auto|]. assert (S : forall l w j, w < length l -> list_sum (upd l w j) + nth w l 0 = list_sum l + j).
          { clear. induction l as [|a l IH]; intros w j Hw; cbn in Hw; [lia|]. destruct w; cbn [upd nth]; [cbn; lia|]. specialize (IH w j ltac:(lia)). change (list_sum (a :: upd l w j)) with (a + list_sum (upd l w j)). change (list_sum (a :: l)) with (a + list_sum l). lia. }
          specialize (S m var (dist (nth var m 0) k) ltac:(lia)). unfold dist in *. lia. }
        destruct (dget_in U NU _ I2) as (j & Hj & _). congruence.
    - apply Permutation_map, NoDup_Permutation; [apply NoDup_filter; auto|auto|]. intros v. rewrite filter_In, INU, IN', Nat.leb_le. split; intros; intuition lia. }
  rewrite TM, <- Rsum_map_plus, <- Rsum_map_scal. apply Rsum_map_ext. intros v Iv. apply INU in Iv as [Lv _].
  rewrite <- Rmult_plus_distr_l, <- (basis_product dim var k v x Lv Lx Hv). ring.
Qed.
Print Assumptions C119_reflection_arrays.

(** mons_1D lists the multipliers of degree 2 to deg in the one variable, once each *)
Theorem C119_multipliers : forall dim deg var, var < dim ->
  NoDup (mons_1D dim deg var) /\ forall v, In v (mons_1D dim deg var) <-> exists k, 2 <= k <= deg /\ v = powerOf dim var k.
Proof.
  intros dim deg var Hv. unfold mons_1D, powerOf. split.
  - apply FinFun.Injective_map_NoDup; [|apply seq_NoDup]. intros a b E. apply (f_equal (fun l => nth var l 0)) in E. rewrite !nth_upd_eq in E by (rewrite repeat_length; auto). auto.
  - intros v. rewrite in_map_iff. split.
    + intros (k & <- & Hk). apply in_seq in Hk. exists k. split; auto. lia.
    + intros (k & Hk & ->). exists k. split; auto. apply in_seq. lia.
Qed.
Print Assumptions C119_multipliers.

(** dim = 2, D = 3, multiplier T_2(x): the arrays, and a polynomial of degree one (3 T_1(x) + 5 T_1(y)) that fits *)
Example C119_example :
  exists ms ms', mons_ordered 2 3 = Some ms /\ mons_ordered 2 2 = Some ms' /\
    rev ms = [[3;0];[2;1];[1;2];[0;3];[2;0];[1;1];[0;2];[1;0];[0;1];[0;0]] /\
    cheb_perturbation2 (powerOf 2 0 2) ms' (monDict ms) 0 = Some [0;0;0;0;0;0;0;0;0;4] /\
    cheb_perturbation3 (powerOf 2 0 2) ms' (monDict ms) 0 = Some [0;8;0;0;9;5;0;7;0;0] /\
    (let c := fun v => match v with [1;0] => 3%R | [0;1] => 5%R | _ => 0%R end in
     (forall v, length v = 2 -> 3 < list_sum v + 2 -> c v = 0%R) /\ rowOf c (rev ms) = [0;0;0;0;0;0;0;3;5;0]%R).
Proof.
  do 2 eexists. split; [reflexivity|]. split; [reflexivity|]. split; [reflexivity|]. split; [reflexivity|]. split; [reflexivity|]. cbv zeta. split; [|reflexivity].
  intros v L S. destruct v as [|a [|b [|? ?]]]; try discriminate. cbn in S. destruct a as [|[|a]]; destruct b as [|[|b]]; try lia; auto.
Qed.
