(** * M_maker: the search for good degrees *)
From Coq Require Import Reals List Lia Lra Arith ZArith Bool.
From Verif Require Import Num Tensor RSum Cheb PolySpec LinearModel LinearProofs CombinedModel CombinedSpec ApproxModel ApproxDct ApproxInterp ApproxDegree MakerModel MakerProofs.
From Verif Require PolyModel PolyArith.
Import ListNotations.

Lemma cosR_double m d : cosR (2 * m) (2 * d) = cosR m d.
Proof.
  unfold cosR. destruct d as [|d].
  - simpl. unfold Rdiv. rewrite !(RIneq.Rinv_0). rewrite !Rmult_0_r. reflexivity.
  - f_equal. rewrite !mult_INR. assert (INR (S d) <> 0%R) by (apply not_0_INR; lia). change (INR 2) with 2%R. field. auto.
Qed.
Lemma double_length degs : length (double degs) = length degs.
Proof. apply map_length. Qed.
Lemma double_pos degs : Forall (fun d => (1 <= d)%nat) degs -> Forall (fun d => (1 <= d)%nat) (double degs).
Proof. unfold double. induction 1; simpl; constructor; auto; lia. Qed.
Lemma nth_double degs i : nth i (double degs) 0%nat = (2 * nth i degs 0)%nat.
Proof. exact (map_nth (fun d => (2 * d)%nat) degs 0%nat i). Qed.
Lemma test_pos degs i : Forall (fun d => (1 <= d)%nat) degs -> Forall (fun d => (1 <= d)%nat) (upd (double degs) i (nth i degs 0%nat)).
Proof.
  intros H. destruct (Nat.lt_ge_cases i (length degs)).
  - apply Forall_upd; [apply double_pos; auto|]. rewrite Forall_forall in H. apply H, nth_In. auto.
  - assert (E : forall (l : list nat) j v, (length l <= j)%nat -> upd l j v = l).
    { induction l; intros [|j] v HL; simpl in *; auto; try lia. f_equal. apply IHl. lia. }
    rewrite E by (rewrite double_length; auto). apply double_pos; auto.
Qed.

(** the degrees after one expansion *)
Lemma expand_length m dims : forall D, length (expand m D dims) = length D.
Proof. unfold expand. induction dims; intros D; cbn [fold_left]; auto. rewrite IHdims. apply upd_length. Qed.
Lemma expand_nth m dims : forall D j, NoDup dims -> (forall i, In i dims -> (i < length D)%nat) ->
  nth j (expand m D dims) 0%nat = if existsb (Nat.eqb j) dims then Nat.min (2 * nth j D 0) m else nth j D 0%nat.
Proof.
  unfold expand. induction dims as [|i dims IH]; intros D j HN HI; cbn [fold_left existsb]; auto.
  inversion HN; subst. rewrite IH; auto; [|intros k Hk; rewrite upd_length; apply HI; right; auto].
  rewrite nth_upd by (apply HI; left; auto).
  destruct (Nat.eqb_spec j i) as [->|NE]; cbn [orb].
  - assert (X : existsb (Nat.eqb i) dims = false).
    { apply not_true_is_false. intros X. apply existsb_exists in X. destruct X as (k & Hk & E). apply Nat.eqb_eq in E. subst. contradiction. }
    rewrite X. destruct (Nat.eq_dec i i); [|congruence]. destruct (Nat.ltb_spec (2 * nth i D 0) m); lia.
  - destruct (Nat.eq_dec i j); [congruence|]. reflexivity.
Qed.

Lemma filter_NoDup {A} (p : A -> bool) l : NoDup l -> NoDup (filter p l).
Proof. induction 1; simpl; [constructor|]. destruct (p x); auto. constructor; auto. intros H1. apply filter_In in H1. tauto. Qed.

Section Run.
  Variable junk : list nat -> R.
  Variable g : list R -> R.
  Variables a b : list R.
  Variable rel : R.
  Variable maxdeg : nat.
  Notation f := (Plain g).
  Notation fc := (freshCoeffs cosR junk f a b).
  Notation fn := (freshNorm cosR junk f a b).
  Notation good := (goodStore cosR junk f a b).
  Notation pos := (Forall (fun d => (1 <= d)%nat)).

  Lemma approx_plain D st : good st -> pos D -> exists st', approximate cosR junk f a b D st = MOk (fc D, fn D, st') /\ good st'.
  Proof.
    intros HG HD. destruct (approximate_total cosR junk f a b D st I HD) as [[[c n] st'] E].
    destruct (approximate_ok cosR junk cosR_double f a b D st c n st' HG E) as (-> & -> & G). eauto.
  Qed.
  Definition apprAt (D : list nat) : @approx R := mkA (fc D) (fn D) (fc (double D)) (get_err (fc D) (fc (double D))) D.
  Lemma attempt_plain D st : good st -> pos D -> exists st', attempt cosR junk f a b D st = MOk (apprAt D, st') /\ good st'.
  Proof.
    intros HG HD. unfold attempt. destruct (approx_plain D st HG HD) as (s1 & E1 & G1). rewrite E1. cbn [mbind].
    destruct (approx_plain (double D) s1 G1 (double_pos D HD)) as (s2 & E2 & G2). rewrite E2. cbn [mbind]. eexists. split; [reflexivity|auto].
  Qed.
  Definition testDegs (D : list nat) (i : nat) : list nat := upd (double D) i (nth i D 0%nat).
  Definition wanted (D : list nat) (i : nat) : bool :=
    negb (maxdeg <=? nth i D 0)%nat && ngtb (get_err (fc (testDegs D i)) (fc (double D))) (threshold rel (fc (testDegs D i)) (fc (double D)) (fn D)).
  Lemma dims_plain D is : pos D -> forall st, good st -> exists st', dimsToExpand cosR junk f a b rel maxdeg (apprAt D) st is = MOk (filter (wanted D) is, st') /\ good st'.
  Proof.
    intros HD. induction is as [|i is IH]; intros st HG; cbn [dimsToExpand filter].
    - eauto.
    - cbn [aDegs apprAt]. unfold wanted at 1. destruct (maxdeg <=? nth i D 0)%nat eqn:E; cbn [negb andb].
      + apply IH; auto.
      + fold (testDegs D i). destruct (approx_plain (testDegs D i) st HG (test_pos D i HD)) as (s1 & E1 & G1). rewrite E1. cbn [mbind].
        destruct (IH s1 G1) as (s2 & E2 & G2). rewrite E2. cbn [mbind aM2 aNorm apprAt]. eexists. split; [reflexivity|auto].
  Qed.
  (** why the search ends *)
  Definition stopped (D : list nat) : Prop :=
    (forall i, (i < length D)%nat -> (maxdeg <= nth i D 0)%nat) \/
    (get_err (fc D) (fc (double D)) < threshold rel (fc D) (fc (double D)) (fn D))%R \/
    (forall i, (i < length D)%nat -> (nth i D 0 < maxdeg)%nat ->
       (get_err (fc (testDegs D i)) (fc (double D)) <= threshold rel (fc (testDegs D i)) (fc (double D)) (fn D))%R).
  Definition room (D : list nat) : nat := list_sum (map (fun d => maxdeg - d)%nat D).
  Lemma room_lt : forall D E, Forall2 (fun d e => (d <= e)%nat) D E -> (exists i, (i < length D)%nat /\ (nth i D 0 < nth i E 0)%nat /\ (nth i D 0 < maxdeg)%nat) -> (room E < room D)%nat.
  Proof.
    assert (W : forall D E, Forall2 (fun d e => (d <= e)%nat) D E -> (room E <= room D)%nat).
    { induction 1; unfold room in *; simpl; lia. }
    induction 1 as [|d e D E Hde HDE IH]; intros (i & Hi & Hl & Hm); simpl in Hi; [lia|].
    destruct i as [|i]; simpl in Hl, Hm.
    - specialize (W D E HDE). unfold room in *. simpl. lia.
    - assert (X : (room E < room D)%nat) by (apply IH; exists i; split; [lia|auto]). unfold room in *. simpl. lia.
  Qed.
  Lemma loop_plain : forall k D st, (room D <= k)%nat -> pos D -> length D = length a -> good st ->
    exists D' st', (forall fuel, (k < fuel)%nat -> goodLoop cosR junk fuel f a b rel maxdeg (apprAt D) st = MOk (apprAt D', st')) /\
      length D' = length D /\ (forall i, (nth i D 0 <= nth i D' 0)%nat /\ (nth i D' 0 <= Nat.max (nth i D 0) maxdeg)%nat) /\ pos D' /\ good st' /\ stopped D'.
  Proof.
    induction k as [|k IH]; intros D st Hk HD HL HG.
    - (* no room *)
      exists D, st. assert (Z : forall i, (i < length D)%nat -> (maxdeg <= nth i D 0)%nat).
      { clear - Hk. induction D; intros i Hi; simpl in Hi; [lia|]. unfold room in Hk. simpl in Hk. destruct i; simpl; [lia|apply IHD; [unfold room; lia|lia]]. }
      split; [|split; [auto|split; [intros; lia|split; [auto|split; [auto|left; auto]]]]].
      intros fuel Hf. destruct fuel; [lia|]. cbn [goodLoop aDegs apprAt].
      assert (X : existsb (fun d => (d <? maxdeg)%nat) D = false).
      { apply not_true_is_false. intros X. apply existsb_exists in X. destruct X as (d & Hd & E). apply Nat.ltb_lt in E. apply (In_nth _ _ 0%nat) in Hd. destruct Hd as (i & Hi & Ei). specialize (Z i Hi). lia. }
      rewrite X. reflexivity.
    - destruct (existsb (fun d => (d <? maxdeg)%nat) D) eqn:X.
      2:{ exists D, st. split; [intros fuel Hf; destruct fuel; [lia|]; cbn [goodLoop aDegs apprAt]; rewrite X; reflexivity|].
          split; [auto|split; [intros; lia|split; [auto|split; [auto|left]]]]. intros i Hi. destruct (Nat.lt_ge_cases (nth i D 0%nat) maxdeg); auto.
          exfalso. assert (Y : existsb (fun d => (d <? maxdeg)%nat) D = true) by (apply existsb_exists; exists (nth i D 0%nat); split; [apply nth_In; auto|apply Nat.ltb_lt; auto]). congruence. }
      destruct (error_test rel (aM (apprAt D)) (aM2 (apprAt D)) (aNorm (apprAt D)) (aErr (apprAt D))) eqn:ET.
      { exists D, st. split; [intros fuel Hf; destruct fuel; [lia|]; cbn [goodLoop]; rewrite ET; change (aDegs (apprAt D)) with D; rewrite X; reflexivity|].
        split; [auto|split; [intros; lia|split; [auto|split; [auto|right; left]]]]. unfold error_test in ET. apply Rltb_true in ET. exact ET. }
      destruct (dims_plain D (seq 0 (length a)) HD st HG) as (s1 & E1 & G1).
      destruct (filter (wanted D) (seq 0 (length a))) as [|i0 dims] eqn:EF.
      { exists D, s1. split; [intros fuel Hf; destruct fuel; [lia|]; cbn [goodLoop]; rewrite ET; change (aDegs (apprAt D)) with D; rewrite X, E1; reflexivity|].
        split; [auto|split; [intros; lia|split; [auto|split; [auto|right; right]]]]. intros i Hi Hlt.
        assert (Y : wanted D i = false).
        { apply not_true_is_false. intros Y. assert (In i []) by (rewrite <- EF; apply filter_In; split; [apply in_seq; lia|auto]). contradiction. }
        unfold wanted in Y. destruct (Nat.leb_spec maxdeg (nth i D 0%nat)); [lia|]. cbn [negb andb] in Y. unfold ngtb in Y. apply Rltb_false in Y. exact Y. }
      set (E := expand maxdeg D (i0 :: dims)).
      assert (HND : NoDup (i0 :: dims)) by (rewrite <- EF; apply filter_NoDup, seq_NoDup).
      assert (HIN : forall i, In i (i0 :: dims) -> (i < length D)%nat /\ (nth i D 0 < maxdeg)%nat).
      { intros i Hi. rewrite <- EF in Hi. apply filter_In in Hi. destruct Hi as [Hi W]. apply in_seq in Hi. split; [lia|].
        unfold wanted in W. apply andb_prop in W. destruct W as [W _]. destruct (Nat.leb_spec maxdeg (nth i D 0%nat)); [discriminate|auto]. }
      assert (HE : forall j, nth j E 0%nat = if existsb (Nat.eqb j) (i0 :: dims) then Nat.min (2 * nth j D 0) maxdeg else nth j D 0%nat) by (intros j; apply expand_nth; auto; intros i Hi; apply HIN; auto).
      assert (HLE : length E = length D) by apply expand_length.
      assert (HPD : forall j, (j < length D)%nat -> (1 <= nth j D 0)%nat) by (intros j Hj; rewrite Forall_forall in HD; apply HD, nth_In; auto).
      assert (HB : forall j, (nth j D 0 <= nth j E 0)%nat /\ (nth j E 0 <= Nat.max (nth j D 0) maxdeg)%nat).
      { intros j. rewrite HE. destruct (existsb (Nat.eqb j) (i0 :: dims)) eqn:EX; [|lia]. apply existsb_exists in EX. destruct EX as (i & Hi & Ei). apply Nat.eqb_eq in Ei. subst i. apply HIN in Hi. destruct Hi as [Hi1 Hi2]. specialize (HPD j Hi1). lia. }
      assert (HPE : pos E).
      { apply Forall_forall. intros x Hx. apply (In_nth _ _ 0%nat) in Hx. destruct Hx as (j & Hj & <-). rewrite HLE in Hj. specialize (HPD j Hj). specialize (HB j). lia. }
      assert (HR : (room E < room D)%nat).
      { apply room_lt.
        - clear - HLE HB. revert HLE HB. generalize E. induction D as [|d D IH]; intros [|e E'] HL HB; simpl in HL; try lia; constructor.
          + apply (HB 0%nat). + apply IH; [lia|]. intros j. apply (HB (S j)).
        - destruct (HIN i0 (or_introl eq_refl)) as [Hi1 Hi2]. exists i0. split; auto. split; auto. rewrite HE. cbn [existsb]. rewrite Nat.eqb_refl. cbn [orb]. specialize (HPD i0 Hi1). lia. }
      destruct (attempt_plain E s1 G1 HPE) as (s2 & E2 & G2).
      destruct (IH E s2 ltac:(lia) HPE ltac:(lia) G2) as (D' & st' & HF & HL' & HB' & HP' & HG' & HS').
      exists D', st'. split.
      + intros fuel Hf. destruct fuel as [|fuel]; [lia|]. cbn [goodLoop]. rewrite ET. change (aDegs (apprAt D)) with D. rewrite X, E1. cbn [mbind]. fold E. rewrite E2. cbn [mbind]. apply HF. lia.
      + split; [lia|]. split; [|auto]. intros i. specialize (HB i). specialize (HB' i). lia.
  Qed.
  Lemma find_plain guess : (1 <= guess)%nat -> exists D k st, let A := apprAt D in
    (forall fuel, (k < fuel)%nat -> find_good_approx cosR junk fuel f a b rel maxdeg (repeat guess (length a)) =
       MOk (mkA (aM A) (aNorm A) (aM2 A) (aErr A) (map (fun d => if (maxdeg <? d)%nat then maxdeg else d) D), st)) /\
    length D = length a /\ (forall i, (i < length a)%nat -> (guess <= nth i D 0 <= Nat.max guess maxdeg)%nat) /\ pos D /\ good st /\ (stopped D \/ (maxdeg < guess)%nat).
  Proof.
    intros Hg. set (D0 := repeat guess (length a)).
    assert (HP : pos D0) by (apply Forall_forall; intros x Hx; apply repeat_spec in Hx; lia).
    assert (HL : length D0 = length a) by apply repeat_length.
    assert (HN : forall i, (i < length a)%nat -> nth i D0 0%nat = guess).
    { intros i Hi. assert (In (nth i D0 0%nat) D0) by (apply nth_In; lia). apply repeat_spec in H. auto. }
    destruct (attempt_plain D0 (mkStore [] []) (good_empty _ _ _ _ _) HP) as (s1 & E1 & G1).
    destruct (Nat.lt_ge_cases maxdeg guess) as [Hc|Hc].
    - exists D0, 0%nat, s1. cbn zeta. split; [|split; [auto|split; [intros i Hi; rewrite HN by auto; lia|split; [auto|split; [auto|right; auto]]]]].
      intros fuel Hf. unfold find_good_approx. fold D0. rewrite E1. cbn [mbind]. change (aDegs (apprAt D0)) with D0.
      destruct fuel; [lia|]. cbn [goodLoop aDegs].
      assert (X : existsb (fun d => (d <? maxdeg)%nat) (map (fun d => if (maxdeg <? d)%nat then maxdeg else d) D0) = false).
      { apply not_true_is_false. intros X. apply existsb_exists in X. destruct X as (d & Hd & E). apply in_map_iff in Hd. destruct Hd as (x & <- & Hx). apply repeat_spec in Hx. subst x. destruct (Nat.ltb_spec maxdeg guess); [|lia]. apply Nat.ltb_lt in E. lia. }
      rewrite X. reflexivity.
    - assert (EC : forall D, length D = length a -> (forall i, (i < length a)%nat -> (nth i D 0 <= maxdeg)%nat) -> map (fun d => if (maxdeg <? d)%nat then maxdeg else d) D = D).
      { intros D HLD HB. rewrite <- (map_id D) at 2. apply map_ext_in. intros x Hx. apply (In_nth _ _ 0%nat) in Hx. destruct Hx as (i & Hi & <-). specialize (HB i ltac:(lia)). destruct (Nat.ltb_spec maxdeg (nth i D 0%nat)); lia. }
      destruct (loop_plain (room D0) D0 s1 (le_n _) HP HL G1) as (D & st & HF & HLD & HB & HPD & HG & HS).
      assert (HB2 : forall i, (i < length a)%nat -> (guess <= nth i D 0 <= maxdeg)%nat) by (intros i Hi; specialize (HB i); rewrite HN in HB by auto; lia).
      exists D, (room D0), st. cbn zeta. split; [|split; [lia|split; [intros i Hi; specialize (HB2 i Hi); lia|split; [auto|split; [auto|left; auto]]]]].
      intros fuel Hf. unfold find_good_approx. fold D0. rewrite E1. cbn [mbind]. change (aDegs (apprAt D0)) with D0.
      rewrite (EC D0) by (auto; intros i Hi; rewrite HN by auto; lia). rewrite (EC D) by (try lia; intros i Hi; apply HB2; auto).
      change (mkA (aM (apprAt D0)) (aNorm (apprAt D0)) (aM2 (apprAt D0)) (aErr (apprAt D0)) D0) with (apprAt D0). rewrite HF by auto. reflexivity.
  Qed.
End Run.
