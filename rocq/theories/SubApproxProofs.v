(** * Proofs about the shared work array of subdivision.py *)
From Coq Require Import List Arith Bool Lia.
From Verif Require Import Num Tensor LinearModel CombinedModel ApproxModel MakerModel MakerProofs SubApproxModel.
From Verif Require PartProofs.
Import ListNotations.

Lemma lset_length {A} i (x : A) l : length (lset i x l) = length l.
Proof. revert i. induction l; intros [|i]; cbn [lset length]; auto. Qed.
Lemma lset_same {A} i (x d : A) l : i < length l -> nth i (lset i x l) d = x.
Proof. revert i. induction l; intros [|i] H; cbn in *; try lia; auto. apply IHl. lia. Qed.
Lemma lset_other {A} i j (x d : A) l : i <> j -> nth j (lset i x l) d = nth j l d.
Proof. revert i j. induction l; intros [|i] [|j] H; cbn in *; auto; try congruence. Qed.

Lemma map_repeat_ {A B} (f : A -> B) x n : map f (repeat x n) = repeat (f x) n.
Proof. induction n; cbn; congruence. Qed.
Lemma inrange_repeat_le B C n e : B <= C -> inrange (repeat B n) e -> inrange (repeat C n) e.
Proof. intros H. revert e. induction n; intros e He; cbn [repeat] in *; inversion He; subst; constructor; [lia|]. apply IHn; auto. Qed.

Section Work.
  Context {T : Type} {NT : Num T}.
  Variable junk : nat -> list nat -> T.
  Implicit Types st : @wstate T.

  Lemma allFit_big deg B n bl : 1 <= deg -> 2 * deg <= B -> length bl = n -> allFit deg (repeat B n) bl = true.
  Proof.
    intros Hd HB. revert n. induction bl as [|f bl IH]; intros [|n] HL; cbn in HL |- *; try lia; auto.
    rewrite IH by lia. rewrite andb_true_r. unfold axisFits, dstIdx, blockIdx. destruct f; rewrite ?rev_length, !seq_length.
    - replace (Nat.min (2 * deg) B - (deg + 1)) with (deg - 1) by lia. rewrite Nat.eqb_refl. reflexivity.
    - replace (Nat.min (deg + 1) B) with (Nat.min (2 * deg) (deg + 1)) by lia. rewrite Nat.eqb_refl. reflexivity.
  Qed.
  Lemma source_big deg B n bl e : 1 <= deg -> 2 * deg <= B -> length bl = n -> inrange (repeat B n) e -> source deg (repeat B n) bl e = locate (repeat deg n) bl e.
  Proof.
    intros Hd HB. revert n e. induction bl as [|f bl IH]; intros [|n] e HL He; cbn in HL; try lia; [reflexivity|].
    cbn [repeat] in *. inversion He as [|i ? e' ? Hi He']; subst. cbn [source locate]. rewrite IH by auto.
    assert (E : dstIdx deg B f = chebIdx deg f).
    { unfold dstIdx, chebIdx. destruct f; f_equal; lia. }
    rewrite E. destruct (findPos i (chebIdx deg f)) as [p|] eqn:F; auto.
    assert (P : (if Nat.eqb (length (blockIdx deg f)) 1 then 0 else p) = p); [|rewrite P; reflexivity].
    destruct (Nat.eqb_spec (length (blockIdx deg f)) 1) as [L|L]; auto.
    unfold blockIdx, chebIdx in *. destruct f; rewrite ?rev_length, ?seq_length in L; rewrite findPos_seq in F.
    - destruct (Nat.leb_spec (deg + 1) i), (Nat.ltb_spec i (deg + 1 + (2 * deg - (deg + 1)))); cbn [andb] in F; try discriminate. injection F as <-. lia.
    - lia.
  Qed.
  Lemma assign_big deg B n vb arr bl : 1 <= deg -> 2 * deg <= B -> length bl = n -> shp arr = repeat B n ->
    exists t, assign deg vb arr bl = Some t /\ shp t = repeat B n /\
      forall e, inrange (repeat (2 * deg) n) e -> tget t e = if list_eq_dec Bool.bool_dec bl (flips (repeat deg n) e) then tget vb (foldIdx (repeat deg n) e) else tget arr e.
  Proof.
    intros Hd HB HL HS. unfold assign. rewrite HS, allFit_big by auto. eexists. split; [reflexivity|]. split; [reflexivity|].
    intros e He. assert (He2 : inrange (repeat B n) e) by (apply (inrange_repeat_le (2 * deg)); auto). rewrite tget_tbuild by auto.
    rewrite source_big by auto. rewrite locate_spec.
    - destruct (list_eq_dec _ _ _); reflexivity.
    - apply Forall_forall. intros x Hx. apply repeat_spec in Hx. lia.
    - rewrite repeat_length. auto.
    - rewrite map_repeat_. auto.
  Qed.
  Lemma allFit_first_small deg B n : 1 <= deg -> B <= deg -> 1 <= n -> allFit deg (repeat B n) (repeat false n) = false.
  Proof.
    intros Hd HB Hn. destruct n; [lia|]. cbn [repeat allFit]. apply andb_false_iff. left. unfold axisFits, dstIdx, blockIdx. rewrite !seq_length.
    apply orb_false_iff. split; apply Nat.eqb_neq; lia.
  Qed.
  Lemma allFit_first_mid deg B n : 1 <= deg -> deg + 1 <= B -> allFit deg (repeat B n) (repeat false n) = true.
  Proof.
    intros Hd HB. induction n; cbn [repeat allFit]; auto. rewrite IHn, andb_true_r. unfold axisFits, dstIdx, blockIdx. rewrite !seq_length.
    apply orb_true_iff. left. apply Nat.eqb_eq. lia.
  Qed.
  Lemma allFit_second_mid deg B n : 3 <= deg -> deg + 1 <= B -> B < 2 * deg -> allFit deg (repeat B (S n)) (repeat false n ++ [true]) = false.
  Proof.
    intros Hd HB HB2. induction n; cbn [repeat allFit List.app] in *.
    - apply andb_false_iff. left. unfold axisFits, dstIdx, blockIdx. rewrite rev_length, !seq_length. apply orb_false_iff. split; apply Nat.eqb_neq; lia.
    - rewrite IHn. apply andb_false_r.
  Qed.
  Lemma blocks_two n : exists rest, blocks (S n) = repeat false (S n) :: (repeat false n ++ [true]) :: rest /\ ~ In (repeat false (S n)) ((repeat false n ++ [true]) :: rest).
  Proof.
    assert (ND : forall k, NoDup (blocks k)).
    { induction k; cbn [blocks]; [repeat constructor; intros []|]. apply PartProofs.NoDup_app_intro; auto.
      - clear -IHk. induction IHk; cbn [map]; constructor; auto. intros Hx. apply in_map_iff in Hx. destruct Hx as (y & E & Hy). injection E as ->. auto.
      - clear -IHk. induction IHk; cbn [map]; constructor; auto. intros Hx. apply in_map_iff in Hx. destruct Hx as (y & E & Hy). injection E as ->. auto.
      - intros x Hx Hy. apply in_map_iff in Hx. apply in_map_iff in Hy. destruct Hx as (u & <- & _), Hy as (v & E & _). discriminate. }
    assert (E : exists rest, blocks (S n) = repeat false (S n) :: (repeat false n ++ [true]) :: rest).
    { induction n as [|n IH]; [exists []; reflexivity|]. destruct IH as (rest & IH). exists (map (cons false) rest ++ map (cons true) (blocks (S n))).
      change (blocks (S (S n))) with (map (cons false) (blocks (S n)) ++ map (cons true) (blocks (S n))). rewrite IH at 1. reflexivity. }
    destruct E as (rest & E). exists rest. split; auto. specialize (ND (S n)). rewrite E in ND. inversion ND; auto.
  Qed.

  Lemma theArray_set st id t : id < length (arrays st) -> theArray (setArray id t st) id = t.
  Proof. intros H. unfold theArray, setArray. cbn [arrays]. apply lset_same. auto. Qed.
  (** the loop once the work array is large enough *)
  Lemma loop_big dim deg B vb bls : 1 <= deg -> 2 * deg <= B -> (forall bl, In bl bls -> length bl = dim) ->
    forall id st, id < length (arrays st) -> shp (theArray st id) = repeat B dim ->
    exists st', copyLoop junk dim deg vb bls id st = Some (id, st') /\ initM st' = initM st /\ valM st' = valM st /\ length (arrays st') = length (arrays st) /\
      shp (theArray st' id) = repeat B dim /\ (forall j, j <> id -> theArray st' j = theArray st j) /\
      forall e, inrange (repeat (2 * deg) dim) e -> tget (theArray st' id) e =
        if in_dec (list_eq_dec Bool.bool_dec) (flips (repeat deg dim) e) bls then tget vb (foldIdx (repeat deg dim) e) else tget (theArray st id) e.
  Proof.
    intros Hd HB. induction bls as [|bl bls IH]; intros HL id st Hid HS.
    - exists st. repeat split; auto.
    - destruct (assign_big deg B dim vb (theArray st id) bl Hd HB (HL bl (or_introl eq_refl)) HS) as (t & E & S1 & G).
      cbn [copyLoop]. rewrite E.
      destruct (IH (fun b Hb => HL b (or_intror Hb)) id (setArray id t st)) as (st' & E' & I1 & I2 & I3 & I4 & I5 & I6).
      + cbn [setArray arrays]. rewrite lset_length. auto.
      + rewrite theArray_set by auto. auto.
      + exists st'. split; [exact E'|]. split; [exact I1|]. split; [exact I2|]. split; [rewrite I3; cbn [setArray arrays]; apply lset_length|]. split; [exact I4|]. split.
        * intros j Hj. rewrite I5 by auto. unfold theArray, setArray. cbn [arrays]. apply lset_other. auto.
        * intros e He. rewrite I6 by auto. rewrite theArray_set by auto. rewrite G by auto.
          destruct (in_dec _ (flips _ e) bls) as [X|X]; destruct (in_dec _ (flips _ e) (bl :: bls)) as [Y|Y]; auto.
          -- exfalso. apply Y. right. auto.
          -- destruct Y as [Y|Y]; [|contradiction]. destruct (list_eq_dec Bool.bool_dec bl _); congruence.
          -- destruct (list_eq_dec Bool.bool_dec bl _) as [Z|Z]; auto. exfalso. apply Y. left. auto.
  Qed.
  Lemma vget_vput dim v m : vget dim (vput dim v m) = Some v.
  Proof. induction m as [|[k w] m IH]; cbn [vput vget]; [rewrite Nat.eqb_refl; auto|]. destruct (Nat.eqb dim k) eqn:E; cbn [vget]; rewrite E; auto. Qed.
  Lemma vget_vput_other d dim v m : d <> dim -> vget d (vput dim v m) = vget d m.
  Proof.
    intros H. induction m as [|[k w] m IH]; cbn [vput vget].
    - destruct (Nat.eqb_spec d dim); [congruence|auto].
    - destruct (Nat.eqb_spec dim k); cbn [vget]; [subst; destruct (Nat.eqb_spec d k); [congruence|auto]|destruct (Nat.eqb d k); auto].
  Qed.

  (** the array that the next block copy of this dimension uses *)
  Definition workArray (st : @wstate T) (dim : nat) : option nat := match vget dim (valM st) with Some id => Some id | None => firstKey dim (initM st) end.
  Definition workSide (st : @wstate T) (dim B : nat) : Prop := exists id, workArray st dim = Some id /\ id < length (arrays st) /\ shp (theArray st id) = repeat B dim.

  Lemma values_arr_work st dim id : workArray st dim = Some id ->
    exists st', values_arr dim st = Some (id, st') /\ arrays st' = arrays st /\ initM st' = initM st /\ vget dim (valM st') = Some id /\ forall d, d <> dim -> vget d (valM st') = vget d (valM st).
  Proof.
    unfold workArray, values_arr. intros H. destruct (vget dim (valM st)) as [i|] eqn:E.
    - injection H as ->. exists st. auto.
    - rewrite H. eexists. split; [reflexivity|]. cbn [arrays initM valM]. repeat split; auto; [apply vget_vput|]. intros. apply vget_vput_other; auto.
  Qed.

  (** what a copy leaves alone *)
  Definition kept (st st' : @wstate T) (dim : nat) : Prop :=
    initM st' = initM st /\ length (arrays st) <= length (arrays st') /\ (forall d, d <> dim -> vget d (valM st') = vget d (valM st)) /\
    (forall j, j < length (arrays st) -> shp (theArray st' j) = shp (theArray st j)).
  Definition mirrored (deg n : nat) (vb values : tensor T) : Prop :=
    shp values = repeat (2 * deg) n /\ forall e, inrange (repeat (2 * deg) n) e -> tget values e = tget vb (foldIdx (repeat deg n) e).

  Lemma shp_nth0 (vb : tensor T) deg n : 1 <= n -> shp vb = repeat (S deg) n -> pred (nth 0 (shp vb) 0) = deg /\ ndim vb = n.
  Proof. intros Hn H. unfold ndim. rewrite H, repeat_length. destruct n; [lia|]. auto. Qed.
  Lemma map_min_repeat a B n : a <= B -> map (Nat.min a) (repeat B n) = repeat a n.
  Proof. intros H. rewrite map_repeat_. f_equal. lia. Qed.
  Lemma flips_in n deg e : inrange (repeat (2 * deg) n) e -> In (flips (repeat deg n) e) (blocks n).
  Proof. intros H. apply blocks_all. rewrite flips_length; rewrite !repeat_length; auto. apply inrange_length in H. rewrite repeat_length in H. auto. Qed.

  Lemma copy_large deg n B vb st : 1 <= n -> 1 <= deg -> shp vb = repeat (S deg) n -> workSide st n B -> 2 * deg <= B ->
    exists values st', chebyshev_block_copy junk vb st = Some (values, st') /\ mirrored deg n vb values /\ workSide st' n B /\ kept st st' n.
  Proof.
    intros Hn Hd Hs (id & HW & Hid & HS) HB. destruct (shp_nth0 vb deg n Hn Hs) as [E1 E2]. unfold chebyshev_block_copy. rewrite E1, E2.
    destruct (values_arr_work st n id HW) as (st1 & V & V1 & V2 & V3 & V4). rewrite V.
    assert (A1 : theArray st1 id = theArray st id) by (unfold theArray; rewrite V1; auto).
    assert (ND : ndim (theArray st1 id) = n) by (unfold ndim; rewrite A1, HS; apply repeat_length). rewrite ND, Nat.eqb_refl.
    destruct (loop_big n deg B vb (blocks n) Hd HB (blocks_length n) id st1) as (st' & L & L1 & L2 & L3 & L4 & L5 & L6); [rewrite V1; auto|rewrite A1; auto|].
    rewrite L. eexists. exists st'. split; [reflexivity|]. split; [|split].
    - split; [cbn [shp tbuild]; rewrite L4; apply map_min_repeat; auto|]. intros e He. rewrite tget_tbuild by (rewrite L4, map_min_repeat by auto; auto).
      rewrite L6 by auto. destruct (in_dec _ _ _) as [X|X]; auto. exfalso. apply X, flips_in. auto.
    - exists id. unfold workArray. rewrite L2, V3. split; auto. rewrite L3, V1. split; auto.
    - split; [rewrite L1; auto|]. split; [rewrite L3, V1; auto|]. split; [intros; rewrite L2; auto|]. intros j Hj.
      destruct (Nat.eq_dec j id) as [->|Hne]; [rewrite L4, HS; auto|]. rewrite L5 by auto. unfold theArray. rewrite V1. reflexivity.
  Qed.
  (** the reallocation, at the second component of a split of the blocks *)
  Lemma loop_realloc deg n vb bl bls id st : 1 <= deg -> (forall b, In b (bl :: bls) -> length b = n) -> id < length (arrays st) -> assign deg vb (theArray st id) bl = None ->
    exists st', copyLoop junk n deg vb (bl :: bls) id st = Some (length (arrays st), st') /\ initM st' = initM st /\ valM st' = vput n (length (arrays st)) (valM st) /\
      length (arrays st') = S (length (arrays st)) /\ shp (theArray st' (length (arrays st))) = repeat (2 * deg) n /\ (forall j, j < length (arrays st) -> theArray st' j = theArray st j) /\
      forall e, inrange (repeat (2 * deg) n) e -> tget (theArray st' (length (arrays st))) e =
        if in_dec (list_eq_dec Bool.bool_dec) (flips (repeat deg n) e) (bl :: bls) then tget vb (foldIdx (repeat deg n) e) else junk (length (arrays st)) e.
  Proof.
    intros Hd HL Hid HA. set (k := length (arrays st)).
    set (st1 := mkW (arrays (npEmpty junk n (2 * deg) st)) (initM (npEmpty junk n (2 * deg) st)) (vput n k (valM (npEmpty junk n (2 * deg) st)))).
    assert (V : values_arr n st1 = Some (k, st1)) by (unfold values_arr, st1; cbn [valM npEmpty]; rewrite vget_vput; reflexivity).
    assert (LA : length (arrays st1) = S k) by (unfold st1; cbn [arrays npEmpty]; rewrite app_length; cbn; unfold k; lia).
    assert (AK : theArray st1 k = tbuild (repeat (2 * deg) n) (junk k)).
    { unfold theArray, st1. cbn [arrays npEmpty]. unfold k. rewrite app_nth2 by lia. rewrite Nat.sub_diag. reflexivity. }
    destruct (loop_big n deg (2 * deg) vb (bl :: bls) Hd (le_n _) HL k st1) as (st' & L & L1 & L2 & L3 & L4 & L5 & L6); [lia|rewrite AK; reflexivity|].
    exists st'. split.
    - cbn [copyLoop] in L |- *. rewrite HA. fold k. fold st1. rewrite V.
      destruct (assign deg vb (theArray st1 k) bl) eqn:E; [exact L|].
      destruct (assign_big deg (2 * deg) n vb (theArray st1 k) bl Hd (le_n _) (HL bl (or_introl eq_refl))) as (t & E' & _); [rewrite AK; reflexivity|]. rewrite E' in E. discriminate.
    - split; [exact L1|]. split; [exact L2|]. split; [rewrite L3; exact LA|]. split; [exact L4|]. split.
      + intros j Hj. rewrite L5 by (unfold k; lia). unfold theArray, st1. cbn [arrays npEmpty]. apply app_nth1. auto.
      + intros e He. rewrite L6 by auto. rewrite AK, tget_tbuild by auto. reflexivity.
  Qed.
  Lemma copy_small deg n B vb st : 1 <= n -> 1 <= deg -> shp vb = repeat (S deg) n -> workSide st n B -> B <= deg ->
    exists values st', chebyshev_block_copy junk vb st = Some (values, st') /\ mirrored deg n vb values /\ workSide st' n (2 * deg) /\ kept st st' n.
  Proof.
    intros Hn Hd Hs (id & HW & Hid & HS) HB. destruct (shp_nth0 vb deg n Hn Hs) as [E1 E2]. unfold chebyshev_block_copy. rewrite E1, E2.
    destruct (values_arr_work st n id HW) as (st1 & V & V1 & V2 & V3 & V4). rewrite V.
    assert (A1 : theArray st1 id = theArray st id) by (unfold theArray; rewrite V1; auto).
    assert (ND : ndim (theArray st1 id) = n) by (unfold ndim; rewrite A1, HS; apply repeat_length). rewrite ND, Nat.eqb_refl.
    destruct n as [|m]; [lia|]. destruct (blocks_two m) as (rest & EB & _). pose proof (blocks_length (S m)) as BL. rewrite EB in BL.
    destruct (loop_realloc deg (S m) vb (repeat false (S m)) ((repeat false m ++ [true]) :: rest) id st1 Hd BL) as (st' & L & L1 & L2 & L3 & L4 & L5 & L6).
    { rewrite V1; auto. }
    { unfold assign. rewrite A1, HS. rewrite allFit_first_small by lia. reflexivity. }
    rewrite EB, L. eexists. exists st'. split; [reflexivity|]. split; [|split].
    - split; [cbn [shp tbuild]; rewrite L4; apply map_min_repeat; auto|]. intros e He. rewrite tget_tbuild by (rewrite L4, map_min_repeat by auto; auto).
      rewrite L6 by auto. destruct (in_dec _ _ _) as [X|X]; auto. exfalso. apply X. rewrite <- EB. apply flips_in. auto.
    - exists (length (arrays st1)). unfold workArray. rewrite L2, vget_vput. split; auto. rewrite L3. split; [lia|]. auto.
    - split; [rewrite L1; auto|]. split; [rewrite L3, V1; lia|]. split; [intros; rewrite L2, vget_vput_other; auto|]. intros j Hj.
      rewrite L5 by (rewrite V1; auto). unfold theArray. rewrite V1. reflexivity.
  Qed.
  Lemma copy_mid deg n B vb st : 1 <= n -> 3 <= deg -> shp vb = repeat (S deg) n -> workSide st n B -> deg + 1 <= B -> B < 2 * deg ->
    exists values st', chebyshev_block_copy junk vb st = Some (values, st') /\ workSide st' n (2 * deg) /\ kept st st' n /\ shp values = repeat (2 * deg) n /\
      forall e, inrange (repeat (2 * deg) n) e -> tget values e = if forallb (fun i => i <=? deg) e then junk (length (arrays st)) e else tget vb (foldIdx (repeat deg n) e).
  Proof.
    intros Hn Hd Hs (id & HW & Hid & HS) HB HB2. destruct (shp_nth0 vb deg n Hn Hs) as [E1 E2]. unfold chebyshev_block_copy. rewrite E1, E2.
    destruct (values_arr_work st n id HW) as (st1 & V & V1 & V2 & V3 & V4). rewrite V.
    assert (A1 : theArray st1 id = theArray st id) by (unfold theArray; rewrite V1; auto).
    assert (ND : ndim (theArray st1 id) = n) by (unfold ndim; rewrite A1, HS; apply repeat_length). rewrite ND, Nat.eqb_refl.
    destruct n as [|m]; [lia|]. destruct (blocks_two m) as (rest & EB & EN). pose proof (blocks_length (S m)) as BL. rewrite EB in BL.
    rewrite EB. assert (exists t, assign deg vb (theArray st1 id) (repeat false (S m)) = Some t /\ shp t = repeat B (S m)) as (t & ET & ST).
    { unfold assign. rewrite A1, HS. rewrite allFit_first_mid by lia. eexists. split; [reflexivity|]. reflexivity. }
    set (bls := (repeat false m ++ [true]) :: rest) in *. 
    replace (copyLoop junk (S m) deg vb (repeat false (S m) :: bls) id st1) with (copyLoop junk (S m) deg vb bls id (setArray id t st1)) by (cbn [copyLoop]; rewrite ET; reflexivity).
    assert (LS : length (arrays (setArray id t st1)) = length (arrays st)) by (cbn [setArray arrays]; rewrite lset_length, V1; auto).
    destruct (loop_realloc deg (S m) vb (repeat false m ++ [true]) rest id (setArray id t st1)) as (st' & L & L1 & L2 & L3 & L4 & L5 & L6).
    { lia. } { intros b Hb. apply BL. right. exact Hb. } { rewrite LS. auto. }
    { unfold assign. rewrite theArray_set by (rewrite V1; auto). rewrite ST. rewrite allFit_second_mid by lia. reflexivity. }
    fold bls in L, L6. rewrite L. eexists. exists st'. split; [reflexivity|]. rewrite LS in *. split; [|split; [|split]].
    - exists (length (arrays st)). unfold workArray. rewrite L2, vget_vput. split; auto. rewrite L3. split; [lia|]. auto.
    - split; [rewrite L1; auto|]. split; [rewrite L3; lia|]. split; [intros; rewrite L2, vget_vput_other by auto; apply V4; auto|]. intros j Hj.
      rewrite L5 by auto. destruct (Nat.eq_dec j id) as [->|Hne].
      + rewrite theArray_set by (rewrite V1; auto). rewrite ST, HS. auto.
      + unfold theArray, setArray. cbn [arrays]. rewrite lset_other by auto. rewrite V1. reflexivity.
    - cbn [shp tbuild]. rewrite L4. apply map_min_repeat; auto.
    - intros e He. rewrite tget_tbuild by (rewrite L4, map_min_repeat by auto; auto). rewrite L6 by auto.
      assert (FE : forallb (fun i => i <=? deg) e = true <-> flips (repeat deg (S m)) e = repeat false (S m)).
      { clear -He. revert e He. generalize (S m) as k. induction k; intros e He; cbn [repeat] in *; inversion He as [|i ? e' ? Hi He']; subst; cbn [forallb flips combine map fst snd]; [tauto|].
        specialize (IHk e' He'). unfold flips in IHk. split.
        - intros A. apply andb_prop in A. destruct A as [A1 A2]. apply Nat.leb_le in A1. f_equal; [apply Nat.ltb_ge; auto|]. apply IHk; auto.
        - intros A. injection A as A1 A2. apply Nat.ltb_ge in A1. apply andb_true_intro. split; [apply Nat.leb_le; auto|]. apply IHk; auto. }
      destruct (forallb (fun i => i <=? deg) e) eqn:F.
      + rewrite (proj1 FE) by auto. destruct (in_dec _ _ _) as [X|X]; auto. contradiction.
      + destruct (in_dec _ _ _) as [X|X]; auto. exfalso. pose proof (flips_in (S m) deg e He) as Y. rewrite EB in Y. destruct Y as [Y|Y]; [|contradiction].
        symmetry in Y. apply FE in Y. discriminate.
  Qed.

  Lemma firstKey_app dim m d g id : firstKey dim (m ++ [((d, g), id)]) =
    match find (fun e => Nat.eqb (fst (fst e)) dim) m with Some e => Some (snd e) | None => Some id end.
  Proof.
    induction m as [|[[d' g'] i'] m IH]; cbn [List.app firstKey find fst snd]; [destruct (Nat.eqb d dim); auto|].
    destruct (Nat.eqb d' dim); auto. rewrite IH. destruct (m ++ [((d, g), id)]) eqn:E; auto. destruct m; discriminate.
  Qed.
End Work.
