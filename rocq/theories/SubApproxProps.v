(** * Property theorems C106: the shared work array of subdivision.py *)
From Coq Require Import List Arith Bool Lia.
From Verif Require Import Num Tensor LinearModel CombinedModel ApproxModel MakerModel MakerProofs SubApproxModel SubApproxProofs.
Import ListNotations.

(** ** Specification *)
(** What happens in one process: a call of subdivide_to_linear begins, for functions of [dim] variables with degree [deg]; or
    a block of function values is copied. *)
Inductive event (T : Type) := Solve (dim deg : nat) | Copy (block : tensor T).
Arguments Solve {T}. Arguments Copy {T}.
(** the results of the copies, and the state afterwards *)
Fixpoint run {T} {NT : Num T} (junk : nat -> list nat -> T) (evs : list (event T)) (st : @wstate T) : option (list (tensor T) * @wstate T) :=
  match evs with
  | [] => Some ([], st)
  | Solve dim deg :: r => run junk r (startSolve junk dim deg st)
  | Copy block :: r =>
      match chebyshev_block_copy junk block st with
      | Some (v, st') => match run junk r st' with Some (vs, st'') => Some (v :: vs, st'') | None => None end
      | None => None
      end
  end.
(** values at the Chebyshev points of degree deg (at least 1) in n variables *)
Definition isBlock {T} (n deg : nat) (block : tensor T) : Prop := 1 <= n /\ 1 <= deg /\ shp block = repeat (deg + 1) n.
(** the periodic continuation: 2*deg values along every axis, position i > deg shows the value of position 2*deg - i *)
Definition isMirror {T} {NT : Num T} (n deg : nat) (block values : tensor T) : Prop :=
  shp values = repeat (2 * deg) n /\
  forall e, length e = n -> Forall (fun i => i < 2 * deg) e -> tget values e = tget block (map (fun i => if i <=? deg then i else 2 * deg - i) e).
(** side of the work array for n variables: (of the first one, of the present one) *)
Definition sizeStep {T} (n : nat) (s : option (nat * nat)) (e : event T) : option (nat * nat) :=
  match e, s with
  | Solve d g, None => if d =? n then Some (2 * (g + 3), 2 * (g + 3)) else None
  | Solve _ _, Some (first, _) => Some (first, first)
  | Copy block, Some (first, now) =>
      if ndim block =? n then Some (first, let deg := nth 0 (shp block) 0 - 1 in if 2 * deg <=? now then now else 2 * deg) else s
  | Copy _, None => None
  end.
Definition sizes {T} (n : nat) (evs : list (event T)) : option (nat * nat) := fold_left (sizeStep n) evs None.
(** every copy is of a block whose number of variables occurred in a call before *)
Definition allowed {T} (evs : list (event T)) : Prop :=
  forall before block after, evs = before ++ Copy block :: after -> exists n deg, isBlock n deg block /\ sizes n before <> None.

(** ** the invariant *)
Section Inv.
  Context {T : Type} {NT : Num T}.
  Variable junk : nat -> list nat -> T.
  Definition hasDim (n : nat) (e : (nat * nat) * nat) : bool := fst (fst e) =? n.
  Definition inv (evs : list (event T)) (st : @wstate T) : Prop := forall n, 1 <= n ->
    match sizes n evs with
    | Some (F, C) => (exists e, find (hasDim n) (initM st) = Some e /\ snd e < length (arrays st) /\ shp (theArray st (snd e)) = repeat F n) /\
                     workSide st n C /\ Nat.Even C /\ Nat.Even F
    | None => find (hasDim n) (initM st) = None /\ vget n (valM st) = None
    end.
  Lemma firstKey_find n m e : find (hasDim n) m = Some e -> firstKey n m = Some (snd e).
  Proof.
    induction m as [|[[d g] i] m IH]; cbn [find firstKey]; [discriminate|]. unfold hasDim at 1. cbn [fst]. destruct (d =? n); [intros H; injection H as <-; reflexivity|].
    intros H. rewrite (IH H). destruct m; [discriminate|reflexivity].
  Qed.
  Lemma find_app_ {A} (p : A -> bool) l m : find p (l ++ m) = match find p l with Some x => Some x | None => find p m end.
  Proof. induction l as [|x l IH]; cbn [List.app find]; auto. destruct (p x); auto. Qed.
  Lemma sizes_snoc n (evs : list (event T)) e : sizes n (evs ++ [e]) = sizeStep n (sizes n evs) e.
  Proof. unfold sizes. rewrite fold_left_app. reflexivity. Qed.
  Lemma inv_solve evs st d g : inv evs st -> inv (evs ++ [Solve d g]) (startSolve junk d g st).
  Proof.
    intros HI n Hn. specialize (HI n Hn). rewrite sizes_snoc. cbn [sizeStep].
    unfold startSolve, initialize_values_arr. cbn [initM].
    destruct (existsb (fun e => pairEqb (fst e) (d, g + 3)) (initM st)) eqn:EX.
    - destruct (sizes n evs) as [[F C]|].
      + destruct HI as ((e & E1 & E2 & E3) & _ & _ & HF). split; [exists e; cbn [initM arrays]; auto|]. split; [|split; auto].
        exists (snd e). unfold workArray. cbn [valM vget initM arrays]. rewrite (firstKey_find n _ e E1). repeat split; auto.
      + destruct HI as [E1 E2]. destruct (Nat.eqb_spec d n) as [->|Hne]; [|split; auto].
        exfalso. apply existsb_exists in EX. destruct EX as (e & He & HE). unfold pairEqb in HE. apply andb_prop in HE. destruct HE as [HE _]. cbn [fst] in HE.
        pose proof (find_none _ _ E1 e He) as X. unfold hasDim in X. congruence.
    - match goal with |- context [mkW (arrays (npEmpty ?j ?a ?b ?c)) ?y ?z] => set (st' := mkW (arrays (npEmpty j a b c)) y z) end.
      assert (LA : length (arrays st') = S (length (arrays st))) by (unfold st'; cbn [arrays npEmpty]; rewrite app_length; cbn; lia).
      assert (OLD : forall j, j < length (arrays st) -> theArray st' j = theArray st j) by (intros j Hj; unfold theArray, st'; cbn [arrays npEmpty]; apply app_nth1; auto).
      destruct (sizes n evs) as [[F C]|].
      + destruct HI as ((e & E1 & E2 & E3) & _ & _ & HF).
        assert (E1' : find (hasDim n) (initM st') = Some e) by (unfold st'; cbn [initM npEmpty]; rewrite find_app_, E1; reflexivity).
        split; [exists e; split; [exact E1'|]; split; [lia|rewrite OLD; auto]|]. split; [|split; auto].
        exists (snd e). unfold workArray. change (valM st') with (@nil (nat * nat)). cbn [vget]. rewrite (firstKey_find n _ e E1'). split; auto. split; [lia|rewrite OLD; auto].
      + destruct HI as [E1 E2]. destruct (Nat.eqb_spec d n) as [->|Hne].
        * set (e := ((n, g + 3), length (arrays st))).
          assert (E1' : find (hasDim n) (initM st') = Some e).
          { unfold st'; cbn [initM npEmpty]; rewrite find_app_, E1. cbn [find]. unfold hasDim at 1. cbn [fst]. rewrite Nat.eqb_refl. reflexivity. }
          assert (SH : shp (theArray st' (snd e)) = repeat (2 * (g + 3)) n).
          { unfold theArray, st', e. cbn [arrays npEmpty snd]. rewrite app_nth2 by lia. rewrite Nat.sub_diag. reflexivity. }
          split; [exists e; split; [exact E1'|]; split; [cbn [snd e]; unfold e; cbn [snd]; lia|auto]|].
          split; [|split; exists (g + 3); lia]. exists (snd e). unfold workArray. change (valM st') with (@nil (nat * nat)). cbn [vget]. rewrite (firstKey_find n _ e E1'). split; auto. split; [unfold e; cbn [snd]; lia|auto].
        * split; [|reflexivity]. unfold st'. cbn [initM npEmpty]. rewrite find_app_, E1. cbn [find]. unfold hasDim at 1. cbn [fst]. destruct (Nat.eqb_spec d n); [congruence|reflexivity].
  Qed.
  (** one copy *)
  Lemma even_mid deg C : Nat.Even C -> deg + 1 <= C -> C < 2 * deg -> 3 <= deg.
  Proof. intros [k ->] H1 H2. lia. Qed.
  Lemma foldIdx_map deg n e : length e = n -> foldIdx (repeat deg n) e = map (fun i => if i <=? deg then i else 2 * deg - i) e.
  Proof. revert e. induction n; intros [|i e] H; cbn in *; try lia; auto. f_equal. apply IHn. lia. Qed.
  Lemma inrange_rep s n e : inrange (repeat s n) e <-> length e = n /\ Forall (fun i => i < s) e.
  Proof.
    revert e. induction n; intros e; cbn [repeat]; split.
    - intros H. inversion H; subst. auto.
    - intros [H _]. destruct e; [constructor|discriminate].
    - intros H. inversion H as [|i ? e' ? Hi He]; subst. apply IHn in He. destruct He. split; cbn; auto.
    - intros [H1 H2]. destruct e as [|i e]; [discriminate|]. inversion H2; subst. constructor; auto. apply IHn. auto.
  Qed.
  Lemma mirror_spec n deg (vb values : tensor T) : mirrored deg n vb values <-> isMirror n deg vb values.
  Proof.
    split; intros (S1 & G); split; auto.
    - intros e L F. rewrite G by (apply inrange_rep; auto). rewrite foldIdx_map by auto. reflexivity.
    - intros e He. apply inrange_rep in He. destruct He as [L F]. rewrite G by auto. rewrite foldIdx_map by auto. reflexivity.
  Qed.
  Lemma inv_keep evs st vb st' n deg F C C' : inv evs st -> isBlock n deg vb -> sizes n evs = Some (F, C) -> kept st st' n -> workSide st' n C' ->
    (if 2 * deg <=? C then C else 2 * deg) = C' -> inv (evs ++ [Copy vb]) st'.
  Proof.
    intros HI (Hn & Hd & HS) Hs (K1 & K2 & K3 & K4) HW HC m Hm. pose proof (HI m Hm) as Hv. rewrite sizes_snoc. cbn [sizeStep].
    assert (ND : ndim vb = n) by (unfold ndim; rewrite HS; apply repeat_length). rewrite ND.
    assert (D0 : nth 0 (shp vb) 0 - 1 = deg) by (rewrite HS; destruct n; [lia|cbn; lia]).
    destruct (sizes m evs) as [[Fm Cm]|] eqn:Em.
    - destruct Hv as ((e & E1 & E2 & E3) & HWm & HE & HE2). destruct (Nat.eqb_spec n m) as [<-|Hne].
      + rewrite Hs in Em. injection Em as <- <-. cbv zeta. rewrite D0, HC. split; [exists e; rewrite K1; split; auto; split; [lia|rewrite K4; auto]|]. split; auto.
        split; auto. rewrite <- HC. destruct (2 * deg <=? C); auto. exists deg. reflexivity.
      + split; [exists e; rewrite K1; split; auto; split; [lia|rewrite K4; auto]|]. split; [|auto].
        destruct HWm as (id & W1 & W2 & W3). exists id. unfold workArray in *. rewrite K3, K1 by auto. split; auto. split; [lia|]. rewrite K4; auto.
    - destruct Hv as [E1 E2]. rewrite K1. split; auto. assert (m <> n) by (intros ->; congruence). rewrite K3 by auto. auto.
  Qed.
  Lemma one_copy evs st vb n deg F C : inv evs st -> isBlock n deg vb -> sizes n evs = Some (F, C) ->
    exists values st', chebyshev_block_copy junk vb st = Some (values, st') /\ inv (evs ++ [Copy vb]) st' /\ length (arrays st) <= length (arrays st') /\
      (2 * deg <= C \/ C <= deg -> isMirror n deg vb values) /\
      (deg < C < 2 * deg -> shp values = repeat (2 * deg) n /\ forall e, length e = n -> Forall (fun i => i < 2 * deg) e ->
         tget values e = if forallb (fun i => i <=? deg) e then junk (length (arrays st)) e else tget vb (map (fun i => if i <=? deg then i else 2 * deg - i) e)).
  Proof.
    intros HI HB Hs. pose proof HB as (Hn & Hd & HS). rewrite Nat.add_1_r in HS. pose proof (HI n Hn) as Hv. rewrite Hs in Hv. destruct Hv as (_ & HW & HE & _).
    destruct (le_lt_dec (2 * deg) C) as [H1|H1]; [|destruct (le_lt_dec C deg) as [H2|H2]].
    - destruct (copy_large junk deg n C vb st Hn Hd HS HW H1) as (v & st' & E & M & W & K). exists v, st'. split; auto. split.
      + apply (inv_keep evs st vb st' n deg F C C); auto. destruct (Nat.leb_spec (2 * deg) C); [auto|lia].
      + split; [apply K|]. split; [intros _; apply mirror_spec; auto|intros; lia].
    - destruct (copy_small junk deg n C vb st Hn Hd HS HW H2) as (v & st' & E & M & W & K). exists v, st'. split; auto. split.
      + apply (inv_keep evs st vb st' n deg F C (2 * deg)); auto. destruct (Nat.leb_spec (2 * deg) C); [lia|auto].
      + split; [apply K|]. split; [intros _; apply mirror_spec; auto|intros; lia].
    - destruct (copy_mid junk deg n C vb st Hn (even_mid deg C HE ltac:(lia) H1) HS HW ltac:(lia) H1) as (v & st' & E & W & K & S1 & G). exists v, st'. split; auto. split.
      + apply (inv_keep evs st vb st' n deg F C (2 * deg)); auto. destruct (Nat.leb_spec (2 * deg) C); [lia|auto].
      + split; [apply K|]. split; [intros; lia|]. intros _. split; auto. intros e L Fe. rewrite G by (apply inrange_rep; auto). rewrite foldIdx_map by auto. reflexivity.
  Qed.
  Lemma inv_start : inv [] wstart.
  Proof. intros n Hn. split; reflexivity. Qed.
  Lemma run_app evs1 evs2 st : run junk (evs1 ++ evs2) st =
    match run junk evs1 st with Some (vs, st') => match run junk evs2 st' with Some (ws, st'') => Some (vs ++ ws, st'') | None => None end | None => None end.
  Proof.
    revert st. induction evs1 as [|[d g|b] evs1 IH]; intros st; cbn [List.app run].
    - destruct (run junk evs2 st) as [[? ?]|]; reflexivity.
    - apply IH.
    - destruct (chebyshev_block_copy junk b st) as [[v st']|]; auto. rewrite IH. destruct (run junk evs1 st') as [[vs st'']|]; auto. destruct (run junk evs2 st'') as [[? ?]|]; reflexivity.
  Qed.
  Lemma allowed_prefix (evs1 evs2 : list (event T)) : allowed (evs1 ++ evs2) -> allowed evs1.
  Proof. intros H b1 b b2 E. apply (H b1 b (b2 ++ evs2)). rewrite E, <- app_assoc. reflexivity. Qed.
  Lemma run_inv evs : allowed evs -> exists outs st, run junk evs wstart = Some (outs, st) /\ inv evs st.
  Proof.
    induction evs as [|e evs IH] using rev_ind; intros HA.
    - exists [], wstart. split; [reflexivity|apply inv_start].
    - destruct IH as (outs & st & E & HI); [apply allowed_prefix in HA; auto|]. rewrite run_app, E. destruct e as [d g|b]; cbn [run].
      + exists (outs ++ []), (startSolve junk d g st). split; auto. apply inv_solve; auto.
      + destruct (HA evs b [] eq_refl) as (n & deg & HB & Hs). destruct (sizes n evs) as [[F C]|] eqn:Es; [|congruence].
        destruct (one_copy evs st b n deg F C HI HB Es) as (v & st' & Ec & HI' & _). rewrite Ec. eexists. exists st'. split; [reflexivity|auto].
  Qed.
End Inv.

(** ** C106 *)
(** Whatever happened before in the process, a copy is right if the work array is at least as large as the result, or so small
    that not even the block itself fits; in between, all values that are not mirror images are those of fresh memory. *)
Theorem C106_copy_after_every_history :
  forall (T : Type) (NT : Num T) (junk : nat -> list nat -> T) (history : list (event T)) (block : tensor T) (n deg first now : nat),
    allowed history -> isBlock n deg block -> sizes n history = Some (first, now) ->
    exists outs st values st', run junk history wstart = Some (outs, st) /\ chebyshev_block_copy junk block st = Some (values, st') /\
      (2 * deg <= now \/ now <= deg -> isMirror n deg block values) /\
      (deg < now < 2 * deg -> shp values = repeat (2 * deg) n /\
         exists k, forall e, length e = n -> Forall (fun i => i < 2 * deg) e ->
           tget values e = if forallb (fun i => i <=? deg) e then junk k e else tget block (map (fun i => if i <=? deg then i else 2 * deg - i) e)).
Proof.
  intros T NT junk h b n deg F C HA HB Hs. destruct (run_inv junk h HA) as (outs & st & E & HI).
  destruct (one_copy junk h st b n deg F C HI HB Hs) as (v & st' & Ec & _ & _ & H1 & H2). exists outs, st, v, st'. repeat split; auto; [apply H1; auto|apply H1; auto|apply H2; auto|].
  exists (length (arrays st)). apply H2. auto.
Qed.
Print Assumptions C106_copy_after_every_history.

(** As long as no copy needs more room than the first call of this number of variables provided, all copies are right. *)
Theorem C106_copies_up_to_the_first_degree :
  forall (T : Type) (NT : Num T) (junk : nat -> list nat -> T) (n d0 : nat) (later : list (event T)) (block : tensor T) (deg : nat),
    let history := Solve n d0 :: later in
    allowed history -> (forall b g, In (Copy b) later -> isBlock n g b -> g <= d0 + 3) -> isBlock n deg block -> deg <= d0 + 3 ->
    exists outs st values st', run junk history wstart = Some (outs, st) /\ chebyshev_block_copy junk block st = Some (values, st') /\ isMirror n deg block values.
Proof.
  intros T NT junk n d0 later b deg h HA HL HB Hd.
  assert (Hs : sizes n h = Some (2 * (d0 + 3), 2 * (d0 + 3))).
  { unfold h, sizes. cbn [fold_left sizeStep]. rewrite Nat.eqb_refl.
    assert (HA' : forall before blk after, later = before ++ Copy blk :: after -> ndim blk = n -> exists g, isBlock n g blk).
    { intros bf blk af E ND. destruct (HA (Solve n d0 :: bf) blk af) as (m & g & Hm & _); [unfold h; rewrite E; reflexivity|]. exists g. destruct Hm as (Hm1 & Hm2 & Hm3). assert (m = n) as <-; [|repeat split; auto].
      rewrite <- ND. unfold ndim. rewrite Hm3, repeat_length. reflexivity. }
    clear HA h. revert HL HA'. induction later as [|e later IH]; intros HL HA'; cbn [fold_left]; auto.
    assert (X : sizeStep n (Some (2 * (d0 + 3), 2 * (d0 + 3))) e = Some (2 * (d0 + 3), 2 * (d0 + 3))).
    { destruct e as [d g|blk]; cbn [sizeStep]; [reflexivity|]. destruct (Nat.eqb_spec (ndim blk) n) as [ND|]; auto.
      destruct (HA' [] blk later eq_refl ND) as (g & Hg). pose proof (HL blk g (or_introl eq_refl) Hg) as Hle. destruct Hg as (G1 & G2 & G3). rewrite G3. destruct n; [lia|]. cbn [repeat nth]. cbv zeta.
      destruct (Nat.leb_spec (2 * (g + 1 - 1)) (2 * (d0 + 3))); [auto|lia]. }
    rewrite X. apply IH.
    - intros b' g H. apply HL. right. auto.
    - intros bf blk af E. apply (HA' (e :: bf) blk af). rewrite E. reflexivity. }
  destruct (C106_copy_after_every_history T NT junk h b n deg _ _ HA HB Hs) as (outs & st & v & st' & E1 & E2 & H1 & _). exists outs, st, v, st'. split; auto. split; auto. apply H1. left. lia.
Qed.
Print Assumptions C106_copies_up_to_the_first_degree.

(** The first approximation of a process with degree at least 4 copies a block of that degree and then one of twice the
    degree; the second copy consists of fresh memory wherever it is not a mirror image. *)
Theorem C106_copy_of_twice_the_degree_refuted :
  forall (T : Type) (NT : Num T) (junk : nat -> list nat -> T) (n deg : nat) (block block2 : tensor T),
    4 <= deg -> isBlock n deg block -> isBlock n (2 * deg) block2 ->
    exists values values2 st, run junk [Solve n deg; Copy block; Copy block2] wstart = Some ([values; values2], st) /\
      isMirror n deg block values /\
      (forall e, length e = n -> Forall (fun i => i <= 2 * deg) e -> tget values2 e = junk 1 e).
Proof.
  intros T NT junk n deg b b2 Hd HB HB2.
  pose proof (inv_solve junk [] wstart n deg (inv_start)) as I1. cbn [List.app] in I1.
  assert (S1 : sizes n [@Solve T n deg] = Some (2 * (deg + 3), 2 * (deg + 3))) by (unfold sizes; cbn [fold_left sizeStep]; rewrite Nat.eqb_refl; reflexivity).
  destruct (one_copy junk _ _ b n deg _ _ I1 HB S1) as (v & st1 & E1 & I2 & LA & M1 & _). cbn [List.app] in I2.
  assert (S2 : sizes n [Solve n deg; Copy b] = Some (2 * (deg + 3), 2 * (deg + 3))).
  { unfold sizes in *. cbn [fold_left] in *. rewrite S1. cbn [sizeStep]. destruct HB as (B1 & B2 & B3). unfold ndim. rewrite B3, repeat_length, Nat.eqb_refl. destruct n; [lia|]. cbn [repeat nth]. cbv zeta.
    destruct (Nat.leb_spec (2 * (deg + 1 - 1)) (2 * (deg + 3))); [auto|lia]. }
  destruct (one_copy junk _ _ b2 n (2 * deg) _ _ I2 HB2 S2) as (v2 & st2 & E2 & _ & _ & _ & M2).
  exists v, v2, st2. split; [cbn [run]; rewrite E1, E2; reflexivity|]. split; [apply M1; lia|].
  destruct M2 as (S3 & G); [lia|]. assert (LE : length (arrays st1) = 1).
  { clear - E1 HB. destruct HB as (B1 & B2 & B3).
    assert (W : workSide (startSolve junk n deg wstart) n (2 * (deg + 3))).
    { exists 0. unfold workArray, startSolve, initialize_values_arr, wstart. cbn. rewrite Nat.eqb_refl. repeat split; auto. }
    rewrite Nat.add_1_r in B3. unfold chebyshev_block_copy in E1. destruct (shp_nth0 b deg n B1 B3) as [Ea Eb]. rewrite Ea, Eb in E1. destruct W as (id & W1 & W2 & W3).
    destruct (values_arr_work _ n id W1) as (s1 & V & V1 & V2 & V3 & V4). rewrite V in E1.
    assert (A1 : theArray s1 id = theArray (startSolve junk n deg wstart) id) by (unfold theArray; rewrite V1; auto).
    destruct (ndim (theArray s1 id) =? n); [|discriminate].
    destruct (loop_big junk n deg (2 * (deg + 3)) b (blocks n) B2 ltac:(lia) (blocks_length n) id s1) as (s' & L & _ & _ & L3 & _); [rewrite V1; auto|rewrite A1; auto|].
    rewrite L in E1. injection E1 as _ <-. rewrite L3, V1. reflexivity. }
  intros e L Fe. rewrite G; auto.
  - rewrite LE. assert (X : forallb (fun i => i <=? 2 * deg) e = true); [|rewrite X; reflexivity]. apply forallb_forall. intros i Hi. rewrite Forall_forall in Fe. apply Nat.leb_le. apply Fe. auto.
  - apply Forall_forall. intros i Hi. rewrite Forall_forall in Fe. specialize (Fe i Hi). lia.
Qed.
Print Assumptions C106_copy_of_twice_the_degree_refuted.

(** A later call keeps using the size of the first call with this number of variables, not its own. *)
Theorem C106_the_first_call_fixes_the_size :
  forall (T : Type) (NT : Num T) (junk : nat -> list nat -> T) (history : list (event T)) (n first now deg : nat),
    1 <= n -> allowed history -> sizes n history = Some (first, now) ->
    exists outs st, run junk (history ++ [Solve n deg]) wstart = Some (outs, st) /\ workSide st n first.
Proof.
  intros T NT junk h n F C deg Hn HA Hs. destruct (run_inv junk h HA) as (outs & st & E & HI). rewrite run_app, E. cbn [run]. eexists. eexists. split; [reflexivity|].
  pose proof (inv_solve junk h st n deg HI n Hn) as Hv. rewrite sizes_snoc, Hs in Hv. cbn [sizeStep] in Hv. apply Hv.
Qed.
Print Assumptions C106_the_first_call_fixes_the_size.

(** ** Examples *)
From Coq Require Import ZArith QArith.
Example C106_case : let block := mkT [5; 5]%nat (map inject_Z (map Z.of_nat (seq 0 25))) in
  allowed [Solve 2 4; Copy block] /\ sizes 2 [Solve 2 4; Copy block] = Some (14, 14)%nat /\ isBlock 2 4 block /\
  (4 < 14 < 2 * 8)%nat.
Proof.
  cbv zeta. split; [|repeat split; try reflexivity; lia].
  intros bf b af E. destruct bf as [|e1 [|e2 [|e3 bf]]]; try discriminate.
  - injection E as E1 E _. subst b e1. exists 2%nat, 4%nat. split; [repeat split; try reflexivity; lia|discriminate].
Qed.
