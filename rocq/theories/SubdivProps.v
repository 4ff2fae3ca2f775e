(** * Property theorems C15, C16, C17, C56: one subdivision step *)
From Coq Require Import List Arith Bool Lia ZArith QArith Qreals Sorted Permutation Reals Lra PrimFloat.
From Verif Require Import Num RSum Cheb Tensor PolySpec SystemSpec TransformModel TransformChebProofs IntervalModel IntervalProofs IntervalProps LinearModel QuadModel QuadTransfer GaussExample Transfer
  SolverModel OrderProofs SubdivProofs SubdivReal SolverTransfer ExtExample SplitProofs.
Import ListNotations.
Local Close Scope Q_scope.

(** ** C15 *)
(** [half false (lo,hi) m = (lo,m)] and [half true (lo,hi) m = (m,hi)] *)
Definition half {T} (upper : bool) (row : T * T) (m : T) : T * T := if upper then (m, snd row) else (fst row, m).

(** In any arithmetic in which -1, 1 and the split points compare as they should ([saneSplit]): there
    are a set of dimensions and one point [mid i] for each, such that the boxes returned are exactly
    the combinations of lower and upper halves, with the parent's own end points outside and the
    identical value [mid i] on both sides. *)
Theorem C15_split_shares_endpoints :
  forall (T : Type) (NT : Num T) (n : nat) (X : ext T) (exact : bool) (Ms : list (tensor T)) (errors : list T) (ti : tint T) (level : nat) (ch : children),
    argsort_ok (xargsort X) -> set_ok n (xset X) -> (0 < n)%nat ->
    length Ms = n -> length errors = n -> Forall (fun M => ndim M = n) Ms -> length (ivl ti) = n -> saneSplit n (npts ti) ->
    getSubdivisionIntervals X exact Ms errors ti level = Ok ch ->
    exists (dims : list nat) (mid : nat -> T), StronglySorted lt dims /\ Forall (fun d => (d < n)%nat) dims /\ length ch = Nat.pow 2 (length dims) /\
      (forall c, In c ch -> length (ivl (snd c)) = n) /\
      (forall c, In c ch -> exists upper : nat -> bool, forall i, (i < n)%nat ->
         (~ In i dims -> nth i (ivl (snd c)) (n0, n0) = nth i (ivl ti) (n0, n0)) /\
         (In i dims -> nth i (ivl (snd c)) (n0, n0) = half (upper i) (nth i (ivl ti) (n0, n0)) (mid i))) /\
      (forall upper : nat -> bool, exists c, In c ch /\ forall i, (i < n)%nat ->
         (~ In i dims -> nth i (ivl (snd c)) (n0, n0) = nth i (ivl ti) (n0, n0)) /\
         (In i dims -> nth i (ivl (snd c)) (n0, n0) = half (upper i) (nth i (ivl ti) (n0, n0)) (mid i))).
Proof.
  intros T NT n X exact Ms errors ti level ch Has Hset Hn HM He HF Hl Hs Hc.
  pose proof (children_spec X n Has Hset exact Ms errors ti level Hn HM He HF) as E. cbv zeta in E. rewrite Hc in E.
  set (dims := subdivisionDims Ms ti level) in *. destruct (subdims_ok n Ms ti level HM) as [D1 D2]. fold dims in D1, D2.
  destruct (_ && _) in E; [discriminate|]. injection E as ->.
  pose proof (sorted_lt_NoDup dims D1) as D3.
  assert (key : forall bs, In bs (bitLists (length dims)) -> length (ivl (snd (childAt X exact Ms errors ti dims bs))) = n /\
     forall i, (i < n)%nat ->
         (~ In i dims -> nth i (ivl (snd (childAt X exact Ms errors ti dims bs))) (n0, n0) = nth i (ivl ti) (n0, n0)) /\
         (In i dims -> nth i (ivl (snd (childAt X exact Ms errors ti dims bs))) (n0, n0) =
            half (negb (bitOf dims bs i =? 0)) (nth i (ivl ti) (n0, n0)) (splitAt (npts ti) (nth i (ivl ti) (n0, n0)) i))).
  { intros bs Hb. apply in_bitLists in Hb. destruct Hb as [Hb _]. unfold childAt. cbn [snd].
    destruct (intAt_ivl n (npts ti) Hs dims bs ti Hl D3 D2 Hb) as [K1 K2]. split; auto. intros i Hi. rewrite K2 by auto. split; intros Hin.
    - destruct (existsb (Nat.eqb i) dims) eqn:Ex; auto. apply existsb_exists in Ex. destruct Ex as (x & Hx & Hxe). apply Nat.eqb_eq in Hxe. subst. contradiction.
    - assert (Ex : existsb (Nat.eqb i) dims = true) by (apply existsb_exists; exists i; split; auto; apply Nat.eqb_refl). rewrite Ex.
      unfold halfRow, half. destruct (bitOf dims bs i =? 0); reflexivity. }
  exists dims, (fun i => splitAt (npts ti) (nth i (ivl ti) (n0, n0)) i). split; auto. split; auto. split; [rewrite map_length; apply bitLists_length|]. split; [|split].
  - intros c Hi. apply in_map_iff in Hi. destruct Hi as (bs & <- & Hb). apply key; auto.
  - intros c Hi. apply in_map_iff in Hi. destruct Hi as (bs & <- & Hb). exists (fun i => negb (bitOf dims bs i =? 0)). apply key; auto.
  - intros up. pose (bs := map (fun d => if up d then 1 else 0) dims).
    assert (Hb : In bs (bitLists (length dims))).
    { apply in_bitLists. unfold bs. split; [apply map_length|]. apply Forall_forall. intros b Hb. apply in_map_iff in Hb. destruct Hb as (d & <- & _). destruct (up d); auto. }
    exists (childAt X exact Ms errors ti dims bs). split; [apply in_map; auto|]. intros i Hi. destruct (key bs Hb) as [_ K]. destruct (K i Hi) as [K1 K2]. split; auto.
    intros Hin. rewrite K2 by auto. f_equal. unfold bitOf, bs. destruct (idxOf_lt i dims Hin) as [Q1 Q2].
    rewrite (nth_map_lt _ _ _ 0) by auto. rewrite Q2. destruct (up i); auto.
Qed.
Print Assumptions C15_split_shares_endpoints.

(** Consequently no point falls between the children: a point that compares, in every dimension, as
    inside the parent is inside a child.  (With NaN nothing compares: the point must be comparable with
    the end points of the children.) *)
Theorem C15_split_leaves_no_gap :
  forall (T : Type) (NT : Num T) (n : nat) (X : ext T) (exact : bool) (Ms : list (tensor T)) (errors : list T) (ti : tint T) (level : nat) (ch : children),
    argsort_ok (xargsort X) -> set_ok n (xset X) -> (0 < n)%nat ->
    length Ms = n -> length errors = n -> Forall (fun M => ndim M = n) Ms -> length (ivl ti) = n -> saneSplit n (npts ti) ->
    getSubdivisionIntervals X exact Ms errors ti level = Ok ch ->
    forall x : nat -> T,
      (forall c i, In c ch -> (i < n)%nat -> let lower := fst (nth i (ivl (snd c)) (n0, n0)) in nleb lower (x i) = true \/ nleb (x i) lower = true) ->
      (forall i, (i < n)%nat -> nleb (fst (nth i (ivl ti) (n0, n0))) (x i) = true /\ nleb (x i) (snd (nth i (ivl ti) (n0, n0))) = true) ->
      exists c, In c ch /\
        forall i, (i < n)%nat -> nleb (fst (nth i (ivl (snd c)) (n0, n0))) (x i) = true /\ nleb (x i) (snd (nth i (ivl (snd c)) (n0, n0))) = true.
Proof.
  intros T NT n X exact Ms errors ti level ch Has Hset Hn HM He HF Hl Hs Hc x Htot Hx.
  destruct (C15_split_shares_endpoints T NT n X exact Ms errors ti level ch Has Hset Hn HM He HF Hl Hs Hc) as (dims & mid & _ & _ & _ & _ & _ & K).
  destruct (K (fun i => nleb (mid i) (x i))) as (c & Hi & Kc). exists c. split; auto. intros i Hin. destruct (Kc i Hin) as [A B]. destruct (Hx i Hin) as [X1 X2].
  destruct (in_dec Nat.eq_dec i dims) as [D|D]; [rewrite B by auto|rewrite A by auto; auto]. unfold half.
  destruct (nleb (mid i) (x i)) eqn:E; cbn [fst snd]; split; auto.
  destruct (K (fun _ => true)) as (c2 & Hi2 & Kc2). pose proof (Htot c2 i Hi2 Hin) as Ht. cbv zeta in Ht. rewrite (proj2 (Kc2 i Hin) D) in Ht. cbn [half fst] in Ht. destruct Ht; congruence.
Qed.
Print Assumptions C15_split_leaves_no_gap.

(** In binary64: the box [0.1,0.7] x [-1,1/3]; both dimensions are split. *)
Definition extF : ext float := @ext1 float F_num.
Definition boxF : tint float := @newInterval float F_num [(0x1.999999999999ap-4, 0x1.6666666666666p-1)%float; (-1, 0x1.5555555555555p-2)%float].
Definition polyF : tensor float := mkT [3;2] [1; 2; 0.5; 0.25; 0.125; 1]%float.
Example C15_case : argsort_ok (xargsort extF) /\ set_ok 2 (xset extF) /\ @saneSplit float F_num 2 (npts boxF) /\
  exists ch, @getSubdivisionIntervals float F_num extF false [polyF; polyF] [0; 0]%float boxF 0 = Ok ch /\ length ch = 4 /\
    let x := fun i : nat => match i with O => 0.3125%float | _ => (-0.25)%float end in
    (forall c i, In c ch -> i < 2 -> let lower := fst (nth i (ivl (snd c)) (0, 0)%float) in PrimFloat.leb lower (x i) = true \/ PrimFloat.leb (x i) lower = true) /\
    (forall i, i < 2 -> PrimFloat.leb (fst (nth i (ivl boxF) (0, 0)%float)) (x i) = true /\ PrimFloat.leb (x i) (snd (nth i (ivl boxF) (0, 0)%float)) = true).
Proof.
  split; [apply isort_ok|]. split; [apply pySet_ok; lia|]. split.
  - constructor; try reflexivity. intros [|[|d]] Hd; [| |lia]; vm_compute; auto.
  - eexists. split; [vm_compute; reflexivity|]. split; [reflexivity|]. cbv zeta. split.
    + intros c i Hc Hi. repeat (destruct Hc as [<-|Hc]); [| | | |destruct Hc]; destruct i as [|[|i]]; try lia; vm_compute; auto.
    + intros i Hi. destruct i as [|[|i]]; try lia; vm_compute; auto.
Qed.

(** ** C16 *)
Local Open Scope R_scope.
(** A tracked interval as the solver makes it: [tok] says it was obtained from [-1,1]^n by recorded
    sub-boxes and carries its box and valid split points; [fresh] that a box not in the final step has no result flags. *)
Lemma zoomOut_place n t y : tok n t -> length y = n -> zoomOut (ivl t) y = place (trs t) y.
Proof.
  intros Ht Hy. pose proof (tok_ivl n t Ht) as E. pose proof (tok_trs n t Ht) as Ho. pose proof (final_sub_ok n (trs t) Ho) as Hs. rewrite <- E in Hs.
  rewrite (zoomOut_affine n) by auto. pose proof (proj1 Hs) as Hl.
  apply list_eq_nth with 0; [rewrite affine_length by (rewrite map_length; lia); rewrite (place_length n); auto|].
  rewrite affine_length by (rewrite map_length; lia). intros i Hi. rewrite affine_nth by (rewrite ?map_length; lia). rewrite ab_nth, alphaBeta_R, E.
  rewrite finalBox_nth by (rewrite unitBox_length; lia). rewrite unitBox_nth by lia. rewrite (place_nth n) by (auto; lia). cbn [fst snd]. field.
Qed.

(** If [fs] is within [errors] of the parent's polynomials on the parent's box, then, for every child,
    [fs] is within the child's errors of the child's polynomials on the child's own box; and the
    children's boxes cover the parent's. *)
Theorem C16_children_match_their_boxes :
  forall (n : nat) (X : ext R) (exact : bool) (Ms : list (tensor R)) (errors : list R) (ti : tint R) (level : nat) (ch : children) (fs : nat -> list R -> R),
    argsort_ok (xargsort X) -> set_ok n (xset X) -> tok n ti -> fresh ti -> squareSystem n Ms errors -> Forall (all_covered exact) Ms ->
    (forall i y, (i < n)%nat -> in_cube n y -> Rabs (fs i (zoomOut (ivl ti) y) - cheb_eval (nth i Ms noT) y) <= nth i errors 0) ->
    getSubdivisionIntervals X exact Ms errors ti level = Ok ch ->
    (forall Ms' errors' t', In (Ms', errors', t') ch ->
       squareSystem n Ms' errors' /\ inUnit (ivl t') n /\
       forall i y, (i < n)%nat -> in_cube n y -> Rabs (fs i (zoomOut (ivl t') y) - cheb_eval (nth i Ms' noT) y) <= nth i errors' 0) /\
    (forall x, inBox (ivl ti) x -> exists c, In c ch /\ inBox (ivl (snd c)) x).
Proof.
  intros n X exact Ms errors ti level ch fs Has Hset Ht Hf Hsq Hcov Hap Hc. pose proof Hsq as (Hn & HM & He & HF).
  assert (HF' : Forall (fun M => ndim M = n) Ms) by (eapply Forall_impl; [|exact HF]; cbv beta; tauto).
  pose proof (children_spec X n Has Hset exact Ms errors ti level Hn HM He HF') as E. cbv zeta in E. rewrite Hc in E.
  set (dims := subdivisionDims Ms ti level) in *. destruct (subdims_ok n Ms ti level HM) as [D1 D2]. fold dims in D1, D2.
  destruct (_ && _) in E; [discriminate|]. injection E as ->. split.
  - intros Ms' errors' t' Hi. apply in_map_iff in Hi. destruct Hi as (bs & Eb & Hb). apply in_bitLists in Hb. destruct Hb as [Hb _].
    destruct (child_ok X n exact Has Ms errors ti dims bs Ht Hf Hsq Hcov D1 D2 Hb) as (T1 & _ & _ & S1 & C1 & A1). rewrite Eb in *. cbn [fst snd] in *.
    split; auto. split.
    + rewrite (tok_ivl n t' T1). destruct (final_sub_ok n (trs t') (tok_trs n t' T1)) as [U V]. split; auto.
    + intros i y Hi Hy. pose proof (proj1 Hy) as Hyl. rewrite (zoomOut_place n) by auto.
      assert (AP : appr n exact false fs (trs ti) Ms errors).
      { constructor; auto. intros j Hj z Hz. pose proof (proj1 Hz) as Hzl. cbn [within]. rewrite <- (zoomOut_place n) by auto. apply Hap; auto. }
      apply (ap_err _ _ _ _ _ _ _ (A1 false fs AP) i Hi y Hy).
  - intros x Hx. rewrite (tok_ivl n ti Ht) in Hx. destruct (final_reached n (trs ti) x (tok_trs n ti Ht) Hx) as (y0 & Hy0 & ->).
    destruct (child_cover X n exact Has Ms errors ti dims y0 Ht Hf Hsq Hcov D1 D2 Hy0) as (bs & y & Hb & Hy & ->).
    pose proof Hb as Hb'. apply in_bitLists in Hb'. destruct Hb' as [Hb' _].
    destruct (child_ok X n exact Has Ms errors ti dims bs Ht Hf Hsq Hcov D1 D2 Hb') as (T1 & _).
    exists (childAt X exact Ms errors ti dims bs). split; [apply in_map; auto|]. rewrite (tok_ivl n _ T1). apply place_in_final; auto. apply (tok_trs _ _ T1).
Qed.
Print Assumptions C16_children_match_their_boxes.
(** two polynomials of different shapes, so that their splitting orders differ *)
Definition MsQ : list (tensor Q) := [mkT [2;3]%nat [0; 1#2; 1#3; 1; 0; 1#5]%Q; mkT [3;2]%nat [0; 1#2; 1#3; 1; 0; 1#5]%Q].
Definition MsR : list (tensor R) := map (tmap Q2R) MsQ.
Lemma start_fresh n : fresh (@newInterval R R_num (repeat (-1, 1) n)).
Proof. intros _. auto. Qed.
Lemma zoomOut_unit n y : length y = n -> zoomOut (repeat (-1, 1) n) y = y.
Proof. revert y. induction n; intros [|v y] H; try discriminate; auto. unfold zoomOut in *. cbn. f_equal; [cbn; lra|]. apply IHn. injection H; auto. Qed.
Lemma start_ht n : ht (h := Q2R) (@newInterval Q Q_num (repeat (-1#1, 1#1)%Q n)) = @newInterval R R_num (repeat (-1, 1) n).
Proof. rewrite h_new, map_repeat. unfold h2. cbn [fst snd]. do 2 f_equal. f_equal; unfold Q2R; cbn; lra. Qed.
Example C16_case : let ti := @newInterval R R_num (repeat (-1, 1) 2) in
  argsort_ok (xargsort (@ext1 R R_num)) /\ set_ok 2 (xset (@ext1 R R_num)) /\ tok 2 ti /\ fresh ti /\
  squareSystem 2 MsR [0; 0] /\ Forall (all_covered false) MsR /\
  (forall i y, (i < 2)%nat -> in_cube 2 y -> Rabs (cheb_eval (nth i MsR noT) (zoomOut (ivl ti) y) - cheb_eval (nth i MsR noT) y) <= nth i [0; 0] 0) /\
  exists ch, @getSubdivisionIntervals R R_num ext1 false MsR [0; 0] ti 0 = Ok ch /\ length ch = 4%nat.
Proof.
  cbv zeta. split; [apply isort_ok|]. split; [apply pySet_ok; lia|]. split; [apply new_tok|]. split; [apply start_fresh|]. split; [|split; [|split]].
  - split; [lia|]. split; auto. split; auto. repeat constructor; cbn; lia.
  - repeat constructor; cbn; lia.
  - intros i y Hi Hy. cbn [newInterval ivl]. rewrite zoomOut_unit by apply Hy. rewrite Rminus_diag_eq by auto. rewrite Rabs_R0. destruct i as [|[|i]]; cbn; try lra; lia.
  - rewrite <- start_ht. replace [0; 0] with (map Q2R [0; 0]%Q) by (cbn; unfold Q2R; cbn; do 2 (f_equal; try lra)).
    unfold MsR. rewrite <- (h_children (NA := Q_num) (h := Q2R) _ _ ext1_hom).
    destruct (@getSubdivisionIntervals Q Q_num ext1 false MsQ [0; 0]%Q (newInterval (repeat (-1 # 1, 1 # 1)%Q 2)) 0) as [ch| |] eqn:E.
    + cbn [hres]. eexists. split; [reflexivity|]. rewrite map_length. revert E. vm_compute. intros H; injection H as <-. reflexivity.
    + exfalso. revert E. vm_compute. discriminate.
    + exfalso. revert E. vm_compute. discriminate.
Qed.

(** ** C17 *)
(** In any arithmetic: the rows returned by getSubdivisionDims, one per polynomial, are arrangements of
    one list of distinct valid dimensions; the test for the ValueError (the number of distinct entries
    differs from the length of a row) never succeeds; below depth 5 the list is never empty. *)
Theorem C17_subdivision_dimensions :
  forall (T : Type) (NT : Num T) (n : nat) (X : ext T) (Ms : list (tensor T)) (ti : tint T) (level : nat),
    argsort_ok (xargsort X) -> (0 < n)%nat -> length Ms = n ->
    let rows := getSubdivisionDims X Ms ti level in
    length rows = n /\
    (exists dims, StronglySorted lt dims /\ Forall (fun d => (d < n)%nat) dims /\ Forall (Permutation dims) rows) /\
    (forall distinct, NoDup distinct -> (forall d, In d distinct <-> In d (concat rows)) -> length distinct = length (nth 0 rows [])) /\
    ((5 < level)%nat -> forall r, In r rows -> r <> []).
Proof.
  intros T NT n X Ms ti level Has Hn HM rows. destruct (subdims_ok n Ms ti level HM) as [D1 D2].
  assert (Hr : Forall (Permutation (subdivisionDims Ms ti level)) rows).
  { apply Forall_forall. intros r Hr. apply in_map_iff in Hr. destruct Hr as (M & <- & _). apply Permutation_sym, orderFor_perm; auto. }
  assert (Hl : length rows = n) by (unfold rows, getSubdivisionDims; rewrite map_length; auto).
  split; auto. split; [eauto|]. split.
  - intros s Hs Hi. rewrite Forall_forall in Hr. assert (H0 : In (nth 0 rows []) rows) by (apply nth_In; lia).
    rewrite <- (Permutation_length (Hr _ H0)). apply Permutation_length. apply NoDup_Permutation; auto; [apply sorted_lt_NoDup; auto|].
    intros d. rewrite Hi, in_concat. split.
    + intros (r & Hrr & Hd). apply (Permutation_in _ (Permutation_sym (Hr _ Hrr))). auto.
    + intros Hd. exists (nth 0 rows []). split; auto. apply (Permutation_in _ (Hr _ H0)). auto.
  - intros Hlev r Hrr E. subst r. rewrite Forall_forall in Hr. pose proof (Permutation_length (Hr _ Hrr)) as L. cbn in L.
    unfold subdivisionDims in L. rewrite HM in L. destruct (Nat.ltb_spec 5 level); [|lia]. destruct (notClose_ok n (ivl ti)) as [_ N]. specialize (N Hn). destruct (dimsNotClose (ivl ti) n); cbn in L; [congruence|lia].
Qed.
Print Assumptions C17_subdivision_dimensions.
Example C17_case : length (@getSubdivisionDims float F_num extF [polyF; polyF] boxF 3) = 2%nat /\
  @getSubdivisionDims float F_num extF [polyF; mkT [2;4]%nat [1;1;1;1;1;1;1;1]%float] boxF 3 = [[0;1]; [1;0]]%nat.
Proof. split; [vm_compute; auto|vm_compute; reflexivity]. Qed.

(** Over the reals, at any depth: there is a dimension to split as soon as some dimension is not
    degenerate in the sense of np.isclose, or the last dimension has positive width. *)
Lemma notClose_in (iv : box R) n i : (i < n)%nat -> @isclose R R_num (fst (nth i iv (0, 0))) (snd (nth i iv (0, 0))) = false -> In i (dimsNotClose iv n).
Proof.
  intros Hi Hc. unfold dimsNotClose. assert (H : In i (seq 0 n)) by (apply in_seq; lia). revert H. generalize (seq 0 n) at 1 3. generalize (seq 0 n). intros l.
  induction l as [|j l IH]; intros dims H; auto. cbn [fold_left]. apply IH. cbn [n0 R_num].
  destruct (Nat.eq_dec j i) as [->|Hne]; [rewrite Hc; auto|].
  match goal with |- context [if isclose ?a ?b then _ else _] => destruct (isclose a b) end; auto. destruct (_ =? 1)%nat; auto. unfold delVal. apply filter_In. split; auto. apply Bool.negb_true_iff. apply Nat.eqb_neq. auto.
Qed.
Lemma notClose_last (iv : box R) n : (0 < n)%nat -> (forall i, (i < n)%nat -> @isclose R R_num (fst (nth i iv (0, 0))) (snd (nth i iv (0, 0))) = true) ->
  dimsNotClose iv n = [(n - 1)%nat].
Proof.
  intros Hn H. unfold dimsNotClose.
  assert (G : forall k j, (j + k = n)%nat -> (0 < k)%nat -> fold_left (fun dims i => let p := nth i iv (@n0 R R_num, @n0 R R_num) in
     if isclose (fst p) (snd p) then (if (length dims =? 1)%nat then dims else delVal dims i) else dims) (seq j k) (seq j k) = [(n - 1)%nat]).
  { induction k as [|k IH]; intros j Hj Hk; [lia|]. cbn [seq fold_left]. cbv zeta. cbn [n0 R_num]. rewrite H by lia. cbn [length]. rewrite seq_length.
    destruct k as [|k]; [cbn; f_equal; lia|]. cbn [Nat.eqb].
    assert (E : delVal (j :: seq (S j) (S k)) j = seq (S j) (S k)).
    { unfold delVal. cbn [filter]. rewrite Nat.eqb_refl. cbn [negb]. assert (F : forall m s, (j < s)%nat -> filter (fun i => negb (i =? j)%nat) (seq s m) = seq s m).
      { clear. induction m; intros s Hs; cbn [seq filter]; auto. destruct (Nat.eqb_spec s j); [lia|]. cbn [negb]. f_equal. apply IHm. lia. }
      change (j :: seq (S j) (S k)) with (j :: seq (S j) (S k)). apply F. lia. }
    rewrite E. apply (IH (S j)); lia. }
  apply (G n 0%nat); lia.
Qed.
Lemma large_pos Ms (iv : box R) n dims : dims_ok n dims -> (exists i, In i dims /\ 0 < nth i (@boxDims R R_num iv) 0) -> dimsLarge Ms iv n dims <> [].
Proof.
  intros Hd (i & Hi & Hp). apply (large_nonempty n); auto.
  set (mx := match map (fun i => nth i (@boxDims R R_num iv) (@n0 R R_num)) dims with [] => _ | x :: r => _ end).
  assert (Hmx : (exists j, In j dims /\ mx = nth j (@boxDims R R_num iv) 0) /\ nth i (@boxDims R R_num iv) 0 <= mx).
  { unfold mx. destruct dims as [|a r]; [destruct Hi|]. cbn [map]. rnum. split.
    - destruct (LinearProofs.nmaxl_in (map (fun i => nth i (@boxDims R R_num iv) 0) r) (nth a (@boxDims R R_num iv) 0)) as [E|E]; [exists a; split; [left; auto|auto]|].
      apply in_map_iff in E. destruct E as (j & E & Hj). exists j. split; [right; auto|]. symmetry. exact E.
    - apply LinearProofs.nmaxl_ge. destruct Hi as [<-|Hi]; [left; lra|right]. apply in_map_iff. eauto. }
  destruct Hmx as [(j & Hj & Ej) Hge]. intros E.
  assert (In j []) as []. rewrite <- E. apply filter_In. split; auto. unfold ngtb. rewrite nlit_R. cbn [nltb ndiv R_num n0]. apply Rltb_true. rewrite <- Ej.
  change (IZR 5) with 5. unfold Rdiv. simpl IZR. lra.
Qed.
Lemma isclose_pos a b : @isclose R R_num a b = false -> a <= b -> a < b.
Proof.
  unfold isclose. rewrite !nlit_R. rnum. intros H Hab. apply Rleb_false in H. destruct Hab as [|E]; auto. subst.
  rewrite Rminus_diag_eq, Rabs_R0 in H by auto. pose proof (Rabs_pos b). simpl IZR in H. lra.
Qed.
Theorem C17_some_dimension_is_split :
  forall (n : nat) (X : ext R) (Ms : list (tensor R)) (ti : tint R) (level : nat),
    argsort_ok (xargsort X) -> (0 < n)%nat -> length Ms = n -> length (ivl ti) = n ->
    (forall i, (i < n)%nat -> fst (nth i (ivl ti) (0, 0)) <= snd (nth i (ivl ti) (0, 0))) ->
    let lo := fun i => fst (nth i (ivl ti) (0, 0)) in let hi := fun i => snd (nth i (ivl ti) (0, 0)) in
    (exists i, (i < n)%nat /\ Rabs (lo i - hi i) > 1 / 100000000 + 1 / 100000 * Rabs (hi i)) \/ lo (n - 1)%nat < hi (n - 1)%nat ->
    forall r, In r (getSubdivisionDims X Ms ti level) -> r <> [].
Proof.
  intros n X Ms ti level Has Hn HM Hl Hord lo hi Hw r Hr E. subst r.
  destruct (C17_subdivision_dimensions R R_num n X Ms ti level Has Hn HM) as (_ & _ & _ & H5).
  destruct (Nat.le_gt_cases level 5) as [Hlev|Hlev]; [|apply (H5 Hlev [] Hr); auto].
  apply in_map_iff in Hr. destruct Hr as (M & E & _). pose proof (Permutation_length (orderFor_perm X Has (subdivisionDims Ms ti level) M)) as L. rewrite E in L. cbn in L.
  assert (Hne : subdivisionDims Ms ti level <> []); [|destruct (subdivisionDims Ms ti level); [congruence|discriminate]].
  unfold subdivisionDims. rewrite HM. destruct (Nat.ltb_spec 5 level); [lia|]. destruct (notClose_ok n (ivl ti)) as [N1 N2]. apply large_pos; auto.
  assert (Hbd : forall i, (i < n)%nat -> nth i (@boxDims R R_num (ivl ti)) 0 = hi i - lo i).
  { intros i Hi. unfold boxDims. rewrite (nth_map_lt _ _ _ (0, 0)) by lia. reflexivity. }
  destruct (existsb (fun i => negb (@isclose R R_num (lo i) (hi i))) (seq 0 n)) eqn:Ex.
  - apply existsb_exists in Ex. destruct Ex as (i & Hi & Hc). apply in_seq in Hi. apply Bool.negb_true_iff in Hc.
    exists i. split; [apply notClose_in; auto; lia|]. rewrite Hbd by lia. pose proof (isclose_pos _ _ Hc (Hord i ltac:(lia))). lra.
  - assert (Hall : forall i, (i < n)%nat -> @isclose R R_num (lo i) (hi i) = true).
    { intros i Hi. destruct (isclose (lo i) (hi i)) eqn:Ec; auto. exfalso. assert (existsb (fun i => negb (@isclose R R_num (lo i) (hi i))) (seq 0 n) = true); [|congruence].
      apply existsb_exists. exists i. split; [apply in_seq; lia|]. rewrite Ec. auto. }
    exists (n - 1)%nat. rewrite (notClose_last _ n Hn Hall). split; [left; auto|]. rewrite Hbd by lia. destruct Hw as [(i & Hi & Hgt)|Hw]; [|lra].
    exfalso. specialize (Hall i Hi). unfold isclose in Hall. rewrite !nlit_R in Hall. rnum. apply Rleb_true in Hall. simpl IZR in Hall. lra.
Qed.
Print Assumptions C17_some_dimension_is_split.
Example C17_width_case : let ti := @newInterval R R_num (repeat (-1, 1) 2) in let lo := fun i => fst (nth i (ivl ti) (0, 0)) in let hi := fun i => snd (nth i (ivl ti) (0, 0)) in
  (forall i, (i < 2)%nat -> lo i <= hi i) /\ exists i, (i < 2)%nat /\ Rabs (lo i - hi i) > 1 / 100000000 + 1 / 100000 * Rabs (hi i).
Proof.
  cbv zeta. cbn [newInterval ivl repeat]. split.
  - intros [|[|i]] Hi; cbn; try lra; lia.
  - exists 0%nat. split; auto. cbn. rewrite Rabs_R1, Rabs_left; lra.
Qed.

(** ** C56 *)
(** The boxes are split in the iteration order of a Python set, the polynomials in a sorted order.
    [pySet] is CPython's set of small ints (hash table of 8 slots, linear then perturbed probing,
    growth at 3/5 load); up to 8 dimensions its order is the sorted one. *)
Theorem C56_set_order_up_to_eight :
  forall (n : nat) (l : list nat), (n <= 8)%nat -> Forall (fun d => (d < n)%nat) l ->
    StronglySorted lt (pySet l) /\ forall d, In d (pySet l) <-> In d l.
Proof. intros n l Hn Hl. exact (pySet_ok n Hn l Hl). Qed.
Print Assumptions C56_set_order_up_to_eight.
Example C56_case : pySet [7; 2; 0; 5]%nat = [0; 2; 5; 7]%nat /\ Forall (fun d => (d < 8)%nat) [7; 2; 0; 5]%nat.
Proof. split; [reflexivity|repeat constructor; lia]. Qed.

(** In 9 dimensions the claim "the j-th polynomials belong to the j-th box" is false: nine copies of
    the polynomial T_1(x_1), stored with shape 1x3x1x1x1x1x1x1x3. *)
Definition nineQ : tensor Q := mkT [1;3;1;1;1;1;1;1;3]%nat [0; 0; 0; 1; 0; 0; 0; 0; 0]%Q.
Lemma nine_eval x : length x = 9%nat -> cheb_eval (tmap Q2R nineQ) x = nth 1 x 0.
Proof.
  intros Hx. do 9 (destruct x as [|? x]; [discriminate|]). destruct x; [|discriminate].
  unfold cheb_eval, tget, tmap, nineQ. cbn [shp dat map indices flat_map seq app Rsum fold_right basis ravel_index prodn Nat.mul Nat.add nth].
  rewrite !chebT_0, !chebT_1. unfold Q2R. cbn [Qnum Qden]. lra.
Qed.
Definition nineRun := @getSubdivisionIntervals Q Q_num (@ext1 Q Q_num) false (repeat nineQ 9) (repeat 0%Q 9) (@newInterval Q Q_num (repeat (-1#1, 1#1)%Q 9)) 0.
Definition nineBad : tensor Q := mkT [1;3;1;1;1;1;1;1;3]%nat [(-9605444524018953 # 20000000000000000); 0; 0; (10394555475981047 # 20000000000000000); 0; 0; 0; 0; 0]%Q.
Lemma nine_bad : exists ch c, nineRun = Ok ch /\ In c ch /\ nth 0 (fst (fst c)) (mkT [] []) = nineBad /\ nth 0 (snd (fst c)) 0%Q = (3 # 2251799813685248)%Q /\
  length (ivl (snd c)) = 9%nat /\ nth 1 (ivl (snd c)) (0, 0)%Q = (394555475981047 # 10000000000000000, 1)%Q.
Proof.
  eexists. eexists. split; [vm_compute; reflexivity|]. split; [right; left; reflexivity|]. repeat split; vm_compute; reflexivity.
Qed.
Theorem C56_children_in_nine_dimensions_refuted :
  exists (Ms : list (tensor R)) (errors : list R) (X : ext R) (fs : nat -> list R -> R) (ch : children) (Ms' : list (tensor R)) (errors' : list R) (t' : tint R) (y : list R),
    let ti := @newInterval R R_num (repeat (-1, 1) 9) in
    argsort_ok (xargsort X) /\ xset X = pySet /\ squareSystem 9 Ms errors /\ Forall (all_covered false) Ms /\
    (forall i x, (i < 9)%nat -> in_cube 9 x -> fs i x = cheb_eval (nth i Ms noT) x) /\
    @getSubdivisionIntervals R R_num X false Ms errors ti 0 = Ok ch /\ In (Ms', errors', t') ch /\ in_cube 9 y /\
    Rabs (fs 0%nat (zoomOut (ivl t') y) - cheb_eval (nth 0 Ms' noT) y) > nth 0 errors' 0 + 9 / 10.
Proof.
  destruct nine_bad as (ch & [[Ms' es'] t'] & E & Hin & E1 & E2 & E3 & E4). cbn [fst snd] in *.
  exists (map (tmap Q2R) (repeat nineQ 9)), (map Q2R (repeat 0%Q 9)), (@ext1 R R_num), (fun _ x => nth 1 x 0), (map (hchild (h := Q2R)) ch).
  exists (map (tmap Q2R) Ms'), (map Q2R es'), (ht (h := Q2R) t'), (repeat 0 9). cbv zeta. split; [apply isort_ok|]. split; [reflexivity|]. split; [|split; [|split; [|split; [|split; [|split]]]]].
  - rewrite !map_repeat. split; [lia|]. split; [apply repeat_length|]. split; [apply repeat_length|]. apply Forall_forall. intros M HM. apply repeat_spec in HM. subst. split; [split; [reflexivity|]|reflexivity]. repeat constructor.
  - rewrite map_repeat. apply Forall_forall. intros M HM. apply repeat_spec in HM. subst. repeat constructor; cbn; lia.
  - intros i x Hi [Hx _]. rewrite map_repeat. rewrite (nth_indep _ _ (tmap Q2R nineQ)) by (rewrite repeat_length; auto). rewrite nth_repeat. symmetry. apply nine_eval. auto.
  - rewrite <- start_ht. rewrite <- (h_children (NA := Q_num) (h := Q2R) _ _ ext1_hom). fold nineRun. rewrite E. reflexivity.
  - apply (in_map (hchild (h := Q2R))) in Hin. exact Hin.
  - split; [reflexivity|]. repeat constructor; lra.
  - assert (N1 : nth 0 (map (tmap Q2R) Ms') noT = tmap Q2R nineBad) by (rewrite <- E1; change noT with (tmap Q2R (mkT [] [])); apply map_nth).
    assert (N2 : nth 0 (map Q2R es') 0 = Q2R (3 # 2251799813685248)) by (rewrite <- E2; replace 0 with (Q2R 0) by (unfold Q2R; cbn; lra); apply map_nth).
    assert (N3 : nth 1 (zoomOut (ivl (ht (h := Q2R) t')) (repeat 0 9)) 0 = (Q2R (394555475981047 # 10000000000000000) + 1) / 2).
    { unfold zoomOut. cbn [ht ivl]. rewrite (nth_map_combine _ _ _ _ (0,0) 0) by (rewrite ?map_length, ?repeat_length; lia). rewrite nth_repeat. cbn [fst snd].
      assert (N4 : nth 1 (map (h2 (h := Q2R)) (ivl t')) (0, 0) = h2 (h := Q2R) (394555475981047 # 10000000000000000, 1)%Q).
      { rewrite <- E4. rewrite (nth_indep _ _ (h2 (h := Q2R) (0, 0)%Q)) by (rewrite map_length; lia). apply map_nth. }
      rewrite N4. unfold h2. cbn [fst snd]. unfold Q2R. cbn [Qnum Qden]. lra. }
    rewrite N1, N2, N3.
    unfold cheb_eval, tget, tmap, nineBad. cbn [shp dat map indices flat_map seq app Rsum fold_right basis ravel_index prodn Nat.mul Nat.add nth repeat].
    rewrite !chebT_0, !chebT_1. unfold Q2R. cbn [Qnum Qden]. rewrite Rabs_pos_eq; lra.
Qed.
Print Assumptions C56_children_in_nine_dimensions_refuted.

(** ** C57 *)
(** A box that has collapsed to a point is not split but makes the subdivision fail, in two or more
    dimensions and at depth at most 5 (IndexError in getInverseOrder: there is no dimension left). *)
Theorem C57_subdividing_a_point_raises :
  forall (n : nat) (X : ext R) (exact : bool) (Ms : list (tensor R)) (errors : list R) (ti : tint R) (level : nat),
    argsort_ok (xargsort X) -> set_ok n (xset X) -> (2 <= n)%nat -> squareSystem n Ms errors -> (level <= 5)%nat ->
    (forall p, In p (ivl ti) -> fst p = snd p) -> length (ivl ti) = n ->
    getSubdivisionIntervals X exact Ms errors ti level = Raise.
Proof.
  intros n X exact Ms errors ti level Has Hset Hn (Hn0 & HM & He & HF) Hlev Hp Hl.
  assert (HF' : Forall (fun M => ndim M = n) Ms) by (eapply Forall_impl; [|exact HF]; cbv beta; tauto).
  pose proof (children_spec X n Has Hset exact Ms errors ti level Hn0 HM He HF') as E. cbv zeta in E. rewrite E.
  assert (Hz : forall i, (i < n)%nat -> fst (nth i (ivl ti) (0, 0)) = snd (nth i (ivl ti) (0, 0))) by (intros i Hi; apply Hp, nth_In; lia).
  assert (D : subdivisionDims Ms ti level = []).
  { unfold subdivisionDims. rewrite HM. destruct (Nat.ltb_spec 5 level); [lia|]. rewrite notClose_last; auto.
    - unfold dimsLarge. cbv zeta. cbn [map nmaxl fold_left filter].
      assert (W : nth (n - 1) (@boxDims R R_num (ivl ti)) (@n0 R R_num) = 0).
      { unfold boxDims. rewrite (nth_map_lt _ _ _ (0, 0)) by lia. rnum. rewrite Hz by lia. lra. }
      rewrite W. unfold ngtb. rewrite nlit_R. cbn [nltb ndiv R_num]. assert (B : Rltb (0 / (IZR 5 / IZR (Z.pos 1))) 0 = false) by (apply Rltb_false; simpl IZR; lra).
      rewrite B. reflexivity.
    - intros i Hi. unfold isclose. rewrite !nlit_R. rnum. rewrite Hz by auto. apply Rleb_true. rewrite Rminus_diag_eq, Rabs_R0 by auto. pose proof (Rabs_pos (snd (nth i (ivl ti) (0, 0)))). simpl IZR. lra. }
  rewrite D. cbn [length Nat.eqb andb]. destruct (Nat.eqb_spec n 1); [lia|]. reflexivity.
Qed.
Print Assumptions C57_subdividing_a_point_raises.
(** The solver gets there: x - c, y - c with c = 1 + 2^-51 zooms to the corner (1, 1), with constant_check
    switched off (exact rational arithmetic; the decomposition is the right one for the two matrices asked for, I and 0). *)
Definition svdDiag (A : list (list Q)) : list (list Q) * list Q * list (list Q) :=
  let I2 := [[1; 0]; [0; 1]]%Q in (I2, if Qeq_bool (nth 0 (nth 0 A []) 0%Q) 0 then [0; 0]%Q else [1; 1]%Q, I2).
Example C57_solver_case : let c := (1 + (1 # 2251799813685248))%Q in
  @solveChebyshevSubdivision Q Q_num (@extWith Q Q_num svdDiag) 5 (defaultOpts false false false false) [mkT [2;1]%nat [-c; 1]%Q; mkT [1;2]%nat [-c; 1]%Q] [0; 0]%Q = Raise.
Proof. vm_compute. reflexivity. Qed.
Example C57_case : squareSystem 2 MsR [0; 0] /\ let ti := @newInterval R R_num [(1, 1); (-1, -1)] in
  (forall p, In p (ivl ti) -> fst p = snd p) /\ length (ivl ti) = 2%nat.
Proof.
  split; [|cbv zeta; split; [|reflexivity]].
  - split; [lia|]. split; auto. split; auto. repeat constructor; cbn; lia.
  - intros p [<-|[<-|[]]]; reflexivity.
Qed.
