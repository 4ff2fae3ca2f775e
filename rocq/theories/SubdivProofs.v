(** * Subdivision: dimensions, pairing of polynomials and boxes (any arithmetic) *)
From Coq Require Import List Arith Bool Lia ZArith Sorted Permutation.
From Verif Require Import Num Tensor TransformModel IntervalModel LinearModel QuadModel SolverModel OrderProofs.
Import ListNotations.

Section G.
  Context {T : Type} {NT : Num T}.
  Variables (X : ext T) (n : nat).
  Hypothesis Has : argsort_ok (xargsort X).
  Hypothesis Hset : set_ok n (xset X).

  (** ** getSubdivisionDims *)
  Definition dims_ok (l : list nat) : Prop := StronglySorted lt l /\ Forall (fun i => i < n) l.
  Lemma dims_filter f l : dims_ok l -> dims_ok (filter f l).
  Proof.
    intros [H1 H2]. split; [apply sorted_filter; auto|]. rewrite Forall_forall in *. intros x Hx. apply filter_In in Hx. apply H2, Hx.
  Qed.
  Lemma delVal_len l i : StronglySorted lt l -> length l <= S (length (delVal l i)).
  Proof.
    unfold delVal. induction 1 as [|a l Hl IH Ha]; cbn; [lia|]. destruct (Nat.eqb_spec a i); cbn; [|lia]. subst.
    assert (E : filter (fun j => negb (j =? i)) l = l).
    { clear IH Hl. induction Ha; cbn; auto. destruct (Nat.eqb_spec x i); [lia|]. cbn. f_equal. auto. }
    rewrite E. auto.
  Qed.
  Lemma notClose_ok (iv : box T) : dims_ok (dimsNotClose iv n) /\ (0 < n -> dimsNotClose iv n <> []).
  Proof.
    unfold dimsNotClose. assert (H : dims_ok (seq 0 n) /\ (0 < n -> seq 0 n <> [])).
    { split; [split; [apply sorted_seq|apply Forall_forall; intros x Hx; apply in_seq in Hx; lia]|]. intros Hn E. apply (f_equal (@length nat)) in E. rewrite seq_length in E. cbn in E. lia. }
    destruct H as [H1 H2]. revert H1 H2. generalize (seq 0 n) at 1 2 4 6. generalize (seq 0 n). intros l. induction l as [|i l IH]; intros dims H1 H2; auto.
    cbn [fold_left]. apply IH; destruct (isclose _ _); auto; destruct (Nat.eqb_spec (length dims) 1); auto; [apply dims_filter; auto|].
    intros Hn E. apply (f_equal (@length nat)) in E. cbn in E. pose proof (delVal_len dims i (proj1 H1)). specialize (H2 Hn). destruct dims; cbn in *; [congruence|]. unfold delVal in *. lia.
  Qed.
  Lemma fold_del_ok (P : nat -> bool) l : forall dims, dims_ok dims -> dims <> [] ->
    dims_ok (fold_left (fun ds i => if (1 <? length ds) && P i then delVal ds i else ds) l dims) /\
    fold_left (fun ds i => if (1 <? length ds) && P i then delVal ds i else ds) l dims <> [].
  Proof.
    induction l as [|i l IH]; intros dims H1 H2; cbn [fold_left]; auto.
    destruct (Nat.ltb_spec 1 (length dims)); cbn [andb]; auto. destruct (P i); auto. apply IH; [apply dims_filter; auto|].
    pose proof (delVal_len dims i (proj1 H1)). intros E. rewrite E in H0. cbn in H0. lia.
  Qed.
  Lemma large_ok Ms (iv : box T) dims : dims_ok dims -> dims_ok (dimsLarge Ms iv n dims).
  Proof.
    intros H. unfold dimsLarge. cbv zeta. set (ds := filter _ dims). assert (Hd : dims_ok ds) by (apply dims_filter; auto).
    destruct (Nat.ltb_spec 1 (length ds)); auto. apply fold_del_ok; auto. intros E. rewrite E in H0. cbn in H0. lia.
  Qed.
  Lemma large_nonempty Ms (iv : box T) dims : dims_ok dims ->
    filter (fun i => ngtb (nth i (boxDims iv) n0)
       (match map (fun i => nth i (boxDims iv) n0) dims with [] => n0 | x :: r => nmaxl x r end / nlit 5%Z 1%positive)%num) dims <> [] ->
    dimsLarge Ms iv n dims <> [].
  Proof.
    intros H H0. unfold dimsLarge. cbv zeta. set (ds := filter _ dims) in *. assert (Hd : dims_ok ds) by (apply dims_filter; auto).
    destruct (Nat.ltb_spec 1 (length ds)); auto. apply fold_del_ok; auto.
  Qed.
  Lemma subdims_ok Ms (ti : tint T) level : length Ms = n -> dims_ok (subdivisionDims Ms ti level).
  Proof.
    intros Hl. unfold subdivisionDims. rewrite Hl. pose proof (proj1 (notClose_ok (ivl ti))) as H. destruct (5 <? level); auto. apply large_ok; auto.
  Qed.
  Lemma orderFor_perm dims M : Permutation (orderFor X dims M) dims.
  Proof.
    unfold orderFor. set (l := map (fun d => nth d (shp M) 0) dims). destruct (Has l) as [H _].
    apply Permutation_trans with (map (fun k => nth k dims 0) (seq 0 (length dims))).
    - apply Permutation_map. apply Permutation_trans with (xargsort X l); [apply Permutation_sym, Permutation_rev|]. unfold l in H at 2. rewrite map_length in H. auto.
    - replace (map (fun k => nth k dims 0) (seq 0 (length dims))) with dims; auto.
      apply nth_ext with 0 0; [rewrite map_length, seq_length; auto|]. intros i Hi. rewrite (nth_map_lt _ _ _ 0) by (rewrite seq_length; auto). rewrite seq_nth by auto. reflexivity.
  Qed.
  Lemma dimset_eq dims Ms : dims_ok dims -> Ms <> [] -> xset X (concat (map (orderFor X dims) Ms)) = dims.
  Proof.
    intros [H1 H2] Hm.
    assert (Hin : forall i, In i (concat (map (orderFor X dims) Ms)) <-> In i dims).
    { intros i. rewrite in_concat. split.
      - intros (l & Hl & Hi). apply in_map_iff in Hl. destruct Hl as (M & <- & _). apply (Permutation_in _ (orderFor_perm dims M)). auto.
      - intros Hi. destruct Ms as [|M Ms]; [congruence|]. exists (orderFor X dims M). split; [left; auto|]. apply (Permutation_in _ (Permutation_sym (orderFor_perm dims M))). auto. }
    destruct (Hset (concat (map (orderFor X dims) Ms))) as [S1 S2].
    { apply Forall_forall. intros i Hi. apply Hin in Hi. rewrite Forall_forall in H2. auto. }
    apply sorted_lt_ext; auto. intros i. rewrite S2. auto.
  Qed.

  (** ** sub-polynomials *)
  Section Poly.
    Variables (exact : bool) (npt : list T).
    (** the (alpha,beta) used along dimension d for the lower (0) and the upper (1) half *)
    Definition sidePair (b d : nat) : T * T :=
      let m := nth d npt n0 in
      if b =? 0 then (((m + n1) / n2)%num, ((m - n1) / n2)%num) else ((- ((m - n1) / n2))%num, ((m + n1) / n2)%num).
    Definition sideP (b d : nat) (p : tensor T * T) : tensor T * T :=
      (chebTransform1D (fst p) (fst (sidePair b d)) (snd (sidePair b d)) d exact, (getTransformationError (fst p) d + snd p)%num).
    Fixpoint polyAt (o bs : list nat) (p : tensor T * T) : tensor T * T :=
      match o, bs with d :: o', b :: bs' => polyAt o' bs' (sideP b d p) | _, _ => p end.
    Lemma flat_map_flat_map {A B C} (f : A -> list B) (g : B -> list C) l : flat_map g (flat_map f l) = flat_map (fun a => flat_map g (f a)) l.
    Proof. induction l; cbn; auto. rewrite flat_map_app, IHl. auto. Qed.
    Lemma split_fold o : forall cur, fold_left (splitAxis exact npt) o cur = flat_map (fun p => map (fun bs => polyAt o bs p) (bitLists (length o))) cur.
    Proof.
      induction o as [|d o IH]; intros cur; cbn [fold_left length bitLists map].
      - cbn. induction cur; cbn; auto. f_equal. auto.
      - rewrite IH. unfold splitAxis. rewrite flat_map_flat_map. apply flat_map_ext. intros [M E]. cbn [flat_map].
        rewrite map_app, !map_map, app_nil_r. reflexivity.
    Qed.
    Lemma splitPoly_spec M e order dims : Permutation order dims -> StronglySorted lt dims -> (ndim M = 1 -> length dims <= 1) ->
      splitPoly X exact npt M e order = map (fun bs => polyAt order (map (bitOf dims bs) order) (M, e)) (bitLists (length dims)).
    Proof.
      intros Hp Hs H1. unfold splitPoly. rewrite split_fold. cbn [flat_map]. rewrite app_nil_r. rewrite <- (Permutation_length Hp).
      destruct (Nat.eqb_spec (ndim M) 1) as [E|E].
      - specialize (H1 E). apply map_ext_in. intros bs Hb. apply in_bitLists in Hb. f_equal.
        assert (order = dims) as -> by (destruct dims as [|a [|b dims]]; [apply Permutation_nil, Permutation_sym; auto|apply Permutation_length_1_inv, Permutation_sym; auto|cbn in H1; lia]).
        rewrite bitOf_map; auto; [apply sorted_lt_NoDup; auto|apply Hb].
      - apply (reorder_spec (xargsort X) Has order dims Hp Hs X (fun bs => polyAt order bs (M, e)) (M, e) eq_refl).
    Qed.

    (** ** sub-boxes *)
    Definition sideRow (b d : nat) : T * T := if b =? 0 then ((- n1)%num, nth d npt n0) else (nth d npt n0, n1).
    Definition sideI (b d : nat) (t : tint T) : tint T :=
      let t1 := addTransform (copyT t) (upd (unitRows (length (ivl t))) d (sideRow b d)) in
      setNext t1 (upd (npts t1) d n0).
    Fixpoint intAt (dims bs : list nat) (t : tint T) : tint T :=
      match dims, bs with d :: o', b :: bs' => intAt o' bs' (sideI b d t) | _, _ => t end.
    Lemma int_fold o : forall cur, fold_left (splitInterval npt) o cur = flat_map (fun p => map (fun bs => intAt o bs p) (bitLists (length o))) cur.
    Proof.
      induction o as [|d o IH]; intros cur; cbn [fold_left length bitLists map].
      - cbn. induction cur; cbn; auto. f_equal. auto.
      - rewrite IH. unfold splitInterval. rewrite flat_map_flat_map. apply flat_map_ext. intros t. cbn [flat_map].
        rewrite map_app, !map_map, app_nil_r. reflexivity.
    Qed.
  End Poly.

  (** ** the children *)
  Definition childAt (exact : bool) (Ms : list (tensor T)) (errors : list T) (ti : tint T) (dims bs : list nat) : list (tensor T) * list T * tint T :=
    let ps := map (fun p => polyAt exact (npts ti) (orderFor X dims (fst p)) (map (bitOf dims bs) (orderFor X dims (fst p))) p) (combine Ms errors) in
    (map fst ps, map snd ps, intAt (npts ti) dims bs ti).
  Lemma combine_map_r {A B C} (f : A -> C) (l : list A) (m : list B) : length l = length m -> combine (combine l m) (map f l) = map (fun p => (p, f (fst p))) (combine l m).
  Proof. revert m; induction l; intros [|b m] H; cbn in *; auto; try lia. f_equal. apply IHl. lia. Qed.
  Theorem children_spec exact Ms errors ti level : 0 < n -> length Ms = n -> length errors = n -> Forall (fun M => ndim M = n) Ms ->
    let dims := subdivisionDims Ms ti level in
    getSubdivisionIntervals X exact Ms errors ti level =
      if (length dims =? 0) && negb (n =? 1) then Raise
      else Ok (map (childAt exact Ms errors ti dims) (bitLists (length dims))).
  Proof.
    intros Hn Hl He HM dims. pose proof (subdims_ok Ms ti level Hl) as Hd. fold dims in Hd.
    unfold getSubdivisionIntervals, getSubdivisionDims. fold dims. cbv zeta.
    assert (HMne : Ms <> []) by (destruct Ms; cbn in Hl; [lia|discriminate]).
    rewrite dimset_eq by auto.
    assert (Hw : length (nth 0 (map (orderFor X dims) Ms) []) = length dims).
    { rewrite (nth_map_lt _ _ _ (mkT [] [])) by lia. apply Permutation_length, orderFor_perm. }
    rewrite Hw, Nat.eqb_refl, Hl. cbn [negb]. destruct (_ && _); auto. f_equal.
    rewrite int_fold. cbn [flat_map]. rewrite app_nil_r. rewrite combine_map_r by lia. rewrite map_map.
    assert (E : map (fun p : tensor T * T => let '(M, e, o) := (p, orderFor X dims (fst p)) in splitPoly X exact (npts ti) M e o) (combine Ms errors)
       = map (fun p => map (fun bs => polyAt exact (npts ti) (orderFor X dims (fst p)) (map (bitOf dims bs) (orderFor X dims (fst p))) p) (bitLists (length dims))) (combine Ms errors)).
    { apply map_ext_in. intros [M e] Hp. cbn [fst]. apply splitPoly_spec; [apply orderFor_perm|apply Hd|].
      apply in_combine_l in Hp. rewrite Forall_forall in HM. rewrite (HM _ Hp). intros E1.
      destruct Hd as [Hs Hf]. rewrite E1 in Hf. destruct dims as [|a [|b r]]; cbn; auto. exfalso. apply StronglySorted_inv in Hs. destruct Hs as [_ Hs]. rewrite !Forall_cons_iff in Hf. rewrite Forall_cons_iff in Hs. lia. }
    rewrite E. unfold transposed.
    assert (Hlen : length (nth 0 (map (fun p => map (fun bs => polyAt exact (npts ti) (orderFor X dims (fst p)) (map (bitOf dims bs) (orderFor X dims (fst p))) p) (bitLists (length dims))) (combine Ms errors)) []) = 2 ^ length dims).
    { rewrite (nth_map_lt _ _ _ (mkT [] [], n0)) by (rewrite combine_length; lia). rewrite map_length. apply bitLists_length. }
    rewrite Hlen.
    apply nth_ext with ([], [], ti) (childAt exact Ms errors ti dims []).
    - rewrite !map_length, combine_length, !map_length, seq_length, bitLists_length. lia.
    - rewrite map_length, combine_length, !map_length, seq_length, bitLists_length. intros j Hj. assert (Hj' : j < 2 ^ length dims) by lia.
      rewrite (nth_map_lt _ _ _ ([], ti)) by (rewrite combine_length, !map_length, seq_length, bitLists_length; lia).
      rewrite (nth_map_lt _ _ _ []) by (rewrite bitLists_length; auto).
      rewrite combine_nth by (rewrite !map_length, seq_length, bitLists_length; auto). cbn [fst snd].
      rewrite (nth_map_lt _ (seq _ _) _ 0) by (rewrite seq_length; auto). rewrite seq_nth by auto. cbn [Nat.add].
      rewrite (nth_map_lt _ (bitLists _) _ []) by (rewrite bitLists_length; auto).
      unfold childAt. rewrite !map_map.
      assert (EE : map (fun x : tensor T * T => nth j (map (fun bs => polyAt exact (npts ti) (orderFor X dims (fst x)) (map (bitOf dims bs) (orderFor X dims (fst x))) x) (bitLists (length dims))) (mkT [] [], n0)) (combine Ms errors)
         = map (fun p => polyAt exact (npts ti) (orderFor X dims (fst p)) (map (bitOf dims (nth j (bitLists (length dims)) [])) (orderFor X dims (fst p))) p) (combine Ms errors)).
      { apply map_ext. intros p. rewrite (nth_map_lt _ _ _ []) by (rewrite bitLists_length; auto). reflexivity. }
      f_equal. f_equal.
      + apply (f_equal (map fst)) in EE. rewrite !map_map in EE. exact EE.
      + apply (f_equal (map snd)) in EE. rewrite !map_map in EE. exact EE.
  Qed.
End G.
