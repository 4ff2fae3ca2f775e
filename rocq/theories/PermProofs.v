(** * Lemmas about the permutation arrays *)
From Coq Require Import List Arith Bool Lia Permutation.
From Verif Require Import Num Tensor TermModel TermProofs LinAlgModel LinAlgProofs2 PermModel.
Import ListNotations.

(** ** The columns of a Macaulay matrix: higher degree first, and lexicographically larger first *)
Fixpoint incrAt (i : nat) (v : list nat) : list nat :=
  match v, i with [], _ => [] | x :: v', O => S x :: v' | x :: v', S i' => x :: incrAt i' v' end.
Definition divb (i : nat) (v : list nat) : bool := 0 <? nth i v 0.
Fixpoint cols (k : nat) : nat -> list (list nat) :=
  match k with
  | O => fun d => match d with O => [[]] | S _ => [] end
  | S k' => fix colsd (d : nat) : list (list nat) :=
      match d with O => [repeat 0 (S k')] | S d' => map (incrAt 0) (colsd d') ++ map (cons 0) (cols k' (S d')) end
  end.
Fixpoint colsAll (k D : nat) : list (list nat) := match D with O => cols k 0 | S D' => cols k (S D') ++ colsAll k D' end.
Lemma cols_SS k d : cols (S k) (S d) = map (incrAt 0) (cols (S k) d) ++ map (cons 0) (cols k (S d)).
Proof. reflexivity. Qed.
Lemma cols_0 k : cols k 0 = [repeat 0 k].
Proof. destruct k; reflexivity. Qed.
Lemma enumEq_0 k : 1 <= k -> enum leafEq k 0 = [repeat 0 k].
Proof. destruct k as [|[|k]]; intros; [lia|reflexivity|reflexivity]. Qed.
Lemma enumEq_SS k d : 1 <= k -> enum leafEq (S k) (S d) = map (cons 0) (enum leafEq k (S d)) ++ map (incrAt 0) (enum leafEq (S k) d).
Proof.
  intros Hk. rewrite (enum_unfold _ _ (S d)) by auto. cbn [Nat.eqb].
  replace (S d + 1) with (S (d + 1)) by lia. cbn [seq flat_map Nat.sub]. f_equal.
  rewrite <- seq_shift. rewrite flat_map_concat_map, map_map.
  assert (E : enum leafEq (S k) d = flat_map (fun i => map (cons i) (enum leafEq k (d - i))) (seq 0 (d + 1))).
  { rewrite enum_unfold by auto. destruct (Nat.eqb_spec d 0); [|reflexivity]. subst d. cbn. rewrite enumEq_0 by auto. reflexivity. }
  rewrite E, flat_map_concat_map, concat_map, map_map. f_equal. apply map_ext. intros i. rewrite map_map. reflexivity.
Qed.
Lemma cols_enum k : 1 <= k -> forall d, rev (enum leafEq k d) = cols k d.
Proof.
  induction k as [|k IHk]; [lia|]. intros _. destruct k as [|k].
  - intros d. cbn [enum leafEq map rev app]. induction d; [reflexivity|]. rewrite cols_SS, <- IHd. reflexivity.
  - induction d.
    + rewrite enumEq_0, cols_0 by lia. reflexivity.
    + rewrite enumEq_SS, rev_app_distr, <- !map_rev, IHd, (IHk ltac:(lia)), <- cols_SS by lia. reflexivity.
Qed.
Lemma cols_In k d v : In v (cols k d) <-> length v = k /\ list_sum v = d.
Proof.
  destruct k as [|k].
  - destruct d; cbn; split; try tauto; intros H.
    + destruct H as [<-|[]]; auto.
    + destruct H as [H _]. destruct v; [auto|discriminate].
    + destruct H as [H H2]. destruct v; [discriminate|discriminate].
  - rewrite <- cols_enum, <- in_rev, enumEq_In by lia. tauto.
Qed.
Lemma colsAll_In k D v : In v (colsAll k D) <-> length v = k /\ list_sum v <= D.
Proof.
  induction D; cbn [colsAll].
  - rewrite cols_In. intuition lia.
  - rewrite in_app_iff, IHD, cols_In. intuition lia.
Qed.
Lemma cols_length k d : length (cols (S k) d) = num_mons d (S k).
Proof.
  rewrite <- cols_enum, rev_length, enumEq_length by lia. unfold num_mons. replace (d + S k) with (S (d + k)) by lia.
  rewrite comb_sym. reflexivity.
Qed.
Lemma cols_length' k d : 1 <= d -> length (cols k d) = num_mons d k.
Proof.
  destruct k; [|intros; apply cols_length]. destruct d; [lia|]. intros _. cbn [cols length]. unfold num_mons. replace (S d + 0) with (S d) by lia.
  rewrite comb_gt; lia.
Qed.
Lemma colsAll_ordered k D : 1 <= k -> option_map (@rev _) (mons_ordered k D) = Some (colsAll k D).
Proof.
  intros Hk. unfold mons_ordered.
  assert (E : forall n s, mons_ordered_from k (seq s n) = Some (flat_map (enum leafEq k) (seq s n))).
  { induction n; intros s; [reflexivity|]. cbn [seq mons_ordered_from flat_map]. rewrite mon_combosHighest_zeros, IHn by auto. reflexivity. }
  rewrite E. cbn [option_map]. f_equal. induction D.
  - cbn. rewrite app_nil_r. apply cols_enum; auto.
  - replace (S D + 1) with (S (D + 1)) by lia. rewrite seq_S, flat_map_app, rev_app_distr, IHD. cbn [flat_map colsAll].
    rewrite app_nil_r, cols_enum by auto. do 2 f_equal. lia.
Qed.
Lemma NoDup_colsAll k D : 1 <= k -> NoDup (colsAll k D).
Proof.
  intros Hk. assert (C : forall d, NoDup (cols k d)).
  { intros d. rewrite <- cols_enum by auto. apply NoDup_rev, enum_NoDup, leafEq_sorted. }
  induction D; cbn [colsAll]; [apply C|].
  assert (G : forall l l' : list (list nat), NoDup l -> NoDup l' -> (forall x, In x l -> ~ In x l') -> NoDup (l ++ l')).
  { clear. induction l; intros l' N N' H; [auto|]. inversion N; subst. cbn. constructor.
    - rewrite in_app_iff. intros [?|?]; [auto|]. apply (H a); [left; auto|auto].
    - apply IHl; auto. intros x Hx. apply H; right; auto. }
  apply G; auto. intros x Hx Hx'. apply cols_In in Hx. apply colsAll_In in Hx'. lia.
Qed.

(** ** Which columns are divisible by a variable *)
Lemma divb_incr0_other i v : divb (S i) (incrAt 0 v) = divb (S i) v.
Proof. destruct v; reflexivity. Qed.
Lemma divb_incr0 v : 1 <= length v -> divb 0 (incrAt 0 v) = true.
Proof. destruct v; [cbn; lia|reflexivity]. Qed.
Lemma divb_cons0 i v : divb (S i) (0 :: v) = divb i v.
Proof. reflexivity. Qed.
Lemma filter_map {A B} (f : A -> B) p l : filter p (map f l) = map f (filter (fun x => p (f x)) l).
Proof. induction l; [reflexivity|]. cbn. destruct (p (f a)); cbn; rewrite IHl; reflexivity. Qed.
Lemma filter_true {A} (p : A -> bool) l : (forall x, In x l -> p x = true) -> filter p l = l.
Proof. induction l; intros H; [reflexivity|]. cbn. rewrite (H a) by (left; auto). f_equal. apply IHl. intros; apply H; right; auto. Qed.
Lemma filter_false {A} (p : A -> bool) l : (forall x, In x l -> p x = false) -> filter p l = [].
Proof. induction l; intros H; [reflexivity|]. cbn. rewrite (H a) by (left; auto). apply IHl. intros; apply H; right; auto. Qed.
Lemma filter_ext_in' {A} (p q : A -> bool) l : (forall x, In x l -> p x = q x) -> filter p l = filter q l.
Proof. induction l; intros H; [reflexivity|]. cbn. rewrite (H a) by (left; auto). rewrite IHl by (intros; apply H; right; auto). reflexivity. Qed.
Lemma incrAt_length i v : length (incrAt i v) = length v.
Proof. revert i; induction v; intros [|i]; cbn; auto. Qed.
Lemma incrAt_comm i v : incrAt (S i) (incrAt 0 v) = incrAt 0 (incrAt (S i) v).
Proof. destruct v; reflexivity. Qed.
Lemma divb_repeat i k : divb i (repeat 0 k) = false.
Proof. unfold divb. revert i; induction k; intros [|i]; cbn; auto. apply IHk. Qed.
Lemma filter_cols_0 k i : filter (divb i) (cols k 0) = [].
Proof. rewrite cols_0. cbn [filter]. rewrite divb_repeat. reflexivity. Qed.
Lemma filter_cols k : forall i d, i < k -> filter (divb i) (cols k (S d)) = map (incrAt i) (cols k d).
Proof.
  induction k as [|k IHk]; intros i d Hi; [lia|]. destruct i as [|i].
  - rewrite cols_SS, filter_app, (filter_true _ (map (incrAt 0) _)), (filter_false _ (map (cons 0) _)), app_nil_r; auto.
    + intros x Hx. apply in_map_iff in Hx as [y [<- _]]. reflexivity.
    + intros x Hx. apply in_map_iff in Hx as [y [<- Hy]]. apply divb_incr0. apply cols_In in Hy. lia.
  - revert i Hi. induction d; intros i Hi.
    + rewrite cols_SS, filter_app, !filter_map, (filter_ext_in' (fun x => divb (S i) (0 :: x)) (divb i)), (IHk i 0) by (try lia; auto).
      rewrite !cols_0. cbn [filter map]. rewrite divb_incr0_other, divb_repeat. cbn. reflexivity.
    + rewrite cols_SS, filter_app, !filter_map, (filter_ext_in' (fun x => divb (S i) (incrAt 0 x)) (divb (S i))), IHd by (auto; intros; apply divb_incr0_other).
      rewrite (filter_ext_in' (fun x => divb (S i) (0 :: x)) (divb i)), (IHk i (S d)) by (try lia; auto).
      rewrite cols_SS, map_app, !map_map. f_equal. apply map_ext. intros v. symmetry. apply incrAt_comm.
Qed.
Lemma filter_colsAll k i D : i < k -> filter (divb i) (colsAll k (S D)) = map (incrAt i) (colsAll k D).
Proof.
  intros Hi. induction D.
  - cbn [colsAll]. rewrite filter_app, filter_cols, filter_cols_0, app_nil_r by auto. reflexivity.
  - change (colsAll k (S (S D))) with (cols k (S (S D)) ++ colsAll k (S D)). rewrite filter_app, IHD, filter_cols, <- map_app by auto. reflexivity.
Qed.

(** ** arrays and the mask of permutation_array *)
Lemma map_const {A B} (f : A -> B) b l : (forall x, In x l -> f x = b) -> map f l = repeat b (length l).
Proof. induction l; intros H; [reflexivity|]. cbn. rewrite (H a) by (left; auto). f_equal. apply IHl; intros; apply H; right; auto. Qed.
Lemma mask_split k d i : map (divb (S i)) (cols (S k) (S d)) = map (divb (S i)) (cols (S k) d) ++ map (divb i) (cols k (S d)).
Proof. rewrite cols_SS, map_app, !map_map. f_equal. apply map_ext; intros; apply divb_incr0_other. Qed.
Lemma cols_1_length k : length (cols k 1) = k.
Proof. induction k; [reflexivity|]. rewrite cols_SS, app_length, !map_length, IHk, cols_0. reflexivity. Qed.
Lemma mask_deg1 k : forall i, i < k -> map (divb i) (cols k 1) = upd (repeat false k) i true.
Proof.
  induction k; intros i Hi; [lia|]. rewrite cols_SS, cols_0. destruct i as [|i].
  - cbn [map app repeat]. rewrite map_map. cbn [upd]. f_equal.
    rewrite (map_const _ false) by (intros; reflexivity). f_equal. apply cols_1_length.
  - cbn [map app repeat]. rewrite divb_incr0_other. change (0 :: repeat 0 k) with (repeat 0 (S k)). rewrite divb_repeat, map_map.
    cbn [upd]. f_equal. rewrite <- IHk by lia. reflexivity.
Qed.
Lemma arrays_f_spec fuel : forall d k m, 1 <= d -> m < k -> d + k < fuel -> arrays_f fuel d k m = Some (map (divb (k - 1 - m)) (cols k d)).
Proof.
  induction fuel as [|fuel IH]; intros d k m Hd Hm Hf; [lia|]. cbn [arrays_f].
  destruct (Nat.leb_spec k m); [lia|]. destruct (Nat.eqb_spec (k - 1) m) as [E|E].
  - f_equal. replace (k - 1 - m) with 0 by lia. destruct k as [|k]; [lia|]. destruct d as [|d]; [lia|].
    replace (S k - 1) with k by lia. rewrite <- (cols_length k), <- (cols_length' k (S d)) by lia.
    rewrite cols_SS, app_length, !map_length, Nat.add_sub, map_app. f_equal.
    + rewrite map_map. symmetry. apply map_const. intros v Hv. apply cols_In in Hv. apply divb_incr0. lia.
    + rewrite map_map. symmetry. apply map_const. reflexivity.
  - destruct (Nat.eqb_spec d 1) as [->|Hd1].
    + f_equal. replace (k - m - 1) with (k - 1 - m) by lia. symmetry. apply mask_deg1. lia.
    + rewrite (IH (d - 1)), (IH d) by lia. f_equal. destruct k as [|k]; [lia|]. destruct d as [|d]; [lia|].
      replace (S k - 1 - m) with (S (k - 1 - m)) by lia. rewrite mask_split. replace (S d - 1) with d by lia. replace (S k - 1) with k by lia. reflexivity.
Qed.
Lemma arrays_spec d k m : 1 <= d -> m < k -> arrays d k m = Some (map (divb (k - 1 - m)) (cols k d)).
Proof. intros. apply arrays_f_spec; lia. Qed.
Lemma loopLast_spec k m n : m < k -> forall s, 1 <= s ->
  loopLast (seq s n) k m (map (divb (k - 1 - m)) (colsAll k (s - 1))) = Some (map (divb (k - 1 - m)) (colsAll k (s + n - 1))).
Proof.
  intros Hm. induction n; intros s Hs; cbn [seq loopLast]; [do 3 f_equal; lia|].
  rewrite arrays_spec, <- map_app by auto.
  assert (E : cols k s ++ colsAll k (s - 1) = colsAll k (S s - 1)).
  { replace (S s - 1) with s by lia. destruct s; [lia|]. replace (S s - 1) with s by lia. reflexivity. }
  rewrite E, IHn by lia. do 3 f_equal. lia.
Qed.
Lemma loopOther_spec k m n : m < k - 1 -> forall s, 2 <= s ->
  loopOther (seq s n) k m (map (divb (k - 1 - m)) (cols k (s - 1))) (map (divb (k - 1 - m)) (colsAll k (s - 1))) = Some (map (divb (k - 1 - m)) (colsAll k (s + n - 1))).
Proof.
  intros Hm. induction n; intros s Hs; cbn [seq loopOther]; [do 3 f_equal; lia|].
  rewrite arrays_spec by lia.
  assert (E1 : map (divb (k - 1 - m)) (cols k (s - 1)) ++ map (divb (k - 1 - 1 - m)) (cols (k - 1) s) = map (divb (k - 1 - m)) (cols k s)).
  { destruct k as [|k]; [lia|]. destruct s as [|s]; [lia|]. replace (S k - 1 - m) with (S (k - 1 - m)) by lia. replace (S k - 1 - 1 - m) with (k - 1 - m) by lia.
    rewrite mask_split. replace (S s - 1) with s by lia. replace (S k - 1) with k by lia. reflexivity. }
  rewrite E1, <- map_app.
  assert (E : cols k s ++ colsAll k (s - 1) = colsAll k (S s - 1)).
  { replace (S s - 1) with s by lia. destruct s; [lia|]. replace (S s - 1) with s by lia. reflexivity. }
  rewrite E. assert (IH := IHn (S s) ltac:(lia)). replace (S s - 1) with s in IH at 1 by lia. rewrite IH. do 3 f_equal. lia.
Qed.
Lemma permutation_array_mask D k m : 1 <= D -> m < k -> permutation_array D k m = Some (sortMask (map (divb (k - 1 - m)) (colsAll k D))).
Proof.
  intros HD Hm. unfold permutation_array. destruct (Nat.leb_spec k m); [lia|]. destruct (Nat.eqb_spec m (k - 1)) as [E|E].
  - assert (L := loopLast_spec k m D Hm 1 (le_n 1)). cbn [Nat.sub colsAll] in L. rewrite cols_0 in L. cbn [map] in L. rewrite divb_repeat in L.
    rewrite L. do 4 f_equal. lia.
  - assert (L := loopOther_spec k m (D - 1) ltac:(lia) 2 (le_n 2)). cbn [Nat.sub colsAll] in L. rewrite cols_0, map_app in L. cbn [map] in L.
    rewrite divb_repeat, mask_deg1 in L by lia. replace (k - m - 1) with (k - 1 - m) by lia. rewrite L. do 4 f_equal. lia.
Qed.

(** ** Sorting by a mask *)
Section Mask.
  Variable p : list nat -> bool.
  Variable cs : list (list nat).
  Let mask := map p cs.
  Let sigma := whereTrue (map negb mask) ++ whereTrue mask.
  Lemma nth_mask i : i < length cs -> nth i mask false = p (nth i cs []).
  Proof. intros Hi. unfold mask. rewrite nth_indep with (d' := p []) by (rewrite map_length; auto). apply map_nth. Qed.
  Lemma whereTrue_mask : whereTrue mask = filter (fun i => p (nth i cs [])) (seq 0 (length cs)).
  Proof. unfold whereTrue, mask. rewrite map_length. apply filter_ext_in'. intros i Hi. apply in_seq in Hi. apply nth_mask; lia. Qed.
  Lemma whereTrue_negmask : whereTrue (map negb mask) = filter (fun i => negb (p (nth i cs []))) (seq 0 (length cs)).
  Proof.
    unfold whereTrue. rewrite map_length. unfold mask at 2. rewrite map_length. apply filter_ext_in'. intros i Hi. apply in_seq in Hi.
    rewrite nth_indep with (d' := negb false) by (rewrite map_length; unfold mask; rewrite map_length; lia). rewrite map_nth, nth_mask by lia. reflexivity.
  Qed.
  Lemma sigma_perm : Permutation sigma (seq 0 (length cs)).
  Proof.
    unfold sigma. rewrite whereTrue_mask, whereTrue_negmask. generalize (seq 0 (length cs)) as l. intros l.
    induction l; [constructor|]. cbn. destruct (p (nth a cs [])); cbn [negb].
    - symmetry. etransitivity; [|apply Permutation_middle]. constructor. symmetry; auto.
    - constructor; auto.
  Qed.
  Lemma map_where : map (fun i => nth i cs []) (whereTrue mask) = filter p cs.
  Proof.
    rewrite whereTrue_mask, <- filter_map. f_equal. clear. apply nth_ext with (d := []) (d' := []); [rewrite map_length, seq_length; auto|].
    intros i Hi. rewrite map_length, seq_length in Hi. rewrite nth_indep with (d' := (fun i => nth i cs []) 0) by (rewrite map_length, seq_length; auto).
    rewrite (map_nth (fun i => nth i cs [])), seq_nth by auto. reflexivity.
  Qed.
  Lemma sigma_length : length sigma = length cs.
  Proof. rewrite (Permutation_length sigma_perm), seq_length. reflexivity. Qed.
  Lemma where_length : length (whereTrue mask) = length (filter p cs).
  Proof. rewrite <- map_where, map_length. reflexivity. Qed.
  Lemma sigma_inv i : i < length cs -> nth (nth i sigma 0) (sortMask mask) 0 = i.
  Proof.
    intros Hi. unfold sortMask. fold sigma. apply inverse_P_spec.
    - apply (Permutation_NoDup (Permutation_sym sigma_perm)), seq_NoDup.
    - intros c Hc. apply (Permutation_in _ sigma_perm), in_seq in Hc. rewrite sigma_length. lia.
    - rewrite sigma_length; auto.
  Qed.
  Lemma sortMask_length : length (sortMask mask) = length cs.
  Proof.
    unfold sortMask. fold sigma. rewrite <- sigma_length. unfold inverse_P.
    assert (N : NoDup sigma) by (apply (Permutation_NoDup (Permutation_sym sigma_perm)), seq_NoDup).
    apply (inverse_P_loop sigma (length sigma) N); [|lia].
    intros c Hc. apply (Permutation_in _ sigma_perm), in_seq in Hc. rewrite sigma_length. lia.
  Qed.
  Lemma sortMask_true j : j < length cs -> p (nth j cs []) = true ->
    exists t, t < length (filter p cs) /\ nth t (filter p cs) [] = nth j cs [] /\ nth j (sortMask mask) 0 = length cs - length (filter p cs) + t.
  Proof.
    intros Hj Hp. assert (I : In j (whereTrue mask)) by (rewrite whereTrue_mask; apply filter_In; split; [apply in_seq; lia|auto]).
    destruct (In_nth _ _ 0 I) as [t [Ht Et]]. exists t. rewrite where_length in Ht. split; [auto|].
    assert (L := sigma_length). unfold sigma in L. rewrite app_length, where_length in L. split.
    - rewrite <- map_where. rewrite nth_indep with (d' := (fun i => nth i cs []) 0) by (rewrite map_length, where_length; auto).
      rewrite (map_nth (fun i => nth i cs [])), Et. reflexivity.
    - assert (E : nth (length cs - length (filter p cs) + t) sigma 0 = j).
      { unfold sigma. rewrite app_nth2 by lia. etransitivity; [|exact Et]. f_equal. lia. }
      rewrite <- E at 1. apply sigma_inv. lia.
  Qed.
  Lemma sortMask_false j : j < length cs -> p (nth j cs []) = false -> nth j (sortMask mask) 0 < length cs - length (filter p cs).
  Proof.
    intros Hj Hp. assert (I : In j (whereTrue (map negb mask))) by (rewrite whereTrue_negmask; apply filter_In; split; [apply in_seq; lia|rewrite Hp; auto]).
    destruct (In_nth _ _ 0 I) as [t [Ht Et]]. assert (L := sigma_length). unfold sigma in L. rewrite app_length, where_length in L.
    assert (E : nth t sigma 0 = j) by (unfold sigma; rewrite app_nth1 by lia; auto).
    rewrite <- E, sigma_inv by lia. lia.
  Qed.
  Lemma sortMask_perm : Permutation (sortMask mask) (seq 0 (length cs)).
  Proof.
    apply NoDup_Permutation_bis.
    - apply NoDup_nth with (d := 0). rewrite sortMask_length. intros i j Hi Hj E.
      assert (X : forall a, a < length cs -> exists b, b < length cs /\ nth b sigma 0 = a).
      { intros a Ha. assert (I : In a sigma) by (apply (Permutation_in _ (Permutation_sym sigma_perm)), in_seq; lia).
        destruct (In_nth _ _ 0 I) as [b [Hb Eb]]. rewrite sigma_length in Hb. eauto. }
      destruct (X i Hi) as [a [Ha Ea]], (X j Hj) as [b [Hb Eb]]. rewrite <- Ea, <- Eb, !sigma_inv in E by auto. congruence.
    - rewrite sortMask_length, seq_length. auto.
    - intros x Hx. destruct (In_nth _ _ 0 Hx) as [j [Hj Ej]]. rewrite sortMask_length in Hj. apply in_seq.
      destruct (p (nth j cs [])) eqn:Hp.
      + destruct (sortMask_true j Hj Hp) as [t [Ht [_ E]]]. assert (L := sigma_length). unfold sigma in L. rewrite app_length, where_length in L. lia.
      + assert (Q := sortMask_false j Hj Hp). lia.
  Qed.
End Mask.

(** ** The permutation arrays act as multiplication *)
(** u + v, entrywise *)
Fixpoint addMon' (u v : list nat) : list nat := match u, v with x :: u', y :: v' => x + y :: addMon' u' v' | _, _ => [] end.
Definition goodFor (k D : nat) (w P : list nat) : Prop :=
  Permutation P (seq 0 (length (colsAll k D))) /\
  forall j, j < length (colsAll k D) ->
    (exists v, length v = k /\ addMon' v w = nth j (colsAll k D) [] /\ nth (nth j P 0) (colsAll k D) [] = v) \/
    ((forall v, length v = k -> addMon' v w <> nth j (colsAll k D) []) /\ D < list_sum (nth (nth j P 0) (colsAll k D) []) + list_sum w).
Lemma addMon_unit k : forall i v, length v = k -> i < k -> addMon' v (unit_mon k i) = incrAt i v.
Proof.
  unfold unit_mon. induction k; intros i v Hv Hi; [lia|]. destruct v as [|x v]; [discriminate|]. injection Hv as Hv. destruct i as [|i].
  - cbn [repeat upd addMon' incrAt]. f_equal; [lia|]. clear -Hv. revert k Hv; induction v; intros [|k] H; try discriminate; [reflexivity|]. cbn. f_equal; [lia|]. injection H as H. auto.
  - cbn [repeat upd addMon' incrAt]. f_equal; [lia|]. apply IHk; [auto|lia].
Qed.
Lemma addMon_length u v : length u = length v -> length (addMon' u v) = length u.
Proof. revert v; induction u; intros [|y v] H; try discriminate; [reflexivity|]. cbn. f_equal. injection H; auto. Qed.
Lemma addMon_sum u v : length u = length v -> list_sum (addMon' u v) = list_sum u + list_sum v.
Proof. revert v; induction u; intros [|y v] H; try discriminate; [reflexivity|]. cbn [addMon']. rewrite !list_sum_cons, IHu by (injection H; auto). lia. Qed.
Lemma addMon_zero v : addMon' v (repeat 0 (length v)) = v.
Proof. induction v; [reflexivity|]. cbn. f_equal; [lia|auto]. Qed.
Lemma addMon_assoc u v w : addMon' (addMon' u v) w = addMon' u (addMon' v w).
Proof. revert v w; induction u; intros [|y v] [|z w]; try reflexivity. cbn. f_equal; [lia|auto]. Qed.
Lemma addMon_comm u v : addMon' u v = addMon' v u.
Proof. revert v; induction u; intros [|y v]; try reflexivity. cbn. f_equal; [lia|auto]. Qed.
Lemma addMon_inj u v w : length u = length w -> length v = length w -> addMon' u w = addMon' v w -> u = v.
Proof.
  revert v w; induction u; intros [|y v] [|z w] H1 H2 E; try discriminate; [reflexivity|]. cbn in E. injection E as E1 E2. f_equal; [lia|].
  apply (IHu v w); [injection H1; auto|injection H2; auto|auto].
Qed.
Lemma unit_length k i : length (unit_mon k i) = k.
Proof. unfold unit_mon. rewrite upd_length, repeat_length. reflexivity. Qed.
Lemma unit_sum k i : i < k -> list_sum (unit_mon k i) = 1.
Proof.
  unfold unit_mon. revert i; induction k; intros i Hi; [lia|]. destruct i; cbn [repeat upd]; rewrite list_sum_cons.
  - rewrite sum_repeat. reflexivity.
  - rewrite IHk by lia. reflexivity.
Qed.
Lemma good_zero k D : goodFor k D (repeat 0 k) (seq 0 (length (colsAll k D))).
Proof.
  split; [reflexivity|]. intros j Hj. left. rewrite seq_nth by auto. cbn [Nat.add]. exists (nth j (colsAll k D) []).
  assert (L : length (nth j (colsAll k D) []) = k) by (apply (colsAll_In k D), nth_In; auto).
  repeat split; auto. rewrite <- L at 2. apply addMon_zero.
Qed.
Lemma divb_incr i v : divb i v = true -> exists u, length u = length v /\ incrAt i u = v.
Proof.
  revert v; induction i; intros [|x v] H; try discriminate.
  - destruct x as [|x]; [discriminate|]. exists (x :: v). auto.
  - destruct (IHi v H) as [u [Hu E]]. exists (x :: u). cbn. split; [congruence|f_equal; auto].
Qed.
Lemma incr_divb i v : i < length v -> divb i (incrAt i v) = true.
Proof. revert v; induction i; intros [|x v] H; cbn in H; try lia; [reflexivity|]. apply IHi; lia. Qed.
Lemma good_unit k D i : i < k -> 1 <= D -> exists P, permutation_array D k (k - 1 - i) = Some P /\ goodFor k D (unit_mon k i) P.
Proof.
  intros Hi HD. rewrite permutation_array_mask by lia. replace (k - 1 - (k - 1 - i)) with i by lia. eexists; split; [reflexivity|].
  split; [apply sortMask_perm|]. intros j Hj. set (cs := colsAll k D) in *. rewrite unit_sum by auto.
  destruct D as [|D]; [lia|]. assert (F := filter_colsAll k i D Hi). fold cs in F.
  assert (L : length cs - length (filter (divb i) cs) = length (cols k (S D))).
  { rewrite F, map_length. unfold cs. cbn [colsAll]. rewrite app_length. lia. }
  assert (Lj : length (nth j cs []) = k) by (apply (colsAll_In k (S D)), nth_In; auto).
  destruct (divb i (nth j cs [])) eqn:Hd.
  - left. destruct (sortMask_true (divb i) cs j Hj Hd) as [t [Ht [Et EP]]]. rewrite F in Ht, Et. rewrite map_length in Ht.
    exists (nth t (colsAll k D) []). assert (Lt : length (nth t (colsAll k D) []) = k) by (apply (colsAll_In k D), nth_In; auto).
    repeat split; auto.
    + rewrite addMon_unit by auto. rewrite nth_indep with (d' := incrAt i []) in Et by (rewrite map_length; auto). rewrite map_nth in Et. auto.
    + rewrite EP, L. unfold cs. cbn [colsAll]. rewrite app_nth2 by lia. f_equal. lia.
  - right. split.
    + intros v Hv E. rewrite addMon_unit in E by auto. rewrite <- E, incr_divb in Hd by lia. discriminate.
    + assert (Q := sortMask_false (divb i) cs j Hj Hd). rewrite L in Q.
      assert (I : In (nth (nth j (sortMask (map (divb i) cs)) 0) cs []) (cols k (S D))) by (unfold cs at 2; cbn [colsAll]; rewrite app_nth1 by auto; apply nth_In; auto).
      apply cols_In in I. lia.
Qed.
Lemma perm_range P N j : Permutation P (seq 0 N) -> j < N -> nth j P 0 < N.
Proof. intros H Hj. assert (I : In (nth j P 0) P) by (apply nth_In; rewrite (Permutation_length H), seq_length; auto). apply (Permutation_in _ H), in_seq in I. lia. Qed.
Lemma good_comp k D w i P Q : i < k -> length w = k -> goodFor k D (unit_mon k i) P -> goodFor k D w Q -> goodFor k D (addMon' w (unit_mon k i)) (takeIdx P Q).
Proof.
  intros Hi Lw [PP HP] [PQ HQ]. set (N := length (colsAll k D)) in *. assert (LQ := Permutation_length PQ). rewrite seq_length in LQ.
  assert (LP := Permutation_length PP). rewrite seq_length in LP.
  assert (Ej : forall j, j < N -> nth j (takeIdx P Q) 0 = nth (nth j Q 0) P 0).
  { intros j Hj. unfold takeIdx. rewrite nth_indep with (d' := (fun j => nth j P 0) 0) by (rewrite map_length; lia). apply (map_nth (fun j => nth j P 0)). }
  split.
  - unfold takeIdx. transitivity (map (fun j => nth j P 0) (seq 0 N)); [apply Permutation_map; exact PQ|].
    replace (map (fun j => nth j P 0) (seq 0 N)) with P; [exact PP|]. rewrite <- LP. clear.
    apply nth_ext with (d := 0) (d' := (fun j => nth j P 0) 0); [rewrite map_length, seq_length; auto|]. intros n Hn.
    rewrite (map_nth (fun j => nth j P 0)), seq_nth by auto. reflexivity.
  - intros j Hj. rewrite Ej by auto. assert (Hq : nth j Q 0 < N) by (apply perm_range; auto). rewrite addMon_sum, unit_sum by (rewrite ?unit_length; auto).
    assert (RP : nth (nth j Q 0) P 0 < N) by (apply perm_range; auto).
    assert (C : forall a, a < N -> length (nth a (colsAll k D) []) = k /\ list_sum (nth a (colsAll k D) []) <= D) by (intros a Ha; apply (colsAll_In k D), nth_In; auto).
    destruct (HQ j Hj) as [[v [Lv [Ev EQ]]]|[Nv Hs]], (HP (nth j Q 0) Hq) as [[u [Lu [Eu EP]]]|[Nu Hu]].
    + left. exists u. repeat split; auto. rewrite <- Ev, <- EQ, <- Eu. rewrite addMon_assoc. f_equal. apply addMon_comm.
    + right. split; [|rewrite unit_sum in Hu by auto; lia]. intros u Lu E. apply (Nu (u)); auto. rewrite EQ.
      apply (addMon_inj _ _ w).
      * rewrite addMon_length; rewrite ?unit_length; lia.
      * lia.
      * rewrite Ev, <- E, addMon_assoc. f_equal. apply addMon_comm.
    + right. split.
      * intros x Lx E. apply (Nv (addMon' x (unit_mon k i))); [rewrite addMon_length; rewrite ?unit_length; auto|].
        rewrite <- E, addMon_assoc. f_equal. apply addMon_comm.
      * rewrite EP. apply (f_equal list_sum) in Eu. rewrite addMon_sum, unit_sum in Eu by (rewrite ?unit_length; auto). lia.
    + right. split; [|rewrite unit_sum in Hu by auto; lia].
      intros x Lx E. apply (Nv (addMon' x (unit_mon k i))); [rewrite addMon_length; rewrite ?unit_length; auto|].
      rewrite <- E, addMon_assoc. f_equal. apply addMon_comm.
Qed.

(** ** The dictionary *)
Lemma sameKey_cons x y u v : sameKey (x :: u) (y :: v) = (x =? y) && sameKey u v.
Proof. unfold sameKey. cbn [length combine forallb fst snd Nat.eqb]. destruct (x =? y), (length u =? length v); reflexivity. Qed.
Lemma sameKey_iff u v : sameKey u v = true <-> u = v.
Proof.
  revert v; induction u as [|x u IH]; intros [|y v]; try (cbn; split; intros H; auto; discriminate).
  rewrite sameKey_cons, andb_true_iff, Nat.eqb_eq, IH. split; [intros [-> ->]; auto|intros H; injection H; auto].
Qed.
Lemma plookup_cons k k' P D : plookup k ((k', P) :: D) = if sameKey k k' then Some P else plookup k D.
Proof. reflexivity. Qed.
Definition goodDict (k D : nat) (d : pdict) : Prop := forall w P, plookup w d = Some P -> length w = k /\ goodFor k D w P.
Lemma goodDict_cons k D d w P : goodDict k D d -> length w = k -> goodFor k D w P -> goodDict k D ((w, P) :: d).
Proof.
  intros H L G u Q E. rewrite plookup_cons in E. destruct (sameKey u w) eqn:S.
  - apply sameKey_iff in S. injection E as <-. subst. auto.
  - apply H; auto.
Qed.
Definition hasKey (w : list nat) (d : pdict) : Prop := exists P, plookup w d = Some P.
Lemma hasKey_cons w w' P d : hasKey w d -> hasKey w ((w', P) :: d).
Proof. intros [Q E]. unfold hasKey. rewrite plookup_cons. destruct (sameKey w w'); eauto. Qed.
Lemma hasKey_here w P d : hasKey w ((w, P) :: d).
Proof. exists P. rewrite plookup_cons. assert (X := proj2 (sameKey_iff w w) eq_refl). rewrite X. reflexivity. Qed.
Lemma startDict_spec k D n s d : 1 <= D -> s + n <= k -> goodDict k D d -> exists d', startDict k D (seq s n) d = Some d' /\ goodDict k D d' /\
  (forall w, hasKey w d -> hasKey w d') /\ (forall i, s <= i < s + n -> hasKey (unit_mon k i) d').
Proof.
  intros HD. revert s d. induction n; intros s d Hs G; cbn [seq startDict].
  - exists d. split; [auto|split; [auto|split; [auto|]]]. intros; lia.
  - destruct (good_unit k D s ltac:(lia) HD) as [P [E GP]]. rewrite E.
    destruct (IHn (S s) ((unit_mon k s, P) :: d) ltac:(lia)) as [d' [E' [G' [M' U']]]].
    { apply goodDict_cons; auto. apply unit_length. }
    exists d'. split; [auto|split; [auto|split]].
    + intros w Hw. apply M', hasKey_cons, Hw.
    + intros i Hi. destruct (Nat.eq_dec i s) as [->|]; [apply M', hasKey_here|apply U'; lia].
Qed.
Lemma subMon_some u : forall v w, length u = length v -> (subMon u v = Some w <-> length w = length v /\ addMon' w v = u).
Proof.
  induction u as [|x u IH]; intros [|y v] w L; try discriminate; cbn [subMon].
  - split; [intros H; injection H as <-; auto|]. intros [H _]. destruct w; [reflexivity|discriminate].
  - injection L as L. destruct (Nat.ltb_spec x y).
    + split; [discriminate|]. intros [H1 H2]. destruct w as [|z w]; [discriminate|]. cbn in H2. injection H2 as H2 _. lia.
    + destruct (subMon u v) as [r|] eqn:E.
      * apply IH in E as [L1 E1]; auto. split.
        -- intros X; injection X as <-. cbn. split; [congruence|]. f_equal; [lia|auto].
        -- intros [X1 X2]. destruct w as [|z w]; [discriminate|]. cbn in X2. injection X2 as X2 X3. do 2 f_equal; [lia|].
           apply (addMon_inj _ _ v); [lia|injection X1; auto|congruence].
      * split; [discriminate|]. intros [X1 X2]. destruct w as [|z w]; [discriminate|]. cbn in X2. injection X2 as X2 X3.
        assert (X : subMon u v = Some w) by (apply (IH v w L); split; [injection X1; auto|auto]). congruence.
Qed.
Lemma addMon_spec k D w n s d : length w = k -> s + n <= k -> goodDict k D d -> (forall i, i < k -> hasKey (unit_mon k i) d) ->
  exists d', addMon (map (unit_mon k) (seq s n)) w d = Some d' /\ goodDict k D d' /\ (forall u, hasKey u d -> hasKey u d') /\
  ((exists i v, s <= i < s + n /\ length v = k /\ addMon' v (unit_mon k i) = w /\ hasKey v d) -> hasKey w d').
Proof.
  intros Lw. revert s. induction n; intros s Hs G U; cbn [seq map addMon].
  - exists d. split; [auto|split; [auto|split; [auto|]]]. intros [i [v [H _]]]; lia.
  - destruct (subMon w (unit_mon k s)) as [diff|] eqn:E.
    + assert (E1 := E). apply subMon_some in E1 as [L1 E1]; [|rewrite unit_length; auto]. rewrite unit_length in L1.
      destruct (plookup diff d) as [Q|] eqn:EQ.
      * destruct (U s ltac:(lia)) as [P EP]. rewrite EP. exists ((w, takeIdx P Q) :: d). split; [auto|split; [|split]].
        -- apply goodDict_cons; auto. rewrite <- E1. apply good_comp; [lia|auto|apply G; auto|apply (G diff); auto].
        -- intros u Hu. apply hasKey_cons; auto.
        -- intros _. apply hasKey_here.
      * destruct (IHn (S s) ltac:(lia) G U) as [d' [E' [G' [M' H']]]]. exists d'. split; [auto|split; [auto|split; [auto|]]].
        intros [i [v [Hi [Lv [Ev [P Kv]]]]]]. destruct (Nat.eq_dec i s) as [->|]; [|apply H'; exists i, v; repeat split; auto; try lia; exists P; auto].
        exfalso. assert (v = diff) by (apply (addMon_inj _ _ (unit_mon k s)); rewrite ?unit_length; auto; congruence). congruence.
    + destruct (IHn (S s) ltac:(lia) G U) as [d' [E' [G' [M' H']]]]. exists d'. split; [auto|split; [auto|split; [auto|]]].
      intros [i [v [Hi [Lv [Ev Kv]]]]]. destruct (Nat.eq_dec i s) as [->|]; [|apply H'; exists i, v; repeat split; auto; try lia].
      exfalso. assert (X : subMon w (unit_mon k s) = Some v) by (apply subMon_some; rewrite unit_length; auto). congruence.
Qed.
Definition completeTo (k d : nat) (dc : pdict) : Prop := forall w, length w = k -> list_sum w <= d -> hasKey w dc.
Lemma exists_var w : 1 <= list_sum w -> exists i v, i < length w /\ length v = length w /\ addMon' v (unit_mon (length w) i) = w.
Proof.
  intros H. assert (X : exists i, divb i w = true).
  { induction w as [|x w IH]; [cbn in H; lia|]. rewrite list_sum_cons in H. destruct x as [|x]; [|exists 0; reflexivity].
    destruct (IH ltac:(lia)) as [i Hi]. exists (S i). auto. }
  destruct X as [i Hi]. destruct (divb_incr i w Hi) as [v [Lv Ev]]. exists i, v.
  assert (i < length w).
  { unfold divb in Hi. apply Nat.ltb_lt in Hi. destruct (Nat.lt_ge_cases i (length w)); auto. rewrite nth_overflow in Hi by auto. lia. }
  repeat split; auto. rewrite addMon_unit; auto.
Qed.
Lemma addMons_spec k D d mons : 1 <= d -> (forall w, In w mons -> length w = k /\ list_sum w = d) -> forall dc,
  goodDict k D dc -> (forall i, i < k -> hasKey (unit_mon k i) dc) -> completeTo k (d - 1) dc ->
  exists d', addMons (map (unit_mon k) (seq 0 k)) mons dc = Some d' /\ goodDict k D d' /\ (forall u, hasKey u dc -> hasKey u d') /\ forall w, In w mons -> hasKey w d'.
Proof.
  intros Hd. induction mons as [|w mons IH]; intros HM dc G U C; cbn [addMons].
  - exists dc. split; [auto|split; [auto|split; [auto|]]]. intros w [].
  - destruct (HM w (or_introl eq_refl)) as [Lw Sw]. destruct (addMon_spec k D w k 0 dc Lw (le_n _) G U) as [d1 [E1 [G1 [M1 H1]]]]. rewrite E1.
    destruct (IH (fun v Hv => HM v (or_intror Hv)) d1 G1 (fun i Hi => M1 _ (U i Hi)) (fun v L S => M1 _ (C v L S))) as [d2 [E2 [G2 [M2 H2]]]].
    exists d2. split; [auto|split; [auto|split]].
    + intros u Hu. auto.
    + intros v [<-|Hv]; [|auto]. apply M2, H1. destruct (exists_var w ltac:(lia)) as [i [v [Hi [Lv Ev]]]]. rewrite Lw in *. exists i, v. repeat split; auto; try lia.
      apply C; auto. apply (f_equal list_sum) in Ev. rewrite addMon_sum, unit_sum in Ev by (rewrite ?unit_length; auto). lia.
Qed.
Lemma addDegrees_spec k D n : 1 <= k -> forall s dc, 2 <= s -> goodDict k D dc -> completeTo k (s - 1) dc ->
  exists d', addDegrees (map (unit_mon k) (seq 0 k)) k (seq s n) dc = Some d' /\ goodDict k D d' /\ completeTo k (s + n - 1) d'.
Proof.
  intros Hk. induction n; intros s dc Hs G C; cbn [seq addDegrees].
  - exists dc. split; [auto|split; [auto|]]. replace (s + 0 - 1) with (s - 1) by lia. auto.
  - rewrite mon_combosHighest_zeros by auto.
    destruct (addMons_spec k D s (enum leafEq k s) ltac:(lia)) with (dc := dc) as [d1 [E1 [G1 [M1 H1]]]]; auto.
    { intros w Hw. apply enumEq_In in Hw; auto. }
    { intros i Hi. apply C; [apply unit_length|rewrite unit_sum; lia]. }
    rewrite E1. destruct (IHn (S s) d1 ltac:(lia) G1) as [d2 [E2 [G2 C2]]].
    { intros w Lw Sw. destruct (Nat.eq_dec (list_sum w) s) as [E|]; [apply H1, enumEq_In; auto|apply M1, C; auto; lia]. }
    exists d2. split; [auto|split; [auto|]]. replace (s + S n - 1) with (S s + n - 1) by lia. auto.
Qed.
Lemma total_length k D : 1 <= k -> list_sum (map (fun d => num_mons d k) (seq 0 (D + 1))) = length (colsAll k D).
Proof.
  intros Hk. destruct k as [|k]; [lia|]. induction D; [cbn [Nat.add seq map]; rewrite list_sum_cons, <- cols_length; cbn; lia|].
  replace (S D + 1) with (S (D + 1)) by lia. rewrite seq_S, map_app, list_sum_app, IHD. cbn [colsAll map]. rewrite app_length, list_sum_cons, cols_length.
  cbn [list_sum fold_right]. replace (0 + (D + 1)) with (S D) by lia. cbn. lia.
Qed.
Lemma all_permutations_spec deg k D : 1 <= k -> 1 <= D -> exists dc, all_permutations deg k D = Some dc /\ goodDict k D dc /\ completeTo k deg dc.
Proof.
  intros Hk HD. unfold all_permutations. rewrite total_length by auto.
  set (d0 := [(repeat 0 k, seq 0 (length (colsAll k D)))]).
  assert (G0 : goodDict k D d0).
  { unfold d0. apply goodDict_cons; [intros w P E; discriminate|apply repeat_length|apply good_zero]. }
  destruct (startDict_spec k D k 0 d0 HD (le_n _) G0) as [d1 [E1 [G1 [M1 U1]]]]. rewrite E1.
  assert (C1 : completeTo k 1 d1).
  { intros w Lw Sw. destruct (Nat.eq_dec (list_sum w) 0) as [E|E].
    - apply M1. apply sum_zero in E. rewrite Lw in E. rewrite E. apply hasKey_here.
    - destruct (exists_var w ltac:(lia)) as [i [v [Hi [Lv Ev]]]]. rewrite Lw in *.
      assert (Z : list_sum v = 0). { apply (f_equal list_sum) in Ev. rewrite addMon_sum, unit_sum in Ev by (rewrite ?unit_length; auto). lia. }
      apply sum_zero in Z. rewrite Lv in Z. rewrite <- Ev, Z, addMon_comm. rewrite <- (unit_length k i) at 2. rewrite addMon_zero. apply U1. lia. }
  destruct (addDegrees_spec k D (deg - 1) Hk 2 d1 (le_n _) G1 C1) as [d2 [E2 [G2 C2]]]. exists d2. split; [auto|split; [auto|]].
  intros w Lw Sw. apply C2; auto. lia.
Qed.
