(** * Dimension orders: argsort, sets, and the reordering of getInverseOrder *)
From Coq Require Import List Arith Bool Lia Sorted Permutation.
From Verif Require Import Num Tensor SolverModel.
Import ListNotations.

(** np.argsort: a permutation of the positions that sorts the values *)
Definition argsort_ok (f : list nat -> list nat) : Prop :=
  forall l, Permutation (f l) (seq 0 (length l)) /\ StronglySorted le (map (fun k => nth k l 0) (f l)).
(** iterating over a set of ints below n visits them in increasing order *)
Definition set_ok (n : nat) (f : list nat -> list nat) : Prop :=
  forall l, Forall (fun i => i < n) l -> StronglySorted lt (f l) /\ forall i, In i (f l) <-> In i l.

Lemma nth_map_lt {A B} (f : A -> B) l i d d' : i < length l -> nth i (map f l) d' = f (nth i l d).
Proof. intros H. rewrite (nth_indep _ d' (f d)) by (rewrite map_length; auto). apply map_nth. Qed.

(** ** sorted lists *)
Lemma sorted_lt_NoDup l : StronglySorted lt l -> NoDup l.
Proof.
  induction 1; constructor; auto. intros H1. rewrite Forall_forall in H0. specialize (H0 _ H1). lia.
Qed.
Lemma sorted_lt_ext l m : StronglySorted lt l -> StronglySorted lt m -> (forall i, In i l <-> In i m) -> l = m.
Proof.
  intros Hl. revert m. induction Hl as [|a l Hl IH Ha]; intros m Hm E.
  - destruct m as [|b m]; auto. destruct (proj2 (E b)). left; auto.
  - destruct m as [|b m]; [destruct (proj1 (E a)); left; auto|]. inversion Hm; subst. rewrite Forall_forall in *.
    assert (a = b).
    { destruct (proj1 (E a) ltac:(left; auto)) as [?|Hb]; auto. destruct (proj2 (E b) ltac:(left; auto)) as [?|Hb']; auto.
      specialize (H2 _ Hb). specialize (Ha _ Hb'). lia. }
    subst b. f_equal. apply IH; auto. intros i. split; intros Hi.
    + destruct (proj1 (E i) ltac:(right; auto)) as [?|?]; auto. subst. specialize (Ha _ Hi). lia.
    + destruct (proj2 (E i) ltac:(right; auto)) as [?|?]; auto. subst. specialize (H2 _ Hi). lia.
Qed.
Lemma sorted_seq a n : StronglySorted lt (seq a n).
Proof.
  revert a; induction n; intros a; cbn; constructor; auto. apply Forall_forall. intros x Hx. apply in_seq in Hx. lia.
Qed.
Lemma sorted_filter {A} (r : A -> A -> Prop) f l : StronglySorted r l -> StronglySorted r (filter f l).
Proof.
  induction 1; cbn; [constructor|]. destruct (f a); auto. constructor; auto. apply Forall_forall. intros x Hx. apply filter_In in Hx.
  rewrite Forall_forall in H0. apply H0. apply Hx.
Qed.
Lemma sorted_le_lt l : StronglySorted le l -> NoDup l -> StronglySorted lt l.
Proof.
  induction 1; intros Hn; constructor; inversion Hn; subst; auto. rewrite Forall_forall in *. intros x Hx. specialize (H0 x Hx).
  assert (x <> a) by (intros ->; contradiction). lia.
Qed.

(** ** binary numbers, most significant bit first *)
Fixpoint val (bs : list nat) : nat := match bs with [] => 0 | b :: r => b * 2 ^ length r + val r end.
Definition bits (k : nat) (bs : list nat) : Prop := length bs = k /\ Forall (fun b => b = 0 \/ b = 1) bs.
Lemma bitLists_length k : length (bitLists k) = 2 ^ k.
Proof. induction k; cbn [bitLists]; auto. rewrite app_length, !map_length, IHk. cbn. lia. Qed.
Lemma val_lt k bs : bits k bs -> val bs < 2 ^ k.
Proof.
  revert k; induction bs as [|b bs IH]; intros k [H1 H2]; cbn in *; subst; cbn; [lia|]. apply Forall_cons_iff in H2. destruct H2 as [H3 H4].
  specialize (IH (length bs) (conj eq_refl H4)). destruct H3; subst; lia.
Qed.
Lemma nth_val k bs d : bits k bs -> nth (val bs) (bitLists k) d = bs.
Proof.
  revert k d; induction bs as [|b bs IH]; intros k d [H1 H2]; cbn in H1; subst; auto. apply Forall_cons_iff in H2. destruct H2 as [H3 H4]. cbn [bitLists val length].
  pose proof (val_lt (length bs) bs (conj eq_refl H4)) as Hv. destruct H3 as [-> | ->].
  - rewrite app_nth1 by (rewrite map_length, bitLists_length; lia). rewrite Nat.mul_0_l, Nat.add_0_l.
    rewrite nth_indep with (d' := (cons 0) d) by (rewrite map_length, bitLists_length; lia). rewrite map_nth. f_equal. apply IH. split; auto.
  - rewrite app_nth2 by (rewrite map_length, bitLists_length; lia). rewrite map_length, bitLists_length.
    replace (1 * 2 ^ length bs + val bs - 2 ^ length bs) with (val bs) by lia.
    rewrite nth_indep with (d' := (cons 1) d) by (rewrite map_length, bitLists_length; lia). rewrite map_nth. f_equal. apply IH. split; auto.
Qed.
Lemma in_bitLists k bs : In bs (bitLists k) <-> bits k bs.
Proof.
  revert bs; induction k; intros bs; cbn [bitLists].
  - split; [intros [<-|[]]; split; auto|]. intros [H _]. destruct bs; [left; auto|discriminate].
  - rewrite in_app_iff, !in_map_iff. split.
    + intros [(r & <- & H)|(r & <- & H)]; apply IHk in H; destruct H; split; cbn; auto.
    + intros [H1 H2]. destruct bs as [|b bs]; [discriminate|]. apply Forall_cons_iff in H2. destruct H2 as [H3 H4]. injection H1 as H1. destruct H3; subst; [left|right]; exists bs; split; auto; apply IHk; split; auto.
Qed.
Lemma val_nth k j : j < 2 ^ k -> val (nth j (bitLists k) []) = j.
Proof.
  revert j; induction k; intros j Hj; cbn [bitLists].
  - cbn in Hj. assert (j = 0) by lia. subst. reflexivity.
  - destruct (Nat.lt_ge_cases j (2 ^ k)) as [H|H].
    + rewrite app_nth1 by (rewrite map_length, bitLists_length; lia).
      rewrite nth_indep with (d' := (cons 0) []) by (rewrite map_length, bitLists_length; lia). rewrite map_nth. cbn [val]. rewrite IHk by auto. lia.
    + rewrite app_nth2 by (rewrite map_length, bitLists_length; lia). rewrite map_length, bitLists_length.
      rewrite Nat.pow_succ_r' in Hj. assert (Hj' : j - 2 ^ k < 2 ^ k) by lia.
      rewrite nth_indep with (d' := (cons 1) []) by (rewrite map_length, bitLists_length; exact Hj'). rewrite map_nth. cbn [val].
      rewrite (proj1 (proj1 (in_bitLists k _) (nth_In _ _ ltac:(rewrite bitLists_length; exact Hj')))). rewrite IHk by auto. lia.
Qed.
Lemma nth_bits k j : j < 2 ^ k -> bits k (nth j (bitLists k) []).
Proof. intros H. apply in_bitLists. apply nth_In. rewrite bitLists_length. auto. Qed.

(** ** sums over naturals *)
Definition nsumn (l : list nat) : nat := fold_right Nat.add 0 l.
Lemma nsumn_perm l m : Permutation l m -> nsumn l = nsumn m.
Proof. unfold nsumn. induction 1; cbn [fold_right]; lia. Qed.
Lemma nsumn_map_ext {A} (f g : A -> nat) l : (forall x, In x l -> f x = g x) -> nsumn (map f l) = nsumn (map g l).
Proof. intros H. f_equal. apply map_ext_in. auto. Qed.
Lemma val_sum bs : val bs = nsumn (map (fun r => nth r bs 0 * 2 ^ (length bs - 1 - r)) (seq 0 (length bs))).
Proof.
  induction bs as [|b bs IH]; auto. cbn [val length seq map nsumn fold_right]. cbn [nth].
  replace (S (length bs) - 1 - 0) with (length bs) by lia. f_equal.
  rewrite <- seq_shift, map_map. rewrite IH. apply nsumn_map_ext. intros r Hr. apply in_seq in Hr. cbn [nth].
  replace (S (length bs) - 1 - S r) with (length bs - 1 - r) by lia. reflexivity.
Qed.

(** ** [t[idx] = vals] *)
Lemma assign_fold idx : forall vals t j, length idx = length vals -> NoDup idx ->
  nth j (fold_left (fun t p => upd t (fst p) (snd p)) (combine idx vals) t) 0 =
  match find (fun p => fst p =? j) (combine idx vals) with
  | Some p => if j <? length t then snd p else 0
  | None => nth j t 0
  end.
Proof.
  induction idx as [|i idx IH]; intros [|v vals] t j Hl Hn; cbn in Hl; try lia; cbn [combine fold_left find fst snd]; auto.
  inversion Hn; subst. rewrite IH by (auto; lia). destruct (Nat.eqb_spec i j).
  - subst i. destruct (find _ _) as [p|] eqn:E.
    + apply find_some in E. destruct E as [E1 E2]. apply Nat.eqb_eq in E2. destruct p as [p1 p2]. apply in_combine_l in E1. cbn in E2. subst. contradiction.
    + destruct (Nat.ltb_spec j (length t)); [apply nth_upd_eq; auto|]. rewrite nth_overflow; auto. rewrite upd_length. auto.
  - rewrite upd_length. destruct (find _ _); auto. apply nth_upd_neq. auto.
Qed.
Lemma assign_len idx : forall (vals : list nat) (t : list nat), length (fold_left (fun t p => upd t (fst p) (snd p)) (combine idx vals) t) = length t.
Proof. induction idx as [|i idx IH]; intros [|v vals] t; cbn; auto. rewrite IH, upd_length. auto. Qed.
Lemma assignAt_length len idx vals : length (assignAt len idx vals) = len.
Proof. unfold assignAt. rewrite assign_len, repeat_length. auto. Qed.
Lemma assignAt_seq len idx q : length idx = len -> NoDup idx -> q < len -> nth q idx 0 < len ->
  nth (nth q idx 0) (assignAt len idx (seq 0 len)) 0 = q.
Proof.
  intros Hl Hn Hq Hr. unfold assignAt. rewrite assign_fold by (rewrite ?seq_length; auto). rewrite repeat_length.
  assert (Hin : In (nth q idx 0, q) (combine idx (seq 0 len))).
  { replace q with (nth q (seq 0 len) 0) at 2 by (rewrite seq_nth; auto).
    rewrite <- (combine_nth idx (seq 0 len) q 0 0) by (rewrite seq_length; auto). apply nth_In. rewrite combine_length, seq_length. lia. }
  destruct (find _ _) as [[a b]|] eqn:E.
  - apply find_some in E. destruct E as [E1 E2]. cbn in E2. apply Nat.eqb_eq in E2. subst a. destruct (Nat.ltb_spec (nth q idx 0) len); [|lia]. cbn.
    destruct (In_nth _ _ (0,0) E1) as (p & Hp & Ep). rewrite combine_length, seq_length in Hp. rewrite combine_nth in Ep by (rewrite seq_length; auto).
    injection Ep as Ea Eb. rewrite seq_nth in Eb by lia. cbn in Eb. subst p.
    apply (proj1 (NoDup_nth idx 0) Hn); lia.
  - exfalso. apply (find_none _ _ E _) in Hin. cbn in Hin. rewrite Nat.eqb_refl in Hin. discriminate.
Qed.

(** ** the inverse order *)
Fixpoint idxOf (d : nat) (l : list nat) : nat := match l with [] => 0 | x :: r => if x =? d then 0 else S (idxOf d r) end.
Definition bitOf (dims bs : list nat) (d : nat) : nat := nth (idxOf d dims) bs 0.
Lemma idxOf_nth l i : NoDup l -> i < length l -> idxOf (nth i l 0) l = i.
Proof.
  revert i; induction l as [|x l IH]; intros i Hn Hi; cbn in Hi; [lia|]. inversion Hn; subst. destruct i; cbn [nth idxOf]; [rewrite Nat.eqb_refl; auto|].
  destruct (Nat.eqb_spec x (nth i l 0)).
  - exfalso. apply H1. rewrite e. apply nth_In. lia.
  - rewrite IH; auto. lia.
Qed.
Lemma idxOf_lt d l : In d l -> idxOf d l < length l /\ nth (idxOf d l) l 0 = d.
Proof.
  induction l as [|x l IH]; [intros []|]. intros H. cbn [idxOf]. destruct (Nat.eqb_spec x d); [cbn; subst; split; auto; lia|].
  destruct H as [H|H]; [congruence|]. destruct (IH H). cbn. split; auto. lia.
Qed.
Lemma bitOf_bit dims bs d : bits (length dims) bs -> bitOf dims bs d = 0 \/ bitOf dims bs d = 1.
Proof.
  intros [H1 H2]. unfold bitOf. destruct (Nat.lt_ge_cases (idxOf d dims) (length bs)).
  - rewrite Forall_forall in H2. apply H2. apply nth_In; auto.
  - rewrite nth_overflow; auto.
Qed.
Lemma bitOf_map dims bs : NoDup dims -> length bs = length dims -> map (bitOf dims bs) dims = bs.
Proof.
  intros Hn Hl. apply nth_ext with 0 0; [rewrite map_length; auto|]. rewrite map_length. intros i Hi.
  rewrite (nth_indep _ 0 (bitOf dims bs 0)) by (rewrite map_length; auto). rewrite map_nth. unfold bitOf. rewrite idxOf_nth; auto.
Qed.

Section Inv.
  Variables (as_ : list nat -> list nat) (Has : argsort_ok as_).
  Variables (order dims : list nat) (Hperm : Permutation order dims) (Hsort : StronglySorted lt dims).
  Let k := length order.
  Let t := assignAt k (as_ order) (seq 0 k).
  Lemma order_nodup : NoDup order.
  Proof. apply Permutation_NoDup with dims; [apply Permutation_sym; auto|apply sorted_lt_NoDup; auto]. Qed.
  Lemma as_sorted : map (fun q => nth q order 0) (as_ order) = dims.
  Proof.
    destruct (Has order) as [H1 H2].
    assert (HP : Permutation (map (fun q => nth q order 0) (as_ order)) order).
    { apply Permutation_trans with (map (fun q => nth q order 0) (seq 0 (length order))); [apply Permutation_map; auto|].
      replace (map (fun q => nth q order 0) (seq 0 (length order))) with order; auto.
      apply nth_ext with 0 0; [rewrite map_length, seq_length; auto|]. intros i Hi.
      rewrite (nth_map_lt _ _ _ 0) by (rewrite seq_length; auto).
      rewrite seq_nth by auto. reflexivity. }
    apply sorted_lt_ext; auto.
    - apply sorted_le_lt; auto. apply Permutation_NoDup with order; [apply Permutation_sym; auto|apply order_nodup].
    - intros i. split; intros Hi.
      + apply (Permutation_in i Hperm). apply (Permutation_in i HP). auto.
      + apply (Permutation_in i (Permutation_sym HP)). apply (Permutation_in i (Permutation_sym Hperm)). auto.
  Qed.
  Lemma len_as : length (as_ order) = k.
  Proof. rewrite (Permutation_length (proj1 (Has order))), seq_length. auto. Qed.
  Lemma len_dims : length dims = k.
  Proof. unfold k. symmetry. apply Permutation_length; auto. Qed.
  Lemma t_spec r : r < k -> nth (nth r (as_ order) 0) t 0 = r.
  Proof.
    intros Hr. unfold t. apply assignAt_seq; auto.
    - apply len_as.
    - apply Permutation_NoDup with (seq 0 (length order)); [apply Permutation_sym; apply Has|apply seq_NoDup].
    - assert (In (nth r (as_ order) 0) (seq 0 (length order))).
      { apply (Permutation_in _ (proj1 (Has order))). apply nth_In. rewrite len_as. auto. }
      apply in_seq in H. unfold k. lia.
  Qed.
  Lemma t_pos i : i < k -> nth i t 0 < k /\ nth (nth i t 0) dims 0 = nth i order 0.
  Proof.
    intros Hi. assert (Hin : In i (as_ order)).
    { apply (Permutation_in _ (Permutation_sym (proj1 (Has order)))). apply in_seq. unfold k in Hi. lia. }
    destruct (In_nth _ _ 0 Hin) as (r & Hr & Er). rewrite len_as in Hr. rewrite <- Er. rewrite t_spec by auto. split; auto.
    rewrite <- as_sorted. rewrite (nth_map_lt _ _ _ 0) by (rewrite len_as; auto). reflexivity.
  Qed.
  Lemma t_length : length t = k.
  Proof. apply assignAt_length. Qed.
  Lemma t_perm : Permutation t (seq 0 k).
  Proof.
    apply NoDup_Permutation_bis.
    - apply (NoDup_nth t 0). rewrite t_length. intros i j Hi Hj E.
      destruct (t_pos i Hi) as [_ E1]. destruct (t_pos j Hj) as [_ E2]. rewrite E in E1. rewrite E1 in E2.
      apply (proj1 (NoDup_nth order 0) order_nodup); auto.
    - rewrite t_length, seq_length. lia.
    - intros x Hx. destruct (In_nth _ _ 0 Hx) as (i & Hi & <-). rewrite t_length in Hi. apply in_seq. destruct (t_pos i Hi). lia.
  Qed.
  Let w := map (fun r => 2 ^ (k - 1 - r)) t.
  Lemma dot_val bs : length bs = k -> dotn (map (bitOf dims bs) order) w = val bs.
  Proof.
    intros Hb. rewrite val_sum. rewrite Hb. fold (nsumn (map (fun r => nth r bs 0 * 2 ^ (k - 1 - r)) (seq 0 k))).
    rewrite <- (nsumn_perm _ _ (Permutation_map (fun r => nth r bs 0 * 2 ^ (k - 1 - r)) t_perm)).
    unfold dotn. fold (nsumn (map (fun p => fst p * snd p) (combine (map (bitOf dims bs) order) w))). f_equal.
    apply nth_ext with 0 0; rewrite !map_length, combine_length; unfold w; rewrite !map_length, t_length; fold k; [lia|].
    intros i Hi. assert (Hi' : i < k) by lia.
    rewrite (nth_map_lt _ _ _ (0, 0)) by (rewrite combine_length, !map_length, t_length; fold k; lia).
    rewrite combine_nth by (rewrite !map_length, t_length; auto).
    rewrite (nth_map_lt _ t _ 0) by (rewrite t_length; auto). cbn [fst snd].
    rewrite (nth_map_lt (bitOf dims bs) _ _ 0) by auto. rewrite (nth_map_lt _ t _ 0) by (rewrite t_length; auto).
    destruct (t_pos i Hi') as [H1 H2]. unfold bitOf. rewrite <- H2. rewrite idxOf_nth; auto.
    - apply sorted_lt_NoDup; auto.
    - rewrite len_dims. auto.
  Qed.
  Let newOrder := map (fun i => dotn i w) (bitLists k).
  Lemma newOrder_length : length newOrder = 2 ^ k.
  Proof. unfold newOrder. rewrite map_length, bitLists_length. auto. Qed.
  Lemma newOrder_at bs : bits k bs -> nth (val (map (bitOf dims bs) order)) newOrder 0 = val bs.
  Proof.
    intros Hb. assert (Hb' : bits k (map (bitOf dims bs) order)).
    { split; [rewrite map_length; auto|]. apply Forall_map, Forall_forall. intros d _. apply bitOf_bit. rewrite len_dims. auto. }
    unfold newOrder. rewrite (nth_map_lt _ _ _ []) by (rewrite bitLists_length; apply val_lt; auto).
    rewrite nth_val by auto. apply dot_val. apply Hb.
  Qed.
  Lemma newOrder_nodup : NoDup newOrder.
  Proof.
    apply NoDup_incl_NoDup with (seq 0 (2 ^ k)); [apply seq_NoDup|rewrite newOrder_length, seq_length; auto|].
    intros j Hj. apply in_seq in Hj. assert (Hj' : j < 2 ^ k) by lia. pose proof (nth_bits k j Hj') as Hb.
    rewrite <- (val_nth k j Hj'). rewrite <- (newOrder_at _ Hb). apply nth_In. rewrite newOrder_length. apply val_lt.
    split; [rewrite map_length; auto|]. apply Forall_map, Forall_forall. intros d _. apply bitOf_bit. rewrite len_dims. auto.
  Qed.
  (** position j of the reordered list is taken from the entry whose bits, read in [order], are the bits
      of j read in increasing dimension order *)
  Theorem inverse_order_spec {T} (X : ext T) : xargsort X = as_ -> forall bs, bits k bs ->
    nth (val bs) (getInverseOrder X order) 0 = val (map (bitOf dims bs) order).
  Proof.
    intros EX bs Hb. unfold getInverseOrder. rewrite EX. fold k. fold t. fold w. fold newOrder.
    assert (Hb' : bits k (map (bitOf dims bs) order)).
    { split; [rewrite map_length; auto|]. apply Forall_map, Forall_forall. intros d _. apply bitOf_bit. rewrite len_dims. auto. }
    rewrite <- (newOrder_at bs Hb) at 1. apply assignAt_seq; auto.
    - apply newOrder_nodup.
    - rewrite newOrder_length. apply val_lt; auto.
    - rewrite newOrder_length, newOrder_at by auto. apply val_lt; auto.
  Qed.
  Lemma inverse_order_length {T} (X : ext T) : length (getInverseOrder X order) = 2 ^ k.
  Proof. unfold getInverseOrder. rewrite assignAt_length, map_length, bitLists_length. reflexivity. Qed.
  (** so reordering a list indexed by bit lists in [order] gives the list indexed in [dims] *)
  Theorem reorder_spec {T A} (X : ext T) (f : list nat -> A) d : xargsort X = as_ ->
    map (fun i => nth i (map f (bitLists k)) d) (getInverseOrder X order) = map (fun bs => f (map (bitOf dims bs) order)) (bitLists k).
  Proof.
    intros EX. apply nth_ext with d (f (map (bitOf dims []) order)).
    - rewrite !map_length, inverse_order_length, bitLists_length. auto.
    - rewrite map_length, inverse_order_length. intros j Hj. pose proof (nth_bits k j Hj) as Hb.
      rewrite (nth_map_lt _ (getInverseOrder X order) _ 0) by (rewrite inverse_order_length; auto).
      rewrite (nth_map_lt _ (bitLists k) j []) by (rewrite bitLists_length; auto).
      rewrite <- (val_nth k j Hj) at 1. rewrite (inverse_order_spec X EX _ Hb).
      assert (Hb' : bits k (map (bitOf dims (nth j (bitLists k) [])) order)).
      { split; [rewrite map_length; auto|]. apply Forall_map, Forall_forall. intros x _. apply bitOf_bit. rewrite len_dims. auto. }
      rewrite (nth_map_lt f _ _ []) by (rewrite bitLists_length; apply val_lt; auto). rewrite nth_val by auto. reflexivity.
  Qed.
End Inv.
