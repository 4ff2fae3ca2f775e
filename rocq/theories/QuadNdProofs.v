(** * The n-D quadratic check and the enumeration of faces *)
From Coq Require Import List Arith Bool ZArith Reals Lra Lia Permutation Sorted.
From Verif Require Import Num RSum Cheb Tensor PolySpec TransformModel TransformChebProofs PartProofs IntervalProofs LinearProofs QuadModel QuadDescent QuadProofs.
Import ListNotations.
Local Open Scope R_scope.

(** ** combinations, get_fixed_vars *)
Definition increasing (l : list nat) : Prop := StronglySorted lt l.
Lemma in_comb n : forall a r c, In c (combinations (seq a n) r) <->
  increasing c /\ Forall (fun i => a <= i < a + n)%nat c /\ length c = r.
Proof.
  induction n as [|n IH]; intros a r c.
  - destruct r; simpl.
    + split; [intros [<-|[]]; repeat constructor|]. intros (_ & H & Hl). destruct c; [left; auto|discriminate].
    + split; [intros []|]. intros (_ & H & Hl). destruct c; [discriminate|]. inversion H; lia.
  - destruct r; simpl.
    + split; [intros [<-|[]]; repeat constructor|]. intros (_ & H & Hl). destruct c; [left; auto|discriminate].
    + rewrite in_app_iff, in_map_iff, IH. split.
      * intros [(c' & <- & H)|(H1 & H2 & H3)].
        -- apply IH in H. destruct H as (H1 & H2 & H3). split; [|split].
           ++ constructor; auto. eapply Forall_impl; [|exact H2]. intros; simpl in *; lia.
           ++ constructor; [lia|]. eapply Forall_impl; [|exact H2]. intros; simpl in *; lia.
           ++ simpl. lia.
        -- split; auto. split; auto. eapply Forall_impl; [|exact H2]. intros; simpl in *; lia.
      * intros (H1 & H2 & H3). destruct c as [|i c]; [discriminate|]. inversion H1; subst. inversion H2; subst. destruct (Nat.eq_dec i a) as [->|Hne].
        -- left. exists c. split; auto. apply IH. split; auto. split; [|simpl in H3; lia].
           rewrite Forall_forall in *. intros j Hj. specialize (H5 j Hj). specialize (H7 j Hj). lia.
        -- right. split; auto. split; auto. constructor; [lia|]. rewrite Forall_forall in *. intros j Hj. specialize (H5 j Hj). specialize (H7 j Hj). lia.
Qed.
Lemma NoDup_comb n : forall a r, NoDup (combinations (seq a n) r).
Proof.
  induction n as [|n IH]; intros a [|r]; simpl; try (repeat constructor; auto; fail).
  apply NoDup_app_intro; auto.
  - apply NoDup_map_inj; auto. intros x y _ _ E. inversion E; auto.
  - intros c H1 H2. apply in_map_iff in H1. destruct H1 as (c' & <- & _). apply in_comb in H2. destruct H2 as (_ & H2 & _). inversion H2; lia.
Qed.
Lemma NoDup_flat_map {A B} (f : A -> list B) l : NoDup l -> (forall a, In a l -> NoDup (f a)) ->
  (forall a b x, In a l -> In b l -> In x (f a) -> In x (f b) -> a = b) -> NoDup (flat_map f l).
Proof.
  induction 1 as [|a l Ha Hl IH]; intros H1 H2; simpl; [constructor|]. apply NoDup_app_intro.
  - apply H1; left; auto.
  - apply IH; [intros; apply H1; right; auto|]. intros b c x Hb Hc. apply H2; right; auto.
  - intros x Hx Hy. apply in_flat_map in Hy. destruct Hy as (b & Hb & Hy). assert (a = b) by (apply (H2 a b x); [left; auto|right; auto|auto|auto]). subst. contradiction.
Qed.
Lemma in_fixed dim c : In c (get_fixed_vars dim) <-> increasing c /\ Forall (fun i => i < dim)%nat c /\ (0 < length c < dim)%nat.
Proof.
  unfold get_fixed_vars. rewrite in_flat_map. split.
  - intros (r & Hr & Hc). apply in_rev in Hr. apply in_seq in Hr. apply in_comb in Hc. destruct Hc as (H1 & H2 & H3).
    split; auto. split; [|lia]. eapply Forall_impl; [|exact H2]. intros; simpl in *; lia.
  - intros (H1 & H2 & H3). exists (length c). split; [apply -> in_rev; apply in_seq; lia|]. apply in_comb. split; auto. split; auto.
    eapply Forall_impl; [|exact H2]. intros; simpl in *; lia.
Qed.
Lemma NoDup_fixed dim : NoDup (get_fixed_vars dim).
Proof.
  unfold get_fixed_vars. apply NoDup_flat_map.
  - apply NoDup_rev, seq_NoDup.
  - intros. apply NoDup_comb.
  - intros a b x _ _ Ha Hb. apply in_comb in Ha. apply in_comb in Hb. destruct Ha as (_ & _ & <-). destruct Hb as (_ & _ & <-). auto.
Qed.
Lemma sorted_app {A} (P : A -> A -> Prop) l m : StronglySorted P l -> StronglySorted P m -> (forall x y, In x l -> In y m -> P x y) -> StronglySorted P (l ++ m).
Proof.
  induction 1 as [|a l Hl IH Ha]; intros Hm Hc; simpl; auto. constructor.
  - apply IH; auto. intros; apply Hc; simpl; auto.
  - apply Forall_app. split; auto. apply Forall_forall. intros y Hy. apply Hc; simpl; auto.
Qed.
Lemma sorted_fixed dim : StronglySorted (fun c d => length d <= length c)%nat (get_fixed_vars dim).
Proof.
  unfold get_fixed_vars. generalize (dim - 1)%nat. intros m. induction m as [|m IH]; [constructor|].
  rewrite seq_S, rev_app_distr. simpl. apply sorted_app; auto.
  - assert (H : Forall (fun c => length c = S m) (combinations (seq 0 dim) (S m))).
    { apply Forall_forall. intros c Hc. apply in_comb in Hc. tauto. }
    induction H; constructor; auto. eapply Forall_impl; [|exact H0]. intros; simpl in *; lia.
  - intros x y Hx Hy. apply in_flat_map in Hy. destruct Hy as (r & Hr & Hy). apply in_rev in Hr. apply in_seq in Hr.
    apply in_comb in Hx. apply in_comb in Hy. destruct Hx as (_ & _ & Hx). destruct Hy as (_ & _ & Hy). lia.
Qed.
Lemma increasing_filter p a n : increasing (filter p (seq a n)).
Proof.
  revert a; induction n as [|n IH]; intros a; simpl; [constructor|]. destruct (p a); [|apply IH]. constructor; [apply IH|].
  apply Forall_forall. intros x Hx. apply filter_In in Hx. destruct Hx as [Hx _]. apply in_seq in Hx. lia.
Qed.

(** ** Indices of degree at most two *)
Definition crossIdx (n : nat) : list (list nat) := flat_map (fun i => map (fun j => spot2 n i j) (seq (S i) (n - S i))) (seq 0 n).
Definition quadIdx (n : nat) : list (list nat) :=
  [zidx n] ++ map (fun i => spot1 n i 1) (seq 0 n) ++ map (fun i => spot1 n i 2) (seq 0 n) ++ crossIdx n.
Lemma spot1_nth n i v k : (i < n)%nat -> nth k (spot1 n i v) 0%nat = if (k =? i)%nat then v else 0%nat.
Proof. apply (eidx_nth n i v k). Qed.
Lemma spot2_nth n i j k : (i < n)%nat -> (j < n)%nat -> nth k (spot2 n i j) 0%nat = if (k =? j)%nat then 1%nat else if (k =? i)%nat then 1%nat else 0%nat.
Proof.
  intros Hi Hj. unfold spot2. rewrite (nth_upd (upd (repeat 0%nat n) i 1%nat)) by (rewrite upd_length, repeat_length; auto).
  destruct (Nat.eqb_spec k j); auto. apply (eidx_nth n i 1 k Hi).
Qed.
Lemma spot1_len n i v : length (spot1 n i v) = n.
Proof. unfold spot1. rewrite upd_length, repeat_length. auto. Qed.
Lemma spot2_len n i j : length (spot2 n i j) = n.
Proof. unfold spot2. rewrite !upd_length, repeat_length. auto. Qed.
Lemma degree_zero n : degree (zidx n) = 0%nat.
Proof. induction n; simpl; auto. Qed.
Lemma degree_upd l k v : (k < length l)%nat -> (degree (upd l k v) + nth k l 0 = degree l + v)%nat.
Proof. revert k; induction l; intros k Hk; simpl in *; [lia|]. destruct k; simpl; [lia|]. specialize (IHl k ltac:(lia)). lia. Qed.
Lemma degree_spot1 n i v : (i < n)%nat -> degree (spot1 n i v) = v.
Proof. intros H. unfold spot1. pose proof (degree_upd (repeat 0%nat n) i v ltac:(rewrite repeat_length; auto)) as E. rewrite nth_repeat in E. fold (zidx n) in *. rewrite degree_zero in E. lia. Qed.
Lemma degree_spot2 n i j : (i < j < n)%nat -> degree (spot2 n i j) = 2%nat.
Proof.
  intros H. unfold spot2. pose proof (degree_upd (upd (repeat 0%nat n) i 1%nat) j 1%nat ltac:(rewrite upd_length, repeat_length; lia)) as E.
  change (upd (repeat 0%nat n) i 1%nat) with (spot1 n i 1) in *. rewrite spot1_nth, degree_spot1 in E by lia. destruct (Nat.eqb_spec j i); lia.
Qed.
Lemma degree_pos l : (0 < degree l)%nat -> exists k, (k < length l)%nat /\ (0 < nth k l 0)%nat.
Proof.
  induction l as [|a l IH]; simpl; [lia|]. intros H. destruct a; [|exists 0%nat; split; simpl; lia].
  destruct IH as (k & Hk & Hp); [lia|]. exists (S k). split; [lia|auto].
Qed.
Lemma degree_0_eq l : degree l = 0%nat -> l = zidx (length l).
Proof. induction l as [|a l IH]; simpl; auto. intros H. destruct a; [|lia]. change (zidx (S (length l))) with (0%nat :: zidx (length l)). rewrite <- IH by lia. auto. Qed.
Lemma degree_dec l d : degree l = S d -> exists k m, (k < length l)%nat /\ l = upd m k (S (nth k m 0%nat)) /\ degree m = d /\ length m = length l.
Proof.
  intros H. destruct (degree_pos l) as (k & Hk & Hp); [lia|]. exists k, (upd l k (nth k l 0%nat - 1)%nat). split; auto.
  pose proof (degree_upd l k (nth k l 0%nat - 1)%nat Hk). rewrite upd_length. split; [|split; [lia|auto]].
  rewrite nth_upd_eq, upd_upd by auto. replace (S (nth k l 0%nat - 1))%nat with (nth k l 0%nat) by lia. rewrite upd_nth. auto.
Qed.
Lemma in_cross n c : In c (crossIdx n) <-> exists i j, (i < j < n)%nat /\ c = spot2 n i j.
Proof.
  unfold crossIdx. rewrite in_flat_map. split.
  - intros (i & Hi & Hc). apply in_seq in Hi. apply in_map_iff in Hc. destruct Hc as (j & <- & Hj). apply in_seq in Hj. exists i, j. split; auto. lia.
  - intros (i & j & Hij & ->). exists i. split; [apply in_seq; lia|]. apply in_map_iff. exists j. split; auto. apply in_seq. lia.
Qed.
Lemma in_quadIdx n c : In c (quadIdx n) <-> length c = n /\ (degree c < 3)%nat.
Proof.
  unfold quadIdx. rewrite !in_app_iff, !in_map_iff, in_cross. split.
  - intros [[<-|[]]|[(i & <- & Hi)|[(i & <- & Hi)|(i & j & Hij & ->)]]].
    + unfold zidx. rewrite repeat_length. fold (zidx n). rewrite degree_zero. auto.
    + apply in_seq in Hi. rewrite spot1_len, degree_spot1 by lia. auto.
    + apply in_seq in Hi. rewrite spot1_len, degree_spot1 by lia. auto.
    + rewrite spot2_len, degree_spot2 by lia. auto.
  - intros [Hl Hd]. destruct (degree c) as [|[|[|d]]] eqn:E; [| | |lia].
    + left; left. symmetry. rewrite <- Hl. apply degree_0_eq; auto.
    + right; left. destruct (degree_dec c 0 E) as (k & m & Hk & Hc & Hm & Hlm). exists k. split; [|apply in_seq; lia].
      apply degree_0_eq in Hm. rewrite Hc, Hm, Hlm, Hl. unfold spot1, zidx. rewrite nth_repeat. auto.
    + destruct (degree_dec c 1 E) as (k & m & Hk & Hc & Hm & Hlm). destruct (degree_dec m 0 Hm) as (k' & m' & Hk' & Hc' & Hm' & Hlm').
      apply degree_0_eq in Hm'. assert (Em : m = spot1 n k' 1). { rewrite Hc', Hm', Hlm', Hlm, Hl. unfold spot1, zidx. rewrite nth_repeat. auto. }
      rewrite Em in Hc. rewrite spot1_nth in Hc by lia. destruct (Nat.eqb_spec k k') as [->|Hne].
      * right; right; left. exists k'. split; [|apply in_seq; lia]. rewrite Hc. unfold spot1. rewrite upd_upd. auto.
      * right; right; right. destruct (Nat.lt_ge_cases k' k).
        -- exists k', k. split; [lia|]. rewrite Hc. reflexivity.
        -- exists k, k'. split; [lia|]. rewrite Hc. unfold spot1, spot2. apply upd_comm; auto.
Qed.
Lemma NoDup_quadIdx n : NoDup (quadIdx n).
Proof.
  assert (Hs1 : forall v, (0 < v)%nat -> NoDup (map (fun i => spot1 n i v) (seq 0 n))).
  { intros v Hv. apply NoDup_map_inj; [|apply seq_NoDup]. intros x y Hx Hy E. apply in_seq in Hx. apply in_seq in Hy.
    assert (E' : nth x (spot1 n x v) 0%nat = nth x (spot1 n y v) 0%nat) by (rewrite E; auto). rewrite !spot1_nth in E' by lia. rewrite Nat.eqb_refl in E'.
    destruct (Nat.eqb_spec x y); auto. lia. }
  unfold quadIdx. apply NoDup_app_intro; [repeat constructor; auto| |].
  - apply NoDup_app_intro; [apply Hs1; lia| |].
    + apply NoDup_app_intro; [apply Hs1; lia| |].
      * unfold crossIdx. apply NoDup_flat_map; [apply seq_NoDup| |].
        -- intros i Hi. apply in_seq in Hi. apply NoDup_map_inj; [|apply seq_NoDup]. intros x y Hx Hy E. apply in_seq in Hx. apply in_seq in Hy.
           assert (E' : nth x (spot2 n i x) 0%nat = nth x (spot2 n i y) 0%nat) by (rewrite E; auto). rewrite !spot2_nth in E' by lia. rewrite Nat.eqb_refl in E'.
           destruct (Nat.eqb_spec x y); auto. destruct (Nat.eqb_spec x i); lia.
        -- intros a b x Ha Hb Hxa Hxb. apply in_map_iff in Hxa. destruct Hxa as (j & <- & Hj). apply in_map_iff in Hxb. destruct Hxb as (j' & E & Hj').
           apply in_seq in Ha. apply in_seq in Hb. apply in_seq in Hj. apply in_seq in Hj'.
           assert (Ea : nth a (spot2 n b j') 0%nat = nth a (spot2 n a j) 0%nat) by (rewrite E; auto).
           assert (Eb : nth b (spot2 n b j') 0%nat = nth b (spot2 n a j) 0%nat) by (rewrite E; auto).
           rewrite !spot2_nth in Ea, Eb by lia. rewrite Nat.eqb_refl in Ea, Eb.
           destruct (Nat.eqb_spec a b); auto. destruct (Nat.eqb_spec a j'); destruct (Nat.eqb_spec a j); destruct (Nat.eqb_spec b j); destruct (Nat.eqb_spec b j'); destruct (Nat.eqb_spec b a); lia.
      * intros x Hx Hy. apply in_map_iff in Hx. destruct Hx as (i & <- & Hi). apply in_seq in Hi. apply in_cross in Hy. destruct Hy as (a & b & Hab & E).
        assert (E' : nth i (spot1 n i 2) 0%nat = nth i (spot2 n a b) 0%nat) by (rewrite E; auto). rewrite spot1_nth, spot2_nth, Nat.eqb_refl in E' by lia.
        destruct (Nat.eqb_spec i b); [lia|]. destruct (Nat.eqb_spec i a); lia.
    + intros x Hx Hy. apply in_map_iff in Hx. destruct Hx as (i & <- & Hi). apply in_seq in Hi.
      assert (E : degree (spot1 n i 1) = 1%nat) by (apply degree_spot1; lia). apply in_app_iff in Hy. destruct Hy as [Hy|Hy].
      * apply in_map_iff in Hy. destruct Hy as (j & E' & Hj). apply in_seq in Hj. rewrite <- E', degree_spot1 in E by lia. lia.
      * apply in_cross in Hy. destruct Hy as (a & b & Hab & E'). rewrite E', degree_spot2 in E by lia. lia.
  - intros x [<-|[]] Hy. pose proof (degree_zero n) as E. apply in_app_iff in Hy. destruct Hy as [Hy|Hy]; [|apply in_app_iff in Hy; destruct Hy as [Hy|Hy]].
    + apply in_map_iff in Hy. destruct Hy as (j & E' & Hj). apply in_seq in Hj. rewrite <- E', degree_spot1 in E by lia. lia.
    + apply in_map_iff in Hy. destruct Hy as (j & E' & Hj). apply in_seq in Hj. rewrite <- E', degree_spot1 in E by lia. lia.
    + apply in_cross in Hy. destruct Hy as (a & b & Hab & E'). rewrite E', degree_spot2 in E by lia. lia.
Qed.

(** ** The quadratic form of the n-D check *)
Definition kN (M : tensor R) : R := @ndConst R R_num M - sumn (ndim M) (fun i => nth i (@ndP R R_num M) 0).
Definition BN (M : tensor R) (i : nat) : R := nth i (@ndB R R_num M) 0.
Definition HN (M : tensor R) (i j : nat) : R := @mij R R_num (@ndA R R_num M) i j.
Lemma PN_nth (M : tensor R) i : (i < ndim M)%nat -> nth i (@ndP R R_num M) 0 = @pget R R_num M (spot1 (ndim M) i 2).
Proof. intros. unfold ndP. rewrite nth_map_seq; auto. Qed.
Lemma BN_nth (M : tensor R) i : (i < ndim M)%nat -> BN M i = @pget R R_num M (spot1 (ndim M) i 1).
Proof. intros. unfold BN, ndB. rewrite nth_map_seq; auto. Qed.
Lemma HN_nth (M : tensor R) i j : (i < ndim M)%nat -> (j < ndim M)%nat ->
  HN M i j = if (i =? j)%nat then 4 * nth i (@ndP R R_num M) 0 else @pget R R_num M (spot2 (ndim M) (min i j) (max i j)).
Proof. intros. unfold HN, mij, ndA. rewrite nth_map_seq, nth_map_seq by auto. destruct (i =? j)%nat; auto. rewrite n2_R. rnum. ring. Qed.
Lemma HN_sym (M : tensor R) i j : (i < ndim M)%nat -> (j < ndim M)%nat -> HN M i j = HN M j i.
Proof.
  intros. rewrite !HN_nth by auto. destruct (Nat.eqb_spec i j) as [->|Hn]; [rewrite Nat.eqb_refl; auto|].
  destruct (Nat.eqb_spec j i); [congruence|]. rewrite Nat.min_comm, Nat.max_comm. auto.
Qed.
Lemma tail_sum n i (f : nat -> R) : (i < n)%nat -> Rsum (map f (seq (S i) (n - S i))) = sumn n (fun j => if (i <? j)%nat then f j else 0).
Proof.
  intros Hi. replace n with (S i + (n - S i))%nat at 2 by lia. rewrite sumn_split. rewrite sumn_zero.
  - rewrite Rplus_0_l, <- Rsum_map_seq.
    assert (E : seq (S i) (n - S i) = map (fun k => S i + k)%nat (seq 0 (n - S i))).
    { generalize (n - S i)%nat. intros m. generalize (S i). clear. intros k.
      assert (G : forall a, seq (k + a) m = map (fun j => k + j)%nat (seq a m)).
      { induction m; intros a; simpl; auto. f_equal. rewrite <- IHm. f_equal. lia. }
      rewrite <- (G 0%nat). f_equal. lia. }
    rewrite E, map_map. apply Rsum_map_ext. intros k _. destruct (Nat.ltb_spec i (S i + k)); [auto|lia].
  - intros j Hj. destruct (Nat.ltb_spec i j); [lia|auto].
Qed.
Lemma sym_sum n (G : nat -> nat -> R) : (forall i j, (i < n)%nat -> (j < n)%nat -> G i j = G j i) ->
  sumn n (fun i => sumn n (fun j => G i j)) = sumn n (fun i => G i i) + 2 * sumn n (fun i => sumn n (fun j => if (i <? j)%nat then G i j else 0)).
Proof.
  induction n as [|n IH]; intros Hs; [simpl; ring|]. cbn [sumn].
  rewrite !sumn_plus. rewrite IH by (intros; apply Hs; lia).
  assert (E1 : sumn n (fun j => G n j) = sumn n (fun i => G i n)) by (apply sumn_ext; intros; apply Hs; lia).
  assert (E2 : sumn n (fun i => if (i <? n)%nat then G i n else 0) = sumn n (fun i => G i n)).
  { apply sumn_ext. intros i Hi. destruct (Nat.ltb_spec i n); [auto|lia]. }
  assert (E3 : sumn n (fun j => if (n <? j)%nat then G n j else 0) = 0).
  { apply sumn_zero. intros j Hj. destruct (Nat.ltb_spec n j); [lia|auto]. }
  rewrite E1, E2, E3. rewrite Nat.ltb_irrefl. ring.
Qed.
(** the quadratic form, written with each cross term once *)
Lemma quadf_terms (M : tensor R) (x : vec) :
  quadf (ndim M) (kN M) (BN M) (HN M) x =
  @ndConst R R_num M + sumn (ndim M) (fun i => BN M i * x i) + sumn (ndim M) (fun i => nth i (@ndP R R_num M) 0 * (2 * x i * x i - 1))
  + sumn (ndim M) (fun i => sumn (ndim M) (fun j => if (i <? j)%nat then HN M i j * (x i * x j) else 0)).
Proof.
  set (n := ndim M). unfold quadf, kN, dot, mulv. fold n.
  assert (E : sumn n (fun i => x i * sumn n (fun j => HN M i j * x j)) = sumn n (fun i => sumn n (fun j => HN M i j * (x i * x j)))).
  { apply sumn_ext. intros i Hi. rewrite <- sumn_scal. apply sumn_ext. intros; ring. }
  rewrite E, sym_sum. 2:{ intros i j Hi Hj. rewrite (HN_sym M i j) by auto. ring. }
  assert (E2 : sumn n (fun i => HN M i i * (x i * x i)) = 2 * sumn n (fun i => nth i (@ndP R R_num M) 0 * (2 * x i * x i - 1)) + 2 * sumn n (fun i => nth i (@ndP R R_num M) 0)).
  { rewrite <- !sumn_scal, <- sumn_plus. apply sumn_ext. intros i Hi. rewrite HN_nth by auto. rewrite Nat.eqb_refl. ring. }
  rewrite E2. field.
Qed.
Lemma fold_add (F : nat -> R) l a : fold_left (fun s i => s + F i) l a = a + Rsum (map F l).
Proof. revert a; induction l; intros; simpl; [ring|]. rewrite IHl. ring. Qed.
Lemma ndEval_quadf (M : tensor R) pt : @ndEval R R_num M pt = quadf (ndim M) (kN M) (BN M) (HN M) (fun i => nth i pt 0).
Proof.
  rewrite quadf_terms. unfold ndEval. set (n := ndim M). rewrite n2_R, nsum_R. cbn [nadd nmul nsub R_num].
  rewrite (fold_add (fun i => (nth i (ndB M) n0 + 2 * nth i (ndP M) n0 * nth i pt n0 + nsum (map (fun j => mij (ndA M) i j * nth j pt n0) (seq (S i) (n - S i)))) * nth i pt n0)).
  rewrite Rsum_map_seq. cbn [n0 R_num].
  assert (E0 : fold_right Rplus 0 (ndP M) = sumn n (fun i => nth i (@ndP R R_num M) 0)).
  { change (fold_right Rplus 0 (ndP M)) with (Rsum (ndP M)). rewrite Rsum_nth. unfold ndP at 1. rewrite map_length, seq_length. auto. }
  rewrite E0.
  assert (E : sumn n (fun i => (nth i (ndB M) 0 + 2 * nth i (ndP M) 0 * nth i pt 0 + nsum (map (fun j => mij (ndA M) i j * nth j pt 0) (seq (S i) (n - S i)))) * nth i pt 0)
    = sumn n (fun i => BN M i * nth i pt 0) + (sumn n (fun i => nth i (@ndP R R_num M) 0 * (2 * nth i pt 0 * nth i pt 0 - 1)) + sumn n (fun i => nth i (@ndP R R_num M) 0))
      + sumn n (fun i => sumn n (fun j => if (i <? j)%nat then HN M i j * (nth i pt 0 * nth j pt 0) else 0))).
  { rewrite <- !sumn_plus. apply sumn_ext. intros i Hi.
    assert (E1 : nsum (map (fun j => mij (ndA M) i j * nth j pt 0) (seq (S i) (n - S i))) = sumn n (fun j => if (i <? j)%nat then HN M i j * nth j pt 0 else 0)).
    { rewrite nsum_R. apply (tail_sum n i (fun j => HN M i j * nth j pt 0) Hi). }
    rewrite E1.
    assert (E2 : sumn n (fun j => if (i <? j)%nat then HN M i j * (nth i pt 0 * nth j pt 0) else 0) = sumn n (fun j => if (i <? j)%nat then HN M i j * nth j pt 0 else 0) * nth i pt 0).
    { rewrite <- sumn_scal_r. apply sumn_ext. intros j _. destruct (i <? j)%nat; ring. }
    rewrite E2. unfold BN. ring. }
  rewrite E. ring.
Qed.
Lemma basis_spot2 x i j : (i < j < length x)%nat -> basis chebT (spot2 (length x) i j) x = nth i x 0 * nth j x 0.
Proof.
  revert i j; induction x as [|v x IH]; intros i j H; simpl in *; [lia|]. destruct j; [lia|]. destruct i; unfold spot2; simpl.
  - rewrite chebT_1. f_equal. change (basis chebT (eidx (length x) j 1) x = nth j x 0). rewrite basis_eidx by lia. apply chebT_1.
  - rewrite chebT_0, Rmult_1_l. apply IH. lia.
Qed.
Lemma map_flat_map {A B C} (f : B -> C) (g : A -> list B) l : map f (flat_map g l) = flat_map (fun a => map f (g a)) l.
Proof. induction l; simpl; auto. rewrite map_app, IHl. auto. Qed.
Lemma quadIdx_sum (M : tensor R) x : length x = ndim M ->
  Rsum (map (fun i => @pget R R_num M i * basis chebT i x) (quadIdx (ndim M))) = quadf (ndim M) (kN M) (BN M) (HN M) (fun i => nth i x 0).
Proof.
  intros Hl. rewrite quadf_terms. set (n := ndim M) in *. unfold quadIdx. rewrite !map_app, !Rsum_app, !map_map, !Rsum_map_seq.
  rewrite !Rplus_assoc. apply f_equal2; [|apply f_equal2; [|apply f_equal2]].
  - simpl. rewrite <- Hl, basis_zero. unfold ndConst. fold n. rewrite Hl. unfold zidx. ring.
  - apply sumn_ext. intros i Hi. rewrite BN_nth by auto. fold n. rewrite <- Hl. change (spot1 (length x) i 1) with (eidx (length x) i 1). rewrite basis_eidx by lia. rewrite chebT_1. auto.
  - apply sumn_ext. intros i Hi. rewrite PN_nth by auto. fold n. rewrite <- Hl. change (spot1 (length x) i 2) with (eidx (length x) i 2). rewrite basis_eidx by lia. rewrite chebT_2. auto.
  - unfold crossIdx. rewrite map_flat_map.
    rewrite <- (Rsum_map_seq (fun i => sumn n (fun j => if (i <? j)%nat then HN M i j * (nth i x 0 * nth j x 0) else 0))).
    rewrite Rsum_flat_map. apply Rsum_map_ext. intros i Hi. apply in_seq in Hi. rewrite map_map.
    rewrite (tail_sum n i (fun j => pget M (spot2 n i j) * basis chebT (spot2 n i j) x)) by lia. apply sumn_ext. intros j Hj. destruct (Nat.ltb_spec i j); auto.
    rewrite HN_nth by (unfold n in *; lia). destruct (Nat.eqb_spec i j); [lia|]. fold n. rewrite Nat.min_l, Nat.max_r by lia. f_equal.
    rewrite <- Hl. apply basis_spot2. lia.
Qed.
Lemma ndOther_eq (M : tensor R) tol : wf M ->
  @ndOther R R_num M tol = sumabs M - Rsum (map (fun i => Rabs (@pget R R_num M i)) (quadIdx (ndim M))) + tol.
Proof.
  intros Hwf. unfold ndOther, nsumabs. rewrite nsum_R. cbn [nadd nabs n0 R_num]. f_equal.
  change (fold_right Rplus 0) with Rsum. rewrite map_map.
  assert (E : Rsum (map (fun i => Rabs (@pget R R_num M i)) (quadIdx (ndim M))) = Rsum (map (fun i => if (degree i <? 3)%nat then Rabs (tget M i) else 0) (indices (shp M)))).
  { rewrite <- (Rsum_filter (fun i => (degree i <? 3)%nat) (fun i => Rabs (tget M i))).
    rewrite (Rsum_map_ext (fun i => Rabs (pget M i)) (fun i => if inrangeb (shp M) i then Rabs (tget M i) else 0)).
    2:{ intros i _. unfold pget. destruct inrangeb; auto. cbn [n0 R_num]. apply Rabs_R0. }
    rewrite <- Rsum_filter. apply Rsum_perm, Permutation_map. apply NoDup_Permutation; [apply NoDup_filter, NoDup_quadIdx|apply NoDup_filter, NoDup_indices|].
    intros c. rewrite !filter_In, in_quadIdx, Nat.ltb_lt, in_indices. split.
    - intros [[H1 H2] H3]. split; auto. apply inrangeb_iff; auto.
    - intros [H1 H2]. pose proof (inrange_length _ _ H1) as Hlen. split; [split; auto|]. apply inrangeb_iff; auto. }
  rewrite E. unfold sumabs. rewrite <- Rsum_map_minus. apply Rsum_map_ext. intros i _. destruct (degree i <? 3)%nat; [rewrite Rabs_R0|]; ring.
Qed.
