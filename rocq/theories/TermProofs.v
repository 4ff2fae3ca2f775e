(** * Lemmas about terms and monomial enumerations *)
From Coq Require Import List Arith Bool ZArith Lia.
From Verif Require Import TermModel.
Import ListNotations.

(** ** First difference *)
Lemma fdl_spec u : forall v, length u = length v ->
  (firstDiffLess u v = true <-> exists k, k < length u /\ (nth k u 0 < nth k v 0)%Z /\ forall j, j < k -> nth j u 0%Z = nth j v 0%Z).
Proof.
  induction u as [|x u IH]; intros [|y v] L; simpl in *; try discriminate.
  - split; [discriminate|intros [k [Hk _]]; lia].
  - destruct (Z.ltb_spec x y) as [A|A].
    + split; [intros _|reflexivity]. exists 0; split; [lia|split; [assumption|intros; lia]].
    + destruct (Z.ltb_spec y x) as [B|B].
      * split; [discriminate|]. intros [[|k] [Hk [H1 H2]]]; [lia|]. specialize (H2 0 ltac:(lia)); simpl in H2; lia.
      * assert (x = y) by lia; subst y. rewrite IH by lia. split; intros [k [Hk [H1 H2]]].
        -- exists (S k); split; [lia|split; [assumption|]]. intros [|j] Hj; [reflexivity|apply H2; lia].
        -- destruct k as [|k]; [lia|]. exists k; split; [lia|split; [assumption|]]. intros j Hj; apply (H2 (S j)); lia.
Qed.
Lemma fdg_swap u : forall v, firstDiffGreater u v = firstDiffLess v u.
Proof.
  induction u as [|x u IH]; intros [|y v]; simpl; try reflexivity.
  destruct (Z.ltb_spec x y), (Z.ltb_spec y x); try lia; try reflexivity. apply IH.
Qed.
Lemma fdl_irrefl u : firstDiffLess u u = false.
Proof. induction u as [|x u IH]; simpl; [reflexivity|]. rewrite Z.ltb_irrefl. exact IH. Qed.
Lemma fdl_trans u : forall v w, length u = length v -> length v = length w ->
  firstDiffLess u v = true -> firstDiffLess v w = true -> firstDiffLess u w = true.
Proof.
  induction u as [|x u IH]; intros [|y v] [|z w]; simpl; try discriminate; intros L1 L2 H1 H2.
  destruct (Z.ltb_spec x y), (Z.ltb_spec y x); try lia; try discriminate;
  destruct (Z.ltb_spec y z), (Z.ltb_spec z y); try lia; try discriminate;
  destruct (Z.ltb_spec x z), (Z.ltb_spec z x); try lia; try reflexivity.
  apply (IH v w); [lia|lia|assumption|assumption].
Qed.
Lemma fdl_total u : forall v, length u = length v -> firstDiffLess u v = false -> firstDiffLess v u = false -> u = v.
Proof.
  induction u as [|x u IH]; intros [|y v]; simpl; try discriminate; intros L H1 H2; [reflexivity|].
  destruct (Z.ltb_spec x y), (Z.ltb_spec y x); try lia; try discriminate. f_equal; [lia|apply IH; [lia|assumption|assumption]].
Qed.
Fixpoint vadd (u v : list Z) : list Z := match u, v with x :: u', y :: v' => (x + y)%Z :: vadd u' v' | _, _ => [] end.
Lemma vadd_length u : forall v, length u = length v -> length (vadd u v) = length u.
Proof. induction u as [|x u IH]; intros [|y v]; simpl; try discriminate; auto. Qed.
Lemma fdl_add u : forall v w, length u = length v -> length u = length w -> firstDiffLess (vadd u w) (vadd v w) = firstDiffLess u v.
Proof.
  induction u as [|x u IH]; intros [|y v] [|z w]; simpl; try discriminate; intros L1 L2; [reflexivity|].
  destruct (Z.ltb_spec x y), (Z.ltb_spec y x), (Z.ltb_spec (x + z) (y + z)), (Z.ltb_spec (y + z) (x + z)); try lia; try reflexivity.
  apply IH; lia.
Qed.
Lemma vadd_app u u' : forall v v', length u = length v -> vadd (u ++ u') (v ++ v') = vadd u v ++ vadd u' v'.
Proof. induction u as [|x u IH]; intros [|y v] v' L; simpl in *; try discriminate; [reflexivity|]. rewrite IH by lia; reflexivity. Qed.
Lemma vadd_rev u : forall v, length u = length v -> rev (vadd u v) = vadd (rev u) (rev v).
Proof.
  induction u as [|x u IH]; intros [|y v] L; simpl in *; try discriminate; [reflexivity|].
  rewrite IH by lia. rewrite vadd_app by (rewrite !rev_length; lia). reflexivity.
Qed.
Lemma tsum_add u : forall v, length u = length v -> tsum (vadd u v) = (tsum u + tsum v)%Z.
Proof. induction u as [|x u IH]; intros [|y v] L; simpl in *; try discriminate; [reflexivity|]. unfold tsum in *; simpl; rewrite IH by lia; lia. Qed.

(** ** The order *)
Lemma term_eq_iff u : forall v, term_eq u v = true <-> u = v.
Proof.
  induction u as [|x u IH]; intros [|y v]; simpl; try (split; [discriminate|congruence]); [intuition|].
  rewrite andb_true_iff, Z.eqb_eq, IH. split; [intros [-> ->]; reflexivity|intro E; inversion E; auto].
Qed.
Lemma lt_grevlex u v : term_lt u v Grevlex = true <-> (tsum u < tsum v)%Z \/ (tsum u = tsum v /\ firstDiffLess (rev v) (rev u) = true).
Proof.
  unfold term_lt; rewrite fdg_swap. destruct (Z.ltb_spec (tsum u) (tsum v)), (Z.ltb_spec (tsum v) (tsum u)); intuition lia.
Qed.
Lemma lt_irrefl u : term_lt u u Grevlex = false.
Proof. apply not_true_is_false; rewrite lt_grevlex, fdl_irrefl. intros [H|[_ H]]; [lia|discriminate]. Qed.
Lemma lt_trans u v w : length u = length v -> length v = length w ->
  term_lt u v Grevlex = true -> term_lt v w Grevlex = true -> term_lt u w Grevlex = true.
Proof.
  intros L1 L2; rewrite !lt_grevlex. intros [A|[A A']] [B|[B B']]; try (left; lia). right; split; [lia|].
  apply (fdl_trans _ (rev v)); rewrite ?rev_length; auto.
Qed.
Lemma lt_total u v : length u = length v -> term_lt u v Grevlex = false -> term_lt v u Grevlex = false -> u = v.
Proof.
  intros L H1 H2. assert (N1 : ~ term_lt u v Grevlex = true) by congruence. assert (N2 : ~ term_lt v u Grevlex = true) by congruence.
  rewrite lt_grevlex in N1, N2. assert (E : tsum u = tsum v) by lia.
  rewrite <- (rev_involutive u), <- (rev_involutive v). f_equal. apply fdl_total; [rewrite !rev_length; assumption| |]; apply not_true_is_false; intro C; [apply N2|apply N1]; right; auto.
Qed.
Lemma lt_asym u v : length u = length v -> term_lt u v Grevlex = true -> term_lt v u Grevlex = false.
Proof. intros L H; apply not_true_is_false; intro C. assert (X := lt_trans u v u L (eq_sym L) H C). rewrite lt_irrefl in X; discriminate. Qed.
Lemma gt_lt u v : length u = length v -> term_gt u v = term_lt v u Grevlex.
Proof.
  intro L; unfold term_gt. destruct (term_lt u v Grevlex) eqn:A; cbn [orb negb].
  - symmetry; apply lt_asym; assumption.
  - destruct (term_eq u v) eqn:B; cbn [orb negb].
    + apply term_eq_iff in B; subst v; symmetry; apply lt_irrefl.
    + destruct (term_lt v u Grevlex) eqn:C; [reflexivity|]. assert (E := lt_total u v L A C). apply term_eq_iff in E; congruence.
Qed.
Lemma lt_mul u v w : length u = length v -> length u = length w -> term_lt (vadd u w) (vadd v w) Grevlex = term_lt u v Grevlex.
Proof.
  intros L1 L2. apply eq_iff_eq_true; rewrite !lt_grevlex. rewrite !tsum_add by lia. rewrite !vadd_rev by lia.
  rewrite fdl_add by (rewrite !rev_length; lia). intuition lia.
Qed.
Lemma lt_mul_other o u v w : length u = length v -> length u = length w -> term_lt (vadd u w) (vadd v w) o = term_lt u v o.
Proof.
  intros L1 L2; destruct o; [apply lt_mul; assumption| |]; unfold term_lt.
  - apply fdl_add; assumption.
  - rewrite !tsum_add by lia. rewrite fdl_add by lia.
    destruct (Z.ltb_spec (tsum u + tsum w) (tsum v + tsum w)), (Z.ltb_spec (tsum u) (tsum v)), (Z.ltb_spec (tsum v + tsum w) (tsum u + tsum w)),
      (Z.ltb_spec (tsum v) (tsum u)); try lia; reflexivity.
Qed.

(** ** No infinite descent *)
Fixpoint digits (B : Z) (r : list Z) : Z := match r with [] => 0%Z | x :: r' => (x * B ^ Z.of_nat (length r') + digits B r')%Z end.
Lemma pow_S B n : (B ^ Z.of_nat (S n) = B * B ^ Z.of_nat n)%Z.
Proof. rewrite Nat2Z.inj_succ, Z.pow_succ_r by lia; reflexivity. Qed.
Lemma digits_bound B r : (0 < B)%Z -> Forall (fun x => 0 <= x < B)%Z r -> (0 <= digits B r < B ^ Z.of_nat (length r))%Z.
Proof.
  intros HB H; induction H as [|x r Hx Hr IH]; [simpl; lia|]. cbn [digits length]. rewrite pow_S.
  assert (0 < B ^ Z.of_nat (length r))%Z by (apply Z.pow_pos_nonneg; lia). nia.
Qed.
Lemma digits_less B u : forall v, (0 < B)%Z -> length u = length v -> Forall (fun x => 0 <= x < B)%Z u -> Forall (fun x => 0 <= x < B)%Z v ->
  firstDiffLess u v = true -> (digits B u < digits B v)%Z.
Proof.
  induction u as [|x u IH]; intros [|y v] HB L Hu Hv H; simpl in H; try discriminate.
  inversion Hu; subst. inversion Hv; subst. injection L as L. cbn [digits].
  assert (Bu := digits_bound B u HB ltac:(assumption)). assert (Bv := digits_bound B v HB ltac:(assumption)).
  rewrite L in Bu |- *. assert (0 < B ^ Z.of_nat (length v))%Z by (apply Z.pow_pos_nonneg; lia).
  destruct (Z.ltb_spec x y) as [A|A]; [nia|]. destruct (Z.ltb_spec y x) as [A'|A']; [discriminate|].
  assert (x = y) by lia; subst y. specialize (IH v HB L ltac:(assumption) ltac:(assumption) H). lia.
Qed.
Definition monomial (n : nat) (u : term) : Prop := length u = n /\ Forall (fun x => 0 <= x)%Z u.
Lemma entries_le u : Forall (fun x => 0 <= x)%Z u -> (0 <= tsum u)%Z /\ Forall (fun x => 0 <= x < tsum u + 1)%Z u.
Proof.
  induction 1 as [|x u Hx Hu [IH1 IH2]]; [split; [unfold tsum; simpl; lia|constructor]|]. unfold tsum in *; cbn [fold_right].
  split; [lia|]. constructor; [lia|]. eapply Forall_impl; [|exact IH2]. simpl; intros; lia.
Qed.
Lemma term_acc n : forall u, monomial n u -> Acc (fun u v => monomial n u /\ monomial n v /\ term_lt u v Grevlex = true) u.
Proof.
  assert (G : forall s m u, monomial n u -> Z.to_nat (tsum u) = s -> Z.to_nat ((tsum u + 1) ^ Z.of_nat n - digits (tsum u + 1) (rev u)) = m ->
    Acc (fun u v => monomial n u /\ monomial n v /\ term_lt u v Grevlex = true) u).
  { induction s as [s IHs] using lt_wf_ind; induction m as [m IHm] using lt_wf_ind. intros u Hu Es Em.
    constructor; intros v [Hv [_ Hlt]]. apply lt_grevlex in Hlt.
    destruct (entries_le v (proj2 Hv)) as [Hv0 Hv1]. destruct (entries_le u (proj2 Hu)) as [Hu0 Hu1].
    destruct Hlt as [Hlt|[E Hlt]].
    - eapply IHs; [|exact Hv|reflexivity|reflexivity]. lia.
    - eapply IHm; [|exact Hv|congruence|reflexivity]. rewrite <- Em.
      assert (Hd : (digits (tsum u + 1) (rev u) < digits (tsum u + 1) (rev v))%Z).
      { apply digits_less; [lia|rewrite !rev_length; rewrite (proj1 Hu), (proj1 Hv); reflexivity|apply Forall_rev; assumption|apply Forall_rev; rewrite <- E; assumption|assumption]. }
      assert (Hb : (0 <= digits (tsum u + 1) (rev v) < (tsum u + 1) ^ Z.of_nat (length (rev v)))%Z).
      { apply digits_bound; [lia|apply Forall_rev; rewrite <- E; assumption]. }
      rewrite rev_length, (proj1 Hv) in Hb. rewrite E. lia. }
  intros u Hu; eapply G; [exact Hu|reflexivity|reflexivity].
Qed.
Lemma one_least n u : monomial n u -> u = repeat 0%Z n \/ term_lt (repeat 0%Z n) u Grevlex = true.
Proof.
  intros [L H]. assert (T0 : tsum (repeat 0%Z n) = 0%Z) by (clear; induction n as [|n IH]; [reflexivity|unfold tsum in *; simpl; exact IH]).
  destruct (entries_le u H) as [H0 H1]. destruct (Z.eq_dec (tsum u) 0) as [E|E].
  - left. subst n. rewrite E in H1. clear - H1. induction H1 as [|x u Hx Hu IH]; simpl; [reflexivity|]. f_equal; [lia|exact IH].
  - right. apply lt_grevlex; left; lia.
Qed.

(** ** Enumeration *)
Lemma setAt_app (pre : list nat) x tl v : setAt (pre ++ x :: tl) (length pre) v = Some (pre ++ v :: tl).
Proof.
  unfold setAt. rewrite app_length; cbn [length]. destruct (Nat.ltb_spec (length pre) (length pre + S (length tl))); [|lia].
  do 2 f_equal; [rewrite firstn_app, Nat.sub_diag, firstn_all; simpl; apply app_nil_r|].
  f_equal. rewrite skipn_app. rewrite (skipn_all2 pre) by lia. replace (S (length pre) - length pre) with 1 by lia. reflexivity.
Qed.
Section Enum.
  Variable leaf : nat -> list nat.
  Fixpoint enum (k d : nat) : list (list nat) :=
    match k with
    | O => []
    | S O => map (fun i => [i]) (leaf d)
    | S k' => if d =? 0 then [repeat 0 k] else flat_map (fun i => map (cons i) (enum k' (d - i))) (seq 0 (d + 1))
    end.
End Enum.
Definition leafLe (d : nat) : list nat := seq 0 (d + 1).
Definition leafEq (d : nat) : list nat := [d].
Definition okTail (k : nat) (tl : list nat) : Prop := length tl = k /\ (k = 1 \/ tl = repeat 0 k).
Definition outTail (k d : nat) (tl : list nat) : list nat := if k =? 1 then [d] else tl.
Lemma okOut k d tl : okTail k tl -> okTail k (outTail k d tl).
Proof. intros [H1 H2]; unfold outTail, okTail; destruct (Nat.eqb_spec k 1); [subst; auto|auto]. Qed.
Lemma enum_unfold leaf k d : 1 <= k -> enum leaf (S k) d = if d =? 0 then [repeat 0 (S k)] else flat_map (fun i => map (cons i) (enum leaf k (d - i))) (seq 0 (d + 1)).
Proof. destruct k; [lia|reflexivity]. Qed.

Lemma writeAll_spec is : forall (pre : list nat) x acc, exists y,
  writeAll is (length pre) (pre ++ [x]) acc = Some (acc ++ map (fun i => pre ++ [i]) is, pre ++ [y]) /\ y = last is x.
Proof.
  induction is as [|i is IH]; intros pre x acc; simpl; [exists x; rewrite app_nil_r; auto|].
  rewrite setAt_app. destruct (IH pre i (acc ++ [pre ++ [i]])) as [y [E Ey]]. exists y. rewrite E, <- app_assoc. split; [reflexivity|].
  subst y. destruct is as [|j is]; [reflexivity|]. clear. revert j; induction is as [|m is IH]; intro j; [reflexivity|]. simpl in *. apply IH.
Qed.
Lemma descend_spec leaf rec (pre : list nat) (k numLeft : nat) (Hrec : forall i n tl, okTail k tl -> exists d,
    rec ((pre ++ [i]) ++ tl) n = Some (map (app (pre ++ [i])) (enum leaf k n), (pre ++ [i]) ++ outTail k d tl)) :
  forall is x tl acc, okTail k tl ->
  descend rec numLeft (length pre) is (pre ++ x :: tl) acc = Some (acc ++ map (app pre) (flat_map (fun i => map (cons i) (enum leaf k (numLeft - i))) is)).
Proof.
  induction is as [|i is IH]; intros x tl acc Ht; simpl; [rewrite app_nil_r; reflexivity|].
  rewrite setAt_app. destruct (Hrec i (numLeft - i) tl Ht) as [d Hd]. rewrite <- app_assoc in Hd; simpl in Hd. rewrite Hd.
  rewrite <- app_assoc; simpl. rewrite (IH i (outTail k d tl)) by (apply okOut; assumption).
  rewrite map_app, app_assoc. do 3 f_equal. rewrite map_map. apply map_ext; intro v. rewrite <- app_assoc; reflexivity.
Qed.
Lemma combos_spec fuel : forall k (pre tl : list nat) d, 1 <= k <= fuel -> okTail k tl ->
  mon_combos_f fuel (pre ++ tl) d (length pre) = Some (map (app pre) (enum leafLe k d), pre ++ outTail k d tl).
Proof.
  induction fuel as [|fuel IH]; intros k pre tl d Hk Ht; [lia|]. destruct Ht as [Lt Ht]. cbn [mon_combos_f].
  destruct k as [|[|k]]; [lia| |].
  - destruct tl as [|x [|? ?]]; simpl in Lt; try discriminate. rewrite app_length; simpl. rewrite Nat.eqb_refl.
    destruct (writeAll_spec (seq 0 (d + 1)) pre x []) as [y [E Ey]]. rewrite E. unfold outTail; simpl. rewrite map_map. unfold leafLe.
    do 3 f_equal. subst y. rewrite Nat.add_1_r, seq_S, last_last; reflexivity.
  - assert (tl = repeat 0 (S (S k))) by (destruct Ht; [lia|assumption]). clear Ht.
    rewrite app_length, Lt. destruct (Nat.eqb_spec (length pre + S (S k)) (length pre + 1)); [lia|].
    rewrite enum_unfold by lia. unfold outTail; cbn [Nat.eqb].
    destruct (Nat.eqb_spec d 0) as [->|Hd]; [subst tl; reflexivity|].
    subst tl. cbn [repeat]. rewrite (descend_spec leafLe _ pre (S k) d).
    + reflexivity.
    + intros i n' tl Htl. exists n'. replace (length pre + 1) with (length (pre ++ [i])) by (rewrite app_length; reflexivity). apply IH; [lia|exact Htl].
    + split; [simpl; rewrite repeat_length; reflexivity|right; reflexivity].
Qed.
Lemma combosHighest_spec fuel : forall k (pre tl : list nat) d, 1 <= k <= fuel -> okTail k tl ->
  mon_combosHighest_f fuel (pre ++ tl) d (length pre) = Some (map (app pre) (enum leafEq k d), pre ++ outTail k d tl).
Proof.
  induction fuel as [|fuel IH]; intros k pre tl d Hk Ht; [lia|]. destruct Ht as [Lt Ht]. cbn [mon_combosHighest_f].
  destruct k as [|[|k]]; [lia| |].
  - destruct tl as [|x [|? ?]]; simpl in Lt; try discriminate. rewrite app_length; simpl. rewrite Nat.eqb_refl, setAt_app. reflexivity.
  - assert (tl = repeat 0 (S (S k))) by (destruct Ht; [lia|assumption]). clear Ht.
    rewrite app_length, Lt. destruct (Nat.eqb_spec (length pre + S (S k)) (length pre + 1)); [lia|].
    rewrite enum_unfold by lia. unfold outTail; cbn [Nat.eqb].
    destruct (Nat.eqb_spec d 0) as [->|Hd]; [subst tl; reflexivity|].
    subst tl. cbn [repeat]. rewrite (descend_spec leafEq _ pre (S k) d).
    + reflexivity.
    + intros i n' tl Htl. exists n'. replace (length pre + 1) with (length (pre ++ [i])) by (rewrite app_length; reflexivity). apply IH; [lia|exact Htl].
    + split; [simpl; rewrite repeat_length; reflexivity|right; reflexivity].
Qed.
Lemma mon_combos_zeros n d : 1 <= n -> mon_combos (repeat 0 n) d = Some (enum leafLe n d, if n =? 1 then [d] else repeat 0 n).
Proof.
  intro Hn; unfold mon_combos. rewrite repeat_length.
  assert (E := combos_spec (n + 2) n [] (repeat 0 n) d ltac:(lia)). simpl in E. rewrite E by (split; [apply repeat_length|right; reflexivity]).
  unfold outTail. rewrite map_id. reflexivity.
Qed.
Lemma mon_combosHighest_zeros n d : 1 <= n -> mon_combosHighest (repeat 0 n) d = Some (enum leafEq n d, if n =? 1 then [d] else repeat 0 n).
Proof.
  intro Hn; unfold mon_combosHighest. rewrite repeat_length.
  assert (E := combosHighest_spec (n + 2) n [] (repeat 0 n) d ltac:(lia)). simpl in E. rewrite E by (split; [apply repeat_length|right; reflexivity]).
  unfold outTail. rewrite map_id. reflexivity.
Qed.

Lemma sum_zero v : list_sum v = 0 -> v = repeat 0 (length v).
Proof. induction v as [|x v IH]; simpl; [reflexivity|]. intro H. assert (x = 0) by lia. subst x. f_equal. apply IH; lia. Qed.
Lemma sum_repeat n : list_sum (repeat 0 n) = 0.
Proof. induction n; simpl; auto. Qed.
Lemma enumLe_In k : forall d v, 1 <= k -> (In v (enum leafLe k d) <-> length v = k /\ list_sum v <= d).
Proof.
  induction k as [|k IH]; intros d v Hk; [lia|]. destruct k as [|k].
  - simpl. rewrite in_map_iff. split.
    + intros [i [<- Hi]]. unfold leafLe in Hi; apply in_seq in Hi. simpl; lia.
    + intros [L S]. destruct v as [|x [|? ?]]; simpl in L; try discriminate. exists x; split; [reflexivity|]. unfold leafLe; apply in_seq. simpl in S; lia.
  - rewrite enum_unfold by lia. destruct (Nat.eqb_spec d 0) as [->|Hd].
    + split.
      * intros [<-|[]]. rewrite sum_repeat, repeat_length; auto.
      * intros [L S]. left. rewrite (sum_zero v) by lia. rewrite L; reflexivity.
    + rewrite in_flat_map. split.
      * intros [i [Hi Hv]]. apply in_seq in Hi. apply in_map_iff in Hv; destruct Hv as [w [<- Hw]]. apply IH in Hw; [|lia]. simpl; lia.
      * intros [L S]. destruct v as [|x v]; simpl in L; [discriminate|]. exists x. simpl in S. split; [apply in_seq; lia|].
        apply in_map. apply IH; lia.
Qed.
Lemma enumEq_In k : forall d v, 1 <= k -> (In v (enum leafEq k d) <-> length v = k /\ list_sum v = d).
Proof.
  induction k as [|k IH]; intros d v Hk; [lia|]. destruct k as [|k].
  - simpl. split.
    + intros [<-|[]]. simpl; lia.
    + intros [L S]. destruct v as [|x [|? ?]]; simpl in L; try discriminate. simpl in S; left; f_equal; lia.
  - rewrite enum_unfold by lia. destruct (Nat.eqb_spec d 0) as [->|Hd].
    + split.
      * intros [<-|[]]. rewrite sum_repeat, repeat_length; auto.
      * intros [L S]. left. rewrite (sum_zero v) by lia. rewrite L; reflexivity.
    + rewrite in_flat_map. split.
      * intros [i [Hi Hv]]. apply in_seq in Hi. apply in_map_iff in Hv; destruct Hv as [w [<- Hw]]. apply IH in Hw; [|lia]. simpl; lia.
      * intros [L S]. destruct v as [|x v]; simpl in L; [discriminate|]. exists x. simpl in S. split; [apply in_seq; lia|].
        apply in_map. apply IH; lia.
Qed.
From Coq Require Import Sorted.
Fixpoint nlexlt (u v : list nat) : Prop := match u, v with x :: u', y :: v' => x < y \/ (x = y /\ nlexlt u' v') | _, _ => False end.
Lemma SS_app {A} (Rl : A -> A -> Prop) l l' : StronglySorted Rl l -> StronglySorted Rl l' -> (forall x y, In x l -> In y l' -> Rl x y) -> StronglySorted Rl (l ++ l').
Proof.
  induction 1 as [|a l S IH Hf]; intros S' H; simpl; [assumption|]. constructor; [apply IH; [assumption|intros; apply H; [right|]; assumption]|].
  rewrite Forall_app; split; [assumption|]. rewrite Forall_forall; intros y Hy; apply H; [left; reflexivity|assumption].
Qed.
Lemma SS_map {A B} (Rl : A -> A -> Prop) (Rl' : B -> B -> Prop) (f : A -> B) l : (forall x y, Rl x y -> Rl' (f x) (f y)) -> StronglySorted Rl l -> StronglySorted Rl' (map f l).
Proof.
  intro H; induction 1 as [|a l S IH Hf]; simpl; constructor; [assumption|]. rewrite Forall_map. eapply Forall_impl; [|exact Hf]. auto.
Qed.
Lemma SS_seq n : forall s, StronglySorted lt (seq s n).
Proof. induction n as [|n IH]; intro s; simpl; constructor; [apply IH|]. rewrite Forall_forall; intros x Hx; apply in_seq in Hx; lia. Qed.
Lemma enum_sorted leaf (Hl : forall d, StronglySorted lt (leaf d)) k : forall d, StronglySorted nlexlt (enum leaf k d).
Proof.
  induction k as [|k IH]; intro d; [constructor|]. destruct k as [|k].
  - simpl. eapply SS_map; [|apply Hl]. simpl; auto.
  - rewrite enum_unfold by lia. destruct (Nat.eqb_spec d 0) as [->|Hd]; [repeat constructor|].
    assert (G : forall is, StronglySorted lt is -> StronglySorted nlexlt (flat_map (fun i => map (cons i) (enum leaf (S k) (d - i))) is)).
    { induction 1 as [|i is S IH' Hf]; [constructor|]. cbn [flat_map]. apply SS_app; [|assumption|].
      - eapply SS_map; [|apply IH]. simpl; auto.
      - intros x y Hx Hy. apply in_map_iff in Hx; destruct Hx as [x' [<- _]]. apply in_flat_map in Hy; destruct Hy as [j [Hj Hy]].
        apply in_map_iff in Hy; destruct Hy as [y' [<- _]]. rewrite Forall_forall in Hf. left; apply Hf; assumption. }
    apply G, SS_seq.
Qed.
Lemma nlexlt_irrefl u : ~ nlexlt u u.
Proof. induction u as [|x u IH]; simpl; [auto|]. intros [H|[_ H]]; [lia|auto]. Qed.
Lemma enum_NoDup leaf (Hl : forall d, StronglySorted lt (leaf d)) k d : NoDup (enum leaf k d).
Proof.
  assert (S := enum_sorted leaf Hl k d). induction S as [|u l S IH Hf]; constructor; [|assumption].
  intro Hin; rewrite Forall_forall in Hf. apply (nlexlt_irrefl u), Hf, Hin.
Qed.
Lemma leafLe_sorted d : StronglySorted lt (leafLe d). Proof. apply SS_seq. Qed.
Lemma leafEq_sorted d : StronglySorted lt (leafEq d). Proof. repeat constructor. Qed.

(** ** Counting *)
Lemma comb_0 N : comb N 0 = 1. Proof. destruct N; reflexivity. Qed.
Lemma comb_gt N : forall k, N < k -> comb N k = 0.
Proof. induction N as [|N IH]; intros [|k] H; simpl; try lia. rewrite !IH by lia. reflexivity. Qed.
Lemma comb_diag N : comb N N = 1.
Proof. induction N as [|N IH]; simpl; [reflexivity|]. rewrite IH, comb_gt by lia. reflexivity. Qed.
Lemma comb_fact N : forall k, k <= N -> comb N k * (fact k * fact (N - k)) = fact N.
Proof.
  induction N as [|N IH]; intros k Hk; [replace k with 0 by lia; reflexivity|]. destruct k as [|k].
  - rewrite comb_0, Nat.sub_0_r. simpl fact. lia.
  - cbn [comb]. replace (S N - S k) with (N - k) by lia. rewrite Nat.mul_add_distr_r.
    assert (A := IH k ltac:(lia)). destruct (Nat.eq_dec k N) as [->|Hn].
    + rewrite (comb_gt N (S N)) by lia. rewrite comb_diag. rewrite Nat.sub_diag. simpl fact. lia.
    + assert (B := IH (S k) ltac:(lia)). replace (N - k) with (S (N - S k)) by lia. replace (N - k) with (S (N - S k)) in A by lia.
      change (fact (S (N - S k))) with (S (N - S k) * fact (N - S k)) in *. change (fact (S k)) with (S k * fact k) in *.
      change (fact (S N)) with (S N * fact N).
      replace (comb N k * (S k * fact k * (S (N - S k) * fact (N - S k)))) with (S k * (comb N k * (fact k * (S (N - S k) * fact (N - S k))))) by ring.
      replace (comb N (S k) * (S k * fact k * (S (N - S k) * fact (N - S k)))) with (S (N - S k) * (comb N (S k) * (S k * fact k * fact (N - S k)))) by ring.
      rewrite A, B. rewrite <- Nat.mul_add_distr_r. f_equal. lia.
Qed.
Lemma comb_sym a b : comb (a + b) a = comb (a + b) b.
Proof.
  assert (A := comb_fact (a + b) a ltac:(lia)). assert (B := comb_fact (a + b) b ltac:(lia)).
  replace (a + b - a) with b in A by lia. replace (a + b - b) with a in B by lia.
  rewrite (Nat.mul_comm (fact b)) in B. rewrite <- B in A. apply Nat.mul_cancel_r in A; [assumption|].
  assert (X := lt_O_fact a). assert (Y := lt_O_fact b). nia.
Qed.
Lemma flat_map_length {A B} (f : A -> list B) l : length (flat_map f l) = list_sum (map (fun x => length (f x)) l).
Proof. induction l as [|x l IH]; simpl; [reflexivity|]. rewrite app_length, IH; reflexivity. Qed.
Lemma list_sum_cons a l : list_sum (a :: l) = a + list_sum l.
Proof. reflexivity. Qed.
Lemma hockey k d : list_sum (map (fun i => comb (d - i + k) k) (seq 0 (d + 1))) = comb (d + S k) (S k).
Proof.
  induction d as [|d IH]; [simpl; rewrite comb_diag, comb_gt by lia; reflexivity|].
  rewrite Nat.add_1_r. change (seq 0 (S (S d))) with (0 :: seq 1 (S d)). rewrite map_cons, <- seq_shift, map_map. rewrite Nat.add_1_r in IH. rewrite list_sum_cons.
  replace (map (fun x => comb (S d - S x + k) k) (seq 0 (S d))) with (map (fun i => comb (d - i + k) k) (seq 0 (S d))) by (apply map_ext; intro; reflexivity).
  rewrite IH. replace (S d + S k) with (S (d + S k)) by lia. cbn [comb]. rewrite Nat.sub_0_r. replace (S d + k) with (d + S k) by lia. reflexivity.
Qed.
Lemma enumLe_length k : forall d, 1 <= k -> length (enum leafLe k d) = comb (d + k) k.
Proof.
  induction k as [|k IH]; intros d Hk; [lia|]. destruct k as [|k].
  - simpl. rewrite map_length. unfold leafLe. rewrite seq_length, Nat.add_1_r. cbn [comb]. rewrite comb_0. clear; induction d as [|d IH]; simpl in *; [reflexivity|rewrite comb_0 in *; lia].
  - rewrite enum_unfold by lia. destruct (Nat.eqb_spec d 0) as [->|Hd]; [rewrite Nat.add_0_l, comb_diag; reflexivity|].
    rewrite flat_map_length, <- hockey. f_equal. apply map_ext; intro i. rewrite map_length, IH by lia. reflexivity.
Qed.
Lemma enumEq_length k : forall d, length (enum leafEq (S k) d) = comb (d + k) k.
Proof.
  induction k as [|k IH]; intro d; [simpl; rewrite comb_0; reflexivity|].
  rewrite enum_unfold by lia. destruct (Nat.eqb_spec d 0) as [->|Hd]; [rewrite Nat.add_0_l, comb_diag; reflexivity|].
  rewrite flat_map_length, <- hockey. f_equal. apply map_ext; intro i. rewrite map_length, IH. reflexivity.
Qed.
