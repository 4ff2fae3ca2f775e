(** * Trimming coefficient arrays: which monomials, which entries, which error *)
From Coq Require Import List Arith Bool ZArith Reals Lra Lia Permutation.
From Verif Require Import Num RSum Cheb Tensor PolySpec TransformModel TransformChebProofs PartProofs TermModel TermProofs TrimcModel.
Import ListNotations.

(** ** the monomials *)
Fixpoint enumL (sh : list nat) (d : nat) : list (list nat) :=
  match sh with
  | [] => []
  | s :: sh' =>
      match sh' with
      | [] => if d <? s then [[d]] else []
      | _ => if d =? 0 then [repeat 0 (length sh)] else flat_map (fun i => map (cons i) (enumL sh' (d - i))) (seq 0 (Nat.min s (d + 1)))
      end
  end.
Lemma descendL rec (pre : list nat) (k numLeft : nat) (E : nat -> list (list nat)) (Hrec : forall i n tl, okTail k tl -> exists tl', okTail k tl' /\
    rec ((pre ++ [i]) ++ tl) n = Some (map (app (pre ++ [i])) (E n), (pre ++ [i]) ++ tl')) :
  forall is x tl acc, okTail k tl ->
  descend rec numLeft (length pre) is (pre ++ x :: tl) acc = Some (acc ++ map (app pre) (flat_map (fun i => map (cons i) (E (numLeft - i))) is)).
Proof.
  induction is as [|i is IH]; intros x tl acc Ht; simpl; [rewrite app_nil_r; reflexivity|].
  rewrite setAt_app. destruct (Hrec i (numLeft - i) tl Ht) as (tl' & Ht' & Hd). rewrite <- app_assoc in Hd; simpl in Hd. rewrite Hd.
  rewrite <- app_assoc; simpl. rewrite (IH i tl') by assumption.
  rewrite map_app, app_assoc. do 3 f_equal. rewrite map_map. apply map_ext; intro v. rewrite <- app_assoc; reflexivity.
Qed.
Lemma combosLimited_spec shape fuel : forall k (pre tl : list nat) d, 1 <= k <= fuel -> okTail k tl -> length shape = length pre + k ->
  exists tl', okTail k tl' /\ mon_combos_limited_f fuel (pre ++ tl) d shape (length pre) = Some (map (app pre) (enumL (skipn (length pre) shape) d), pre ++ tl').
Proof.
  induction fuel as [|fuel IH]; intros k pre tl d Hk Ht Hs; [lia|]. destruct Ht as [Lt Ht]. cbn [mon_combos_limited_f].
  assert (Hsk : exists s sh, skipn (length pre) shape = s :: sh /\ length sh = k - 1 /\ nth_error shape (length pre) = Some s /\ skipn (length pre + 1) shape = sh).
  { destruct (skipn (length pre) shape) as [|s sh] eqn:E; [apply (f_equal (@length _)) in E; rewrite skipn_length in E; simpl in E; lia|].
    exists s, sh. split; auto. pose proof (f_equal (@length _) E) as EL. rewrite skipn_length in EL. simpl in EL. split; [lia|].
    rewrite <- (firstn_skipn (length pre) shape), E. split.
    - rewrite nth_error_app2; rewrite firstn_length_le by lia; [rewrite Nat.sub_diag; reflexivity|lia].
    - rewrite skipn_app, firstn_length_le by lia. replace (length pre + 1 - length pre) with 1 by lia. rewrite skipn_all2 by (rewrite firstn_length_le; lia). reflexivity. }
  destruct Hsk as (s & sh & E1 & E2 & E3 & E4). rewrite E1, E3.
  destruct k as [|[|k]]; [lia| |].
  - destruct tl as [|x [|? ?]]; simpl in Lt; try discriminate. rewrite app_length; simpl. rewrite Nat.eqb_refl, setAt_app.
    destruct sh; [|simpl in E2; lia]. destruct (d <? s).
    + exists [d]. split; [split; auto|reflexivity].
    + exists [x]. split; [split; auto|reflexivity].
  - assert (tl = repeat 0 (S (S k))) by (destruct Ht; [lia|assumption]). clear Ht. exists tl. split; [split; auto|].
    rewrite app_length, Lt. destruct (Nat.eqb_spec (length pre + S (S k)) (length pre + 1)); [lia|].
    destruct sh as [|s2 sh]; [simpl in E2; lia|]. unfold enumL; fold enumL.
    destruct (Nat.eqb_spec d 0) as [->|Hd].
    { subst tl. replace (length (s :: s2 :: sh)) with (S (S k)) by (simpl in *; lia). reflexivity. }
    subst tl. cbn [repeat]. change (0 :: 0 :: repeat 0 k) with (0 :: repeat 0 (S k)).
    rewrite (descendL _ pre (S k) d (enumL (s2 :: sh))).
    + reflexivity.
    + intros i n' tl Htl. replace (length pre + 1) with (length (pre ++ [i])) by (rewrite app_length; reflexivity).
      rewrite <- E4. replace (length pre + 1) with (length (pre ++ [i])) by (rewrite app_length; reflexivity).
      apply IH; [lia|exact Htl|]. rewrite app_length. simpl. lia.
    + split; [rewrite repeat_length; reflexivity|right; reflexivity].
Qed.
Lemma limited_eq shape d : shape <> [] -> mon_combos_limited (length shape) d shape = Some (enumL shape d).
Proof.
  intros Hn. assert (1 <= length shape) by (destruct shape; [congruence|simpl; lia]).
  unfold mon_combos_limited. destruct (combosLimited_spec shape (length shape + 2) (length shape) [] (repeat 0 (length shape)) d) as (tl & _ & E); [lia| |reflexivity|].
  - split; [apply repeat_length|right; reflexivity].
  - cbn [List.app length skipn] in E. rewrite E. cbn [option_map fst]. rewrite map_id. reflexivity.
Qed.
Lemma inrange_sum0 sh idx : inrange sh idx -> list_sum idx = 0 -> idx = repeat 0 (length sh).
Proof. induction 1; cbn [list_sum fold_right length repeat]; intros HS; auto. fold (list_sum l) in HS. f_equal; [lia|apply IHForall2; lia]. Qed.
Lemma enumL_In sh : sh <> [] -> Forall (fun s => 1 <= s) sh -> forall d v, In v (enumL sh d) <-> inrange sh v /\ list_sum v = d.
Proof.
  induction sh as [|s sh IH]; intros Hn Hp d v; [congruence|]. inversion Hp as [|? ? H1 H2]; subst. destruct sh as [|s2 sh].
  - cbn [enumL]. destruct (Nat.ltb_spec d s) as [Hd|Hd].
    + split; [intros [<-|[]]; split; [repeat constructor; auto|cbn; lia]|]. intros [Hr Hs]. inversion Hr as [|x ? l ? Hx Hl]; subst. inversion Hl; subst. left. cbn. f_equal. lia.
    + split; [intros []|]. intros [Hr Hs]. inversion Hr as [|x ? l ? Hx Hl]; subst. inversion Hl; subst. cbn in Hd. lia.
  - cbn [enumL]. destruct (Nat.eqb_spec d 0) as [->|Hd].
    + split.
      * intros [<-|[]]. split; [apply inrange_zeros; auto|]. induction (length (s :: s2 :: sh)); auto.
      * intros [Hr Hs]. left. symmetry. apply inrange_sum0; auto.
    + rewrite in_flat_map. split.
      * intros (i & Hi & Hv). apply in_seq in Hi. apply in_map_iff in Hv. destruct Hv as (r & <- & Hr). apply IH in Hr; [|discriminate|auto].
        destruct Hr as [Hr1 Hr2]. split; [constructor; auto; lia|]. cbn [list_sum fold_right]. fold (list_sum r). lia.
      * intros [Hr Hs]. inversion Hr as [|i ? l ? Hx Hl]; subst. cbn [list_sum fold_right] in *. fold (list_sum l) in *. exists i. split; [apply in_seq; lia|].
        apply in_map. apply IH; [discriminate|auto|]. split; auto. lia.
Qed.
Lemma enumL_NoDup sh : forall d, NoDup (enumL sh d).
Proof.
  induction sh as [|s sh IH]; intros d; [constructor|]. destruct sh as [|s2 sh].
  - cbn [enumL]. destruct (d <? s); repeat constructor. simpl; tauto.
  - cbn [enumL]. destruct (d =? 0); [repeat constructor; simpl; tauto|].
    assert (G : forall l, NoDup l -> NoDup (flat_map (fun i => map (cons i) (enumL (s2 :: sh) (d - i))) l)); [|apply G, seq_NoDup].
    induction l as [|i l IHl]; intros Hl; cbn [flat_map]; [constructor|]. inversion Hl; subst. apply NoDup_app_intro; auto.
    + apply FinFun.Injective_map_NoDup; [intros u v E; inversion E; auto|apply IH].
    + intros x Hx Hy. apply in_map_iff in Hx. destruct Hx as (u & <- & _). apply in_flat_map in Hy. destruct Hy as (b & Hb & Hy).
      apply in_map_iff in Hy. destruct Hy as (v & E & _). inversion E; subst; auto.
Qed.

(** ** sums over selected entries *)
Local Open Scope R_scope.
Definition absum (M : tensor R) (P : list nat -> bool) : R := Rsum (map (fun idx => if P idx then Rabs (tget M idx) else 0) (indices (shp M))).
Lemma Rsum_select {A} (P : A -> bool) (f : A -> R) l : Rsum (map f (filter P l)) = Rsum (map (fun x => if P x then f x else 0) l).
Proof. induction l; simpl; auto. destruct (P a); simpl; rewrite IHl; ring. Qed.
Lemma absum_ext M N (P Q : list nat -> bool) : shp M = shp N -> (forall idx, inrange (shp M) idx -> (if P idx then Rabs (tget M idx) else 0) = (if Q idx then Rabs (tget N idx) else 0)) -> absum M P = absum N Q.
Proof. intros HS H. unfold absum. rewrite <- HS. f_equal. apply map_ext_in. intros idx Hi. apply H. apply in_indices; auto. Qed.
Lemma absum_or M (P Q : list nat -> bool) : (forall idx, inrange (shp M) idx -> P idx = true -> Q idx = true -> False) -> absum M (fun i : list nat => (P i || Q i)%bool) = absum M P + absum M Q.
Proof.
  intros H. unfold absum. assert (G : forall l, (forall i, In i l -> inrange (shp M) i) -> Rsum (map (fun idx => if (P idx || Q idx)%bool then Rabs (tget M idx) else 0) l) =
    Rsum (map (fun idx => if P idx then Rabs (tget M idx) else 0) l) + Rsum (map (fun idx => if Q idx then Rabs (tget M idx) else 0) l)).
  { induction l as [|i l IH]; intros Hl; [simpl; ring|]. cbn [map Rsum fold_right]. fold (Rsum (map (fun idx => if (P idx || Q idx)%bool then Rabs (tget M idx) else 0) l)).
    rewrite IH by (intros; apply Hl; simpl; auto). unfold Rsum. pose proof (H i (Hl i (or_introl eq_refl))) as Hi. destruct (P i), (Q i); simpl; try ring. exfalso; auto. }
  apply G. intros i Hi. apply in_indices; auto.
Qed.
Lemma absum_nonneg M P : 0 <= absum M P.
Proof. unfold absum. induction (indices (shp M)) as [|i l IH]; [cbn; lra|]. cbn [map]. unfold Rsum in *. cbn [fold_right]. pose proof (Rabs_pos (tget M i)). destruct (P i); lra. Qed.
Lemma sumAt_absum M mons P : mons <> [] -> NoDup mons -> (forall idx, In idx mons <-> inrange (shp M) idx /\ P idx = true) -> @sumAt R R_num M mons = absum M P.
Proof.
  intros Hn Hd HI. unfold sumAt. destruct mons as [|m ms] eqn:E; [congruence|]. rewrite <- E in *. unfold nsumabs. rewrite nsum_R. rnum. rewrite map_map.
  unfold absum. rewrite <- Rsum_select. apply Rsum_perm, Permutation_map, NoDup_Permutation; auto; [apply NoDup_filter, NoDup_indices|].
  intros i. rewrite HI, filter_In, in_indices. tauto.
Qed.
Lemma idxEqb_true u v : idxEqb u v = true <-> u = v.
Proof. unfold idxEqb. destruct list_eq_dec; split; intros; auto; discriminate. Qed.
Lemma zeroAt_get (M : tensor R) mons idx : mons <> [] -> inrange (shp M) idx -> (@tget R R_num (zeroAt M mons) idx) = if in_dec (list_eq_dec Nat.eq_dec) idx mons then 0 else tget M idx.
Proof.
  intros Hn Hr. unfold zeroAt. destruct mons as [|m ms] eqn:E; [congruence|]. rewrite <- E. rewrite tget_tbuild by auto.
  destruct in_dec as [Hi|Hi].
  - assert (X : existsb (idxEqb idx) mons = true) by (apply existsb_exists; exists idx; split; auto; apply idxEqb_true; auto). rewrite X. reflexivity.
  - destruct (existsb (idxEqb idx) mons) eqn:X; auto. apply existsb_exists in X. destruct X as (y & Hy & Ey). apply idxEqb_true in Ey. subst. contradiction.
Qed.
Lemma zeroAt_shp (M : tensor R) mons : shp (zeroAt M mons) = shp M.
Proof. destruct mons; reflexivity. Qed.

(** ** arrays with all axes of the same length *)
Section Cube.
  Variables (n s : nat) (M : tensor R).
  Hypothesis Hn : (2 <= n)%nat.
  Hypothesis Hs : (3 <= s)%nat.
  Hypothesis HM : shp M = repeat s n.
  Definition cornerIdx : list nat := repeat (s - 1)%nat n.
  Definition isCorner (idx : list nat) : bool := idxEqb idx cornerIdx.
  Definition dropped (k : nat) (idx : list nat) : bool := (k <? list_sum idx)%nat && negb (isCorner idx).
  Lemma sumCorner : list_sum cornerIdx = (n * (s - 1))%nat.
  Proof. unfold cornerIdx. clear. induction n; cbn [repeat list_sum fold_right]; auto. fold (list_sum (repeat (s - 1)%nat n0)). lia. Qed.
  Lemma inCube k idx : inrange (repeat k n) idx <-> length idx = n /\ Forall (fun i => (i < k)%nat) idx.
  Proof.
    clear. unfold inrange. revert idx. induction n as [|m IH]; intros idx; cbn [repeat].
    - split; [intros H; inversion H; auto|]. intros [L _]. destruct idx; [constructor|discriminate].
    - split; [intros H; inversion H as [|x ? l ? Hx Hl]; subst; apply IH in Hl; destruct Hl; split; [cbn; lia|constructor; auto]|].
      intros [L F]. destruct idx as [|x l]; [discriminate|]. inversion F; subst. constructor; auto. apply IH. cbn in L. split; auto.
  Qed.
  Lemma cube_sum idx : inrange (repeat s n) idx -> (list_sum idx <= n * (s - 1))%nat /\ (list_sum idx = n * (s - 1) -> idx = cornerIdx)%nat.
  Proof.
    clear - Hs. unfold cornerIdx, inrange. revert idx. induction n as [|m IH]; intros idx; cbn [repeat]; intros H; inversion H as [|x ? l ? Hx Hl]; subst; [split; [cbn; lia|auto]|].
    destruct (IH _ Hl) as [A B]. cbn [list_sum fold_right]. fold (list_sum l). split; [nia|]. intros E. assert (x = s - 1 /\ list_sum l = m * (s - 1))%nat as [-> E2] by nia. f_equal. auto.
  Qed.
  Lemma small_in k idx : length idx = n -> (list_sum idx <= k)%nat -> inrange (repeat (k + 1)%nat n) idx.
  Proof. intros L H. apply inCube. split; auto. clear L. induction idx as [|x l IH]; constructor; cbn [list_sum fold_right] in H; fold (list_sum l) in H; [lia|apply IH; lia]. Qed.
  Lemma shp_ne : shp M <> [].
  Proof. rewrite HM. destruct n; [lia|discriminate]. Qed.
  Lemma shp_pos : Forall (fun v => (1 <= v)%nat) (shp M).
  Proof. rewrite HM. apply Forall_forall. intros v Hv. apply repeat_spec in Hv. lia. Qed.
  Lemma axis k : (k < s)%nat -> inrange (shp M) (k :: repeat 0%nat (n - 1)) /\ list_sum (k :: repeat 0%nat (n - 1)) = k.
  Proof.
    intros Hk. split.
    - rewrite HM. apply inCube. split; [cbn; rewrite repeat_length; lia|]. constructor; auto. apply Forall_forall. intros v Hv. apply repeat_spec in Hv. lia.
    - cbn [list_sum fold_right]. fold (list_sum (repeat 0%nat (n - 1))). assert (Z : forall m, list_sum (repeat 0%nat m) = 0%nat) by (induction m; auto). rewrite Z. lia.
  Qed.

  Lemma monsFrom_spec dim : dim = n -> forall degs, exists l, monsFrom dim (shp M) degs = Some l /\
    (forall idx, In idx l <-> inrange (shp M) idx /\ In (list_sum idx) degs) /\ (NoDup degs -> NoDup l).
  Proof.
    intros Ed. rewrite Ed. clear Ed dim. assert (Ln : n = length (shp M)) by (rewrite HM, repeat_length; auto). induction degs as [|d degs (l & E & HI & HN)]; cbn [monsFrom].
    - exists []. split; auto. split; [intros idx; split; [intros []|intros [_ []]]|constructor].
    - rewrite E. pose proof (limited_eq (shp M) d shp_ne) as EL. rewrite <- Ln in EL. rewrite EL. eexists. split; [reflexivity|]. split.
      + intros idx. rewrite in_app_iff, HI, enumL_In by (apply shp_ne || apply shp_pos). cbn [In]. intuition auto.
      + intros H. inversion H as [|? ? Hd1 Hd2]. apply NoDup_app_intro; auto; [apply enumL_NoDup|]. intros xx Hx Hy. apply enumL_In in Hx; [|apply shp_ne|apply shp_pos]. apply HI in Hy. destruct Hx as [_ Hx], Hy as [_ Hy]. congruence.
  Qed.
  Lemma highMons_spec : exists l, highMons M = Some l /\ l <> [] /\ NoDup l /\ (forall idx, In idx l <-> inrange (shp M) idx /\ dropped (s - 1) idx = true).
  Proof.
    unfold highMons. assert (E0 : nth 0 (shp M) 0%nat = s) by (rewrite HM; destruct n; [lia|reflexivity]). rewrite E0.
    assert (ES : fold_right Nat.add 0%nat (shp M) = (n * s)%nat) by (rewrite HM; clear; induction n; cbn [repeat fold_right]; [reflexivity|rewrite IHn0; lia]). rewrite ES.
    assert (EN : ndim M = n) by (unfold ndim; rewrite HM, repeat_length; auto). rewrite EN.
    destruct (monsFrom_spec n eq_refl (seq s (n * s - n - s))) as (l & E & HI & HN). rewrite E. exists l. split; auto.
    assert (HX : forall idx, In idx l <-> inrange (shp M) idx /\ dropped (s - 1) idx = true).
    { intros idx. rewrite HI, in_seq. split.
      - intros [H1 H2]. split; auto. unfold dropped. apply andb_true_intro. split; [apply Nat.ltb_lt; lia|]. apply negb_true_iff. destruct (isCorner idx) eqn:X; auto.
        apply idxEqb_true in X. subst. rewrite sumCorner in H2. nia.
      - intros [H1 H2]. split; auto. unfold dropped in H2. apply andb_prop in H2. destruct H2 as [H2 H3]. apply Nat.ltb_lt in H2. apply negb_true_iff in H3.
        rewrite HM in H1. destruct (cube_sum idx H1) as [A B]. assert (list_sum idx <> n * (s - 1))%nat. { intros X. apply B in X. subst. unfold isCorner in H3. assert (idxEqb cornerIdx cornerIdx = true) by (apply idxEqb_true; auto). congruence. } nia. }
    split; [|split; auto using seq_NoDup].
    intros ->. destruct (HX (1 :: (s - 1) :: repeat 0 (n - 2))%nat) as [_ H]. apply H. split.
    - rewrite HM. apply inCube. split; [cbn; rewrite repeat_length; lia|]. constructor; [lia|]. constructor; [lia|]. apply Forall_forall. intros v Hv. apply repeat_spec in Hv. lia.
    - unfold dropped. assert (Z : forall m, list_sum (repeat 0%nat m) = 0%nat) by (induction m; auto). apply andb_true_intro. split.
      + apply Nat.ltb_lt. cbn [list_sum fold_right]. fold (list_sum (repeat 0%nat (n - 2))). rewrite Z. lia.
      + apply negb_true_iff. destruct (isCorner _) eqn:X; auto. apply idxEqb_true in X. unfold cornerIdx in X. destruct n; [lia|]. cbn [repeat] in X. injection X. lia.
  Qed.

  (** the state of the loop when all monomials above degree k are cut *)
  Definition cutTo (k : nat) (C : tensor R) : Prop := shp C = shp M /\ forall idx, inrange (shp M) idx -> tget C idx = if dropped k idx then 0 else tget M idx.
  Definition cutError (k : nat) (e : R) : R := e + absum M (dropped k).
  Lemma dropped_S k idx : (k < s)%nat -> inrange (shp M) idx -> dropped (k - 1) idx = (dropped k idx || (list_sum idx =? k))%nat%bool \/ k = 0%nat.
  Proof.
    intros Hk Hr. destruct k as [|k]; auto. left. unfold dropped. replace (S k - 1)%nat with k by lia. destruct (isCorner idx) eqn:X.
    - apply idxEqb_true in X. subst. rewrite sumCorner. rewrite !andb_false_r. cbn [orb]. symmetry. apply Nat.eqb_neq. nia.
    - rewrite !andb_true_r. destruct (Nat.ltb_spec k (list_sum idx)), (Nat.ltb_spec (S k) (list_sum idx)), (Nat.eqb_spec (list_sum idx) (S k)); auto; lia.
  Qed.
  Lemma disjointS k idx : (dropped k idx = true -> (list_sum idx =? k)%nat = true -> False).
  Proof. unfold dropped. intros H1 H2. apply andb_prop in H1. destruct H1 as [H1 _]. apply Nat.ltb_lt in H1. apply Nat.eqb_eq in H2. lia. Qed.
  Lemma cut_error_step k e : (1 <= k < s)%nat -> cutError (k - 1) e = cutError k e + absum M (fun idx => list_sum idx =? k)%nat.
  Proof.
    intros Hk. unfold cutError. rewrite (absum_ext M M (dropped (k - 1)) (fun idx => dropped k idx || (list_sum idx =? k))%nat%bool); auto.
    - rewrite absum_or; [ring|]. intros idx _. apply disjointS.
    - intros idx Hr. destruct (dropped_S k idx) as [->| ->]; auto; lia.
  Qed.
  Lemma mons_step k C : (1 <= k < s)%nat -> cutTo k C -> exists mons, mon_combos_limited (ndim C) k (shp C) = Some mons /\
    sumAt C mons = absum M (fun idx => list_sum idx =? k)%nat /\ cutTo (k - 1) (zeroAt C mons).
  Proof.
    intros Hk [HC1 HC2]. unfold ndim. rewrite HC1. rewrite limited_eq by apply shp_ne. eexists. split; [reflexivity|].
    assert (HX : forall idx, In idx (enumL (shp M) k) <-> inrange (shp M) idx /\ (list_sum idx =? k)%nat = true) by (intros; rewrite enumL_In, Nat.eqb_eq by (apply shp_ne || apply shp_pos); tauto).
    assert (HN : enumL (shp M) k <> []). { intros E. destruct (axis k) as [A B]; [lia|]. assert (G : In (k :: repeat 0 (n - 1))%nat (enumL (shp M) k)) by (apply enumL_In; [apply shp_ne|apply shp_pos|auto]). rewrite E in G. destruct G. }
    split.
    - rewrite (sumAt_absum C _ (fun idx => list_sum idx =? k)%nat); [|auto|apply enumL_NoDup|rewrite HC1; apply HX].
      apply absum_ext; auto. rewrite HC1. intros idx Hr. destruct (Nat.eqb_spec (list_sum idx) k) as [E|E]; auto. rewrite HC2 by auto.
      destruct (dropped k idx) eqn:X; auto. destruct (disjointS k idx X). apply Nat.eqb_eq; auto.
    - split; [rewrite zeroAt_shp; auto|]. intros idx Hr. rewrite zeroAt_get by (rewrite ?HC1; auto). rewrite HC2 by auto.
      destruct (dropped_S k idx) as [->|]; [lia|auto| |lia]. destruct in_dec as [Hi|Hi].
      + apply HX in Hi. destruct Hi as [_ ->]. rewrite orb_true_r. reflexivity.
      + destruct (Nat.eqb_spec (list_sum idx) k) as [E|E]; [destruct Hi; apply HX; split; auto; apply Nat.eqb_eq; auto|]. rewrite orb_false_r. reflexivity.
  Qed.
  (** the final state: the array of side k+1 *)
  Definition finished (k : nat) (e allowed : R) (M' : tensor R) (e' : R) : Prop :=
    shp M' = repeat (k + 1)%nat n /\ (forall idx, inrange (repeat (k + 1)%nat n) idx -> tget M' idx = if dropped k idx then 0 else tget M idx) /\
    e' = cutError k e /\ e' <= allowed /\ (k = 1%nat \/ allowed < e' + absum M (fun idx => list_sum idx =? k)%nat).
  Lemma bigger k idx : (k <= s - 1)%nat -> inrange (repeat (k + 1)%nat n) idx -> inrange (shp M) idx.
  Proof. intros Hk H. rewrite HM. apply inCube in H. apply inCube. destruct H as [L F]. split; auto. eapply Forall_impl; [|exact F]. cbn; intros; lia. Qed.
  Lemma sliced k C : (k <= s - 1)%nat -> cutTo k C -> shp (sliceTop (k + 1) C) = repeat (k + 1)%nat n /\
    forall idx, inrange (repeat (k + 1)%nat n) idx -> tget (sliceTop (k + 1) C) idx = if dropped k idx then 0 else tget M idx.
  Proof.
    intros Hk [H1 H2]. unfold sliceTop. rewrite H1, HM, shp_tbuild.
    assert (E : map (Nat.min (k + 1)) (repeat s n) = repeat (k + 1)%nat n) by (clear - Hk Hs; induction n; cbn [repeat map]; [auto|f_equal; [lia|auto]]).
    rewrite E. split; auto. intros idx Hi. rewrite tget_tbuild by auto. apply H2. apply (bigger k); auto.
  Qed.
  Lemma cutLoop_spec k : forall C e allowed, (2 <= k <= s - 1)%nat -> cutTo k C -> cutError k e <= allowed ->
    exists M' e' k', cutLoop k C (cutError k e) allowed = Some (M', e') /\ (1 <= k' <= k)%nat /\ finished k' e allowed M' e'.
  Proof.
    induction k as [|k IH]; intros C e allowed Hk HC Ha; [lia|]. cbn [cutLoop]. destruct (Nat.leb_spec (S k) 1); [lia|].
    destruct (mons_step (S k) C) as (mons & E1 & E2 & E3); [lia|auto|]. rewrite E1, E2. pose proof (cut_error_step (S k) e) as ES. replace (S k - 1)%nat with k in * by lia.
    unfold ngtb. rnum. destruct (Rltb allowed (absum M (fun idx => list_sum idx =? S k)%nat + cutError (S k) e)) eqn:EB.
    - apply Rltb_true in EB. destruct HC as [HC1 HC2]. rewrite HC1. assert (E0 : nth 0 (shp M) 0%nat = s) by (rewrite HM; destruct n; [lia|reflexivity]). rewrite E0.
      destruct (Nat.ltb_spec (S k) (s - 1)) as [Hl|Hl]; eexists _, _, (S k); (split; [reflexivity|]); (split; [lia|]).
      + destruct (sliced (S k) C) as [S1 S2]; [lia|split; auto|]. split; auto. split; auto. split; auto. split; auto. right. lra.
      + assert (S k = s - 1)%nat as E by lia. split; [rewrite HC1, HM; f_equal; lia|]. split; [intros idx Hi; apply HC2; apply (bigger (S k)); auto; lia|]. split; auto. split; auto. right. lra.
    - apply Rltb_false in EB. replace (cutError (S k) e + absum M (fun idx => list_sum idx =? S k)%nat) with (cutError k e) by (rewrite ES by lia; ring).
      assert (Ha' : cutError k e <= allowed) by (rewrite ES by lia; lra). destruct (Nat.eqb_spec k 1) as [->|Hk1].
      + eexists _, _, 1%nat. split; [reflexivity|]. split; [lia|]. destruct (sliced 1 (zeroAt C mons)) as [S1 S2]; [lia|auto|]. repeat split; auto.
      + destruct (IH (zeroAt C mons) e allowed) as (M' & e' & k' & F1 & F2 & F3); [lia|auto|auto|]. exists M', e', k'. split; auto. split; [lia|auto].
  Qed.
  Lemma trimOne_spec e allowed : exists M' good e', trimOne M e allowed = Some (M', good, e') /\
    if good then exists k, (1 <= k <= s - 1)%nat /\ finished k e allowed M' e' else M' = M /\ e' = cutError (s - 1) e /\ allowed < e'.
  Proof.
    unfold trimOne. assert (ES : exists sh0, shp M = s :: sh0) by (rewrite HM; clear - Hn; destruct n; [lia|eexists; reflexivity]). destruct ES as (sh0 & ES). rewrite ES.
    destruct highMons_spec as (l & E & HN & HD & HI). rewrite E.
    assert (EA : sumAt M l = absum M (dropped (s - 1))) by (apply sumAt_absum; auto).
    rewrite EA. unfold ngtb. rnum. fold (cutError (s - 1) e). destruct (Rltb allowed (cutError (s - 1) e)) eqn:EB.
    - apply Rltb_true in EB. exists M, false, (cutError (s - 1) e). auto.
    - apply Rltb_false in EB. destruct (cutLoop_spec (s - 1) (zeroAt M l) e allowed) as (M' & e' & k & F1 & F2 & F3); [lia| |lra|].
      + split; [apply zeroAt_shp|]. intros idx Hr. rewrite zeroAt_get by auto. destruct in_dec as [Hi|Hi].
        * apply HI in Hi. destruct Hi as [_ ->]. reflexivity.
        * destruct (dropped (s - 1) idx) eqn:X; auto. destruct Hi. apply HI. auto.
      + rewrite F1. exists M', true, e'. split; auto. exists k. auto.
  Qed.

  (** values *)
  Lemma value_bound k e allowed M' e' x : wf M -> (1 <= k <= s - 1)%nat -> finished k e allowed M' e' -> in_cube n x ->
    Rabs (cheb_eval M' x - cheb_eval M x) <= e' - e + (if (k <? s - 1)%nat then Rabs (tget M cornerIdx) else 0).
  Proof.
    intros Hw Hk (F1 & F2 & F3 & _) [Lx Hx].
    set (l := filter (fun idx => negb (dropped k idx)) (indices (repeat (k + 1)%nat n))).
    assert (Hl1 : NoDup l) by (apply NoDup_filter, NoDup_indices).
    assert (Hl2 : forall i, In i l -> inrange (shp M) i) by (intros i Hi; apply filter_In in Hi; destruct Hi as [Hi _]; apply in_indices in Hi; apply (bigger k); auto; lia).
    assert (E1 : cheb_eval M' x = Rsum (map (fun i => tget M i * basis chebT i x) l)).
    { unfold cheb_eval. rewrite F1. unfold l. rewrite Rsum_select. f_equal. apply map_ext_in. intros idx Hi. apply in_indices in Hi. rewrite F2 by auto. destruct (dropped k idx); cbn [negb]; ring. }
    rewrite E1. rewrite Rabs_minus_sym. eapply Rle_trans; [apply (part_bound M l x Hl1 Hl2 Hx)|]. unfold sumabs. rewrite (sum_split (fun i => Rabs (tget M i)) _ l Hl1 Hl2).
    match goal with |- ?a + ?b - ?a <= _ => replace (a + b - a) with b by ring end. rewrite Rsum_select. rewrite F3. unfold cutError.
    set (cP := fun idx => isCorner idx && (k <? s - 1)%nat).
    assert (Ei : Rsum (map (fun idx => if negb (memb l idx) then Rabs (tget M idx) else 0) (indices (shp M))) = absum M (fun idx => dropped k idx || cP idx)).
    { unfold absum. f_equal. apply map_ext_in. intros idx Hi. apply in_indices in Hi. f_equal.
      assert (Em : memb l idx = negb (dropped k idx) && (negb (isCorner idx) || negb (k <? s - 1)%nat)).
      { destruct (memb l idx) eqn:X; [apply memb_In in X; unfold l in X; apply filter_In in X; destruct X as [X1 X2]; rewrite X2; cbn [andb]|].
        - destruct (isCorner idx) eqn:Y; auto. apply idxEqb_true in Y. subst. apply in_indices, inCube in X1. destruct X1 as [_ X1]. symmetry. cbn [negb orb]. apply negb_true_iff, Nat.ltb_ge.
          unfold cornerIdx in X1. destruct n; [lia|]. cbn [repeat] in X1. inversion X1; lia.
        - symmetry. destruct (dropped k idx) eqn:Y; auto. cbn [negb andb]. assert (Z : ~ inrange (repeat (k + 1)%nat n) idx).
          { intros Z. assert (In idx l) as G by (apply filter_In; rewrite Y; split; auto; apply in_indices; auto). apply memb_In in G. congruence. }
          unfold dropped in Y. rewrite HM in Hi. pose proof (proj1 (inCube s idx) Hi) as [Li _]. destruct (isCorner idx) eqn:V; cbn [negb orb].
          + destruct (Nat.ltb_spec k (s - 1)); auto. exfalso. apply Z. replace (k + 1)%nat with s by lia. auto.
          + cbn [negb] in Y. rewrite andb_true_r in Y. apply Nat.ltb_ge in Y. destruct Z. apply small_in; auto. }
      rewrite Em. unfold cP. destruct (dropped k idx), (isCorner idx), (k <? s - 1)%nat; reflexivity. }
    rewrite Ei. rewrite absum_or.
    2:{ intros idx _ H1 H2. unfold dropped in H1. unfold cP in H2. apply andb_prop in H1, H2. destruct H1 as [_ H1], H2 as [H2 _]. rewrite H2 in H1. discriminate. }
    assert (Ec : absum M cP <= (if (k <? s - 1)%nat then Rabs (tget M cornerIdx) else 0)).
    { unfold cP. destruct (k <? s - 1)%nat.
      - unfold absum. rewrite <- Rsum_select. rewrite (Rsum_perm _ (map (fun x0 => Rabs (tget M x0)) [cornerIdx])); [cbn; lra|]. apply Permutation_map, NoDup_Permutation; [apply NoDup_filter, NoDup_indices|repeat constructor; simpl; tauto|].
        intros i. rewrite filter_In, andb_true_r, in_indices. unfold isCorner. rewrite idxEqb_true. cbn [In]. split; [intros [_ ->]; auto|intros [<-|[]]; split; auto].
        rewrite HM. apply inCube. unfold cornerIdx. split; [apply repeat_length|]. apply Forall_forall. intros v Hv. apply repeat_spec in Hv. lia.
      - unfold absum. apply Req_le. rewrite (map_ext _ (fun _ : list nat => 0)) by (intros; rewrite andb_false_r; reflexivity). clear. induction (indices (shp M)) as [|i l IHl]; [reflexivity|]. cbn [map]. unfold Rsum in *. cbn [fold_right]. rewrite IHl. ring. }
    lra.
  Qed.
End Cube.
