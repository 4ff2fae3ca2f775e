(** * Monomial multiplication is exact *)
From Coq Require Import Reals List Lia Lra Arith Bool.
From Verif Require Import Num RSum Cheb Tensor PolySpec TransformModel TransformNDProofs PolyModel PolyEval PolyArith PolyCheb MonMultModel.
Import ListNotations.
Local Open Scope R_scope.

(** ** One axis *)
Definition dist (n m : nat) : nat := ((n - m) + (m - n))%nat.
Lemma chebT_product m : forall n x, 2 * chebT m x * chebT n x = chebT (n + m) x + chebT (dist n m) x.
Proof.
  unfold dist. induction m as [| |m IH0 IH1] using nat_ind2; intros n x.
  - rewrite Nat.add_0_r, Nat.sub_0_r. replace (n + (0 - n))%nat with n by lia. rewrite chebT_0. ring.
  - rewrite chebT_1. destruct n as [|n].
    + cbn [Nat.add Nat.sub]. rewrite chebT_0, chebT_1. ring.
    + replace (S n - 1 + (1 - S n))%nat with n by lia. replace (S n + 1)%nat with (S (S n)) by lia. rewrite chebT_mul2x. ring.
  - rewrite chebT_SS. replace (2 * (2 * x * chebT (S m) x - chebT m x) * chebT n x)
      with (2 * x * (2 * chebT (S m) x * chebT n x) - 2 * chebT m x * chebT n x) by ring.
    rewrite IH0, IH1. replace (n + S m)%nat with (S (n + m)) by lia. rewrite Rmult_plus_distr_l, chebT_mul2x.
    replace (n + S (S m))%nat with (S (S (n + m))) by lia.
    enough (2 * x * chebT (n - S m + (S m - n)) x = chebT (n - S (S m) + (S (S m) - n)) x + chebT (n - m + (m - n)) x) by lra.
    destruct (le_lt_dec n m) as [L|L].
    + replace (n - S m + (S m - n))%nat with (S (m - n)) by lia. replace (n - S (S m) + (S (S m) - n))%nat with (S (S (m - n))) by lia.
      replace (n - m + (m - n))%nat with (m - n)%nat by lia. apply chebT_mul2x.
    + destruct (Nat.eq_dec n (S m)) as [->|N].
      * replace (S m - S m + (S m - S m))%nat with 0%nat by lia. replace (S m - S (S m) + (S (S m) - S m))%nat with 1%nat by lia.
        replace (S m - m + (m - S m))%nat with 1%nat by lia. rewrite chebT_0, chebT_1. ring.
      * replace (n - S m + (S m - n))%nat with (S (n - S (S m))) by lia. replace (n - S (S m) + (S (S m) - n))%nat with (n - S (S m))%nat by lia.
        replace (n - m + (m - n))%nat with (S (S (n - S (S m)))) by lia. rewrite chebT_mul2x. ring.
Qed.

(** the coefficient of place k, read off from the product formula *)
Definition shiftC (c : nat -> R) (m k : nat) : R := if (m <=? k)%nat then c (k - m)%nat else 0.
Definition foldC (c : nat -> R) (m k : nat) : R :=
  match k with O => c m | S _ => (if (k <=? m)%nat then c (m - k)%nat else 0) + c (m + k)%nat end.
Lemma sumn_ind s i (c : nat -> R) : (forall k, (s <= k)%nat -> c k = 0) -> sumn s (fun n => c n * (if Nat.eqb n i then 1 else 0)) = c i.
Proof.
  intros H. destruct (lt_dec i s) as [L|L].
  - rewrite (sumn_single s i); auto.
    + rewrite Nat.eqb_refl. ring.
    + intros n Hn Hne. destruct (Nat.eqb_spec n i); [congruence|ring].
  - rewrite H by lia. apply sumn_zero. intros n Hn. destruct (Nat.eqb_spec n i); [lia|ring].
Qed.
Lemma shiftC_sum s m k c : (forall k, (s <= k)%nat -> c k = 0) ->
  shiftC c m k = sumn s (fun n => c n * (if Nat.eqb k (n + m) then 1 else 0)).
Proof.
  intros H. unfold shiftC. destruct (Nat.leb_spec m k) as [L|L].
  - rewrite <- (sumn_ind s (k - m) c H). apply sumn_ext. intros n Hn. destruct (Nat.eqb_spec n (k - m)), (Nat.eqb_spec k (n + m)); auto; lia.
  - symmetry. apply sumn_zero. intros n Hn. destruct (Nat.eqb_spec k (n + m)); [lia|ring].
Qed.
Lemma foldC_sum s m k c : (forall k, (s <= k)%nat -> c k = 0) ->
  foldC c m k = sumn s (fun n => c n * (if Nat.eqb k (dist n m) then 1 else 0)).
Proof.
  intros H. unfold foldC, dist. destruct k as [|k].
  - rewrite <- (sumn_ind s m c H). apply sumn_ext. intros n Hn. destruct (Nat.eqb_spec n m), (Nat.eqb_spec 0 (n - m + (m - n))); auto; lia.
  - destruct (Nat.leb_spec (S k) m) as [L|L].
    + rewrite <- (sumn_ind s (m - S k) c H), <- (sumn_ind s (m + S k) c H), <- sumn_plus. apply sumn_ext. intros n Hn.
      destruct (Nat.eqb_spec n (m - S k)), (Nat.eqb_spec n (m + S k)), (Nat.eqb_spec (S k) (n - m + (m - n))); try ring; lia.
    + rewrite Rplus_0_l. rewrite <- (sumn_ind s (m + S k) c H). apply sumn_ext. intros n Hn.
      destruct (Nat.eqb_spec n (m + S k)), (Nat.eqb_spec (S k) (n - m + (m - n))); try ring; lia.
Qed.
Lemma sumn_pick N i (f : nat -> R) : (i < N)%nat -> sumn N (fun k => (if Nat.eqb k i then 1 else 0) * f k) = f i.
Proof.
  intros H. rewrite (sumn_single N i); auto.
  - rewrite Nat.eqb_refl. ring.
  - intros n Hn Hne. destruct (Nat.eqb_spec n i); [congruence|ring].
Qed.
Lemma multiply_1D s m (c : nat -> R) x : (1 <= s)%nat -> (forall k, (s <= k)%nat -> c k = 0) ->
  sumn (s + m) (fun k => / 2 * (shiftC c m k + foldC c m k) * chebT k x) = chebT m x * sumn s (fun k => c k * chebT k x).
Proof.
  intros Hs H.
  rewrite (sumn_ext (s + m) _ (fun k => sumn s (fun n => / 2 * c n * ((if Nat.eqb k (n + m) then 1 else 0) * chebT k x + (if Nat.eqb k (dist n m) then 1 else 0) * chebT k x)))).
  - rewrite sumn_swap. rewrite <- sumn_scal. apply sumn_ext. intros n Hn. rewrite sumn_scal, sumn_plus.
    rewrite !sumn_pick by (unfold dist; lia). rewrite <- chebT_product. field.
  - intros k Hk. rewrite (shiftC_sum s), (foldC_sum s) by auto. rewrite <- sumn_plus, <- sumn_scal, <- sumn_scal_r. apply sumn_ext. intros n Hn. ring.
Qed.

(** ** Shapes *)
Lemma addShape_one s : forall d m, (d < length s)%nat -> addShape s (upd (repeat 0%nat (length s)) d m) = upd s d (nth d s 0 + m)%nat.
Proof.
  assert (Z : forall s, addShape s (repeat 0%nat (length s)) = s) by (induction s0; cbn; rewrite ?Nat.add_0_r; congruence).
  induction s as [|a s IH]; intros [|d] m Hd; cbn in *; try lia.
  - rewrite Z. auto.
  - rewrite Nat.add_0_r, IH by lia. auto.
Qed.
Lemma addShape_length s : forall m, length m = length s -> length (addShape s m) = length s.
Proof. induction s; intros [|b m] L; try discriminate; cbn in *; auto. Qed.
Lemma offset_self s : forall idx, inrange s idx -> offset s s idx = Some idx.
Proof.
  induction s as [|a s IH]; intros idx H; inversion H; subst; cbn [offset]; auto.
  rewrite Nat.sub_diag, IH by auto. destruct (Nat.leb_spec 0 x), (Nat.ltb_spec x a); try lia. cbn [andb]. rewrite Nat.sub_0_r. auto.
Qed.
Lemma offset_one s : forall d m idx, (d < length s)%nat -> inrange (upd s d (nth d s 0 + m)%nat) idx ->
  offset (upd s d (nth d s 0 + m)%nat) s idx = if (m <=? nth d idx 0)%nat then Some (upd idx d (nth d idx 0 - m)%nat) else None.
Proof.
  induction s as [|a s IH]; intros [|d] m idx Hd H; cbn [length nth upd] in *; try lia; inversion H; subst; cbn [offset nth upd].
  - rewrite offset_self by auto. replace (a + m - a)%nat with m by lia. destruct (Nat.leb_spec m x); cbn [andb]; auto.
    destruct (Nat.ltb_spec x (a + m)); [auto|lia].
  - rewrite IH by (auto; lia). rewrite Nat.sub_diag. destruct (Nat.leb_spec 0 x), (Nat.ltb_spec x a); try lia. cbn [andb]. rewrite Nat.sub_0_r.
    destruct (m <=? nth d l 0)%nat; auto.
Qed.
Lemma padded_shape s : forall d m, (d < length s)%nat -> Forall (fun n => (1 <= n)%nat) s ->
  map S (maxShape (map (fun i => (i - 1)%nat) s) (upd (repeat 0%nat (length s)) d m)) = upd s d (Nat.max (nth d s 0) (S m))%nat.
Proof.
  assert (Z : forall s, Forall (fun n => (1 <= n)%nat) s -> map S (maxShape (map (fun i => (i - 1)%nat) s) (repeat 0%nat (length s))) = s).
  { induction s0; intros F; inversion F; subst; cbn [map length repeat maxShape]; auto. rewrite IHs0 by auto. f_equal. lia. }
  induction s as [|a s IH]; intros [|d] m Hd F; cbn [length] in *; try lia; inversion F; subst.
  - cbn [map length repeat maxShape upd nth]. rewrite Z by auto. f_equal. lia.
  - cbn [map length repeat maxShape upd nth]. rewrite IH by (auto; lia). f_equal. lia.
Qed.
Lemma fold_only {A} (f : A -> nat -> A) d n a : (d < n)%nat -> (forall a i, i <> d -> f a i = a) -> fold_left f (seq 0 n) a = f a d.
Proof.
  intros Hd H. assert (G : forall l a, ~ In d l -> fold_left f l a = a).
  { induction l as [|i l IH]; intros b N; cbn; auto. rewrite H by (intros ->; apply N; left; auto). apply IH. intros K; apply N; right; auto. }
  replace n with (d + S (n - d - 1))%nat by lia. rewrite seq_app. rewrite fold_left_app. cbn [seq Nat.add fold_left].
  rewrite G by (rewrite in_seq; lia). rewrite G by (rewrite in_seq; lia). auto.
Qed.
Lemma inrange_axis s d a b idx : (d < length s)%nat -> inrange (upd s d a) idx -> inrange (upd s d b) idx <-> (nth d idx 0 < b)%nat.
Proof.
  intros Hd H. split; intros K.
  - apply (inrange_nth _ _ d) in K; [|rewrite upd_length; auto]. rewrite nth_upd_eq in K by auto. auto.
  - rewrite <- (upd_nth idx d 0%nat). replace (upd s d b) with (upd (upd s d a) d b) by apply upd_upd. apply inrange_upd; auto.
Qed.
Lemma nth_one n d m i : (d < n)%nat -> nth i (upd (repeat 0%nat n) d m) 0%nat = if Nat.eqb i d then m else 0%nat.
Proof.
  intros Hd. assert (Z : forall n i, nth i (repeat 0%nat n) 0%nat = 0%nat) by (induction n0; intros [|j]; cbn; auto).
  destruct (Nat.eqb_spec i d) as [->|N]; [apply nth_upd_eq; rewrite repeat_length; auto|]. rewrite nth_upd_neq by auto. apply Z.
Qed.

(** ** One axis of a tensor *)
Section Axis.
  Variables (t : tensor R) (d m : nat).
  Hypothesis W : wf t.
  Hypothesis Hd : (d < ndim t)%nat.
  Let s := nth d (shp t) 0%nat.
  Let e := upd (repeat 0%nat (ndim t)) d m.
  (** the coefficients along the axis through idx, zero past the end *)
  Let along (idx : list nat) (j : nat) : R := if (j <? s)%nat then tget t (upd idx d j) else 0.

  Lemma s_pos : (1 <= s)%nat.
  Proof. apply axis_pos; auto. Qed.
  Lemma mm1_shape : shp (@mon_mult1 R R_num t e d) = upd (shp t) d (s + m)%nat.
  Proof. unfold mon_mult1. rewrite !shp_tbuild. apply addShape_one; auto. Qed.
  Lemma p1_get idx : inrange (upd (shp t) d (s + m)%nat) idx ->
    tget (@padBottom R R_num (addShape (shp t) e) t) idx = shiftC (along idx) m (nth d idx 0%nat).
  Proof.
    intros H. unfold padBottom, e, ndim. rewrite addShape_one by auto. fold s. rewrite tget_tbuild by auto.
    rewrite offset_one by auto. unfold shiftC, along. pose proof (proj1 (inrange_axis _ _ _ (s + m) _ Hd H) H).
    destruct (Nat.leb_spec m (nth d idx 0%nat)); auto. destruct (Nat.ltb_spec (nth d idx 0 - m)%nat s); auto; lia.
  Qed.
  Let size := if (s <=? m)%nat then Nat.max s (S m) else s.
  Let tp : tensor R := if (s <=? m)%nat then @pad R R_num (upd (shp t) d (Nat.max s (S m))) t else t.
  Lemma tp_shape : shp tp = upd (shp t) d size.
  Proof. unfold tp, size. destruct (s <=? m)%nat; auto. unfold s. rewrite upd_nth. auto. Qed.
  Lemma tp_get idx : inrange (upd (shp t) d size) idx -> tget tp idx = along idx (nth d idx 0%nat).
  Proof.
    intros H. assert (Li : length idx = ndim t) by (apply inrange_length in H; rewrite upd_length in H; auto).
    unfold tp, along. rewrite upd_nth.
    assert (Ir : inrange (shp t) idx <-> (nth d idx 0 < s)%nat).
    { rewrite <- (inrange_axis _ d size s idx Hd H). unfold s. rewrite upd_nth. tauto. }
    unfold size in *. destruct (s <=? m)%nat eqn:E.
    - unfold pad. rewrite tget_tbuild by auto. destruct (Nat.ltb_spec (nth d idx 0%nat) s) as [L|L].
      + rewrite inrangeb_true by tauto. auto.
      + destruct (inrangeb (shp t) idx) eqn:I; auto. apply inrangeb_spec in I. apply Ir in I. lia.
    - destruct (Nat.ltb_spec (nth d idx 0%nat) s) as [L|L]; auto. exfalso. apply (inrange_nth _ _ d) in H; [|rewrite upd_length; auto].
      rewrite nth_upd_eq in H by auto. lia.
  Qed.
  Lemma tp_along idx j : inrange (upd (shp t) d size) idx -> (j < size)%nat -> tget tp (upd idx d j) = along idx j.
  Proof.
    intros H Hj. assert (Li : length idx = ndim t) by (apply inrange_length in H; rewrite upd_length in H; auto).
    rewrite tp_get.
    - unfold along. rewrite upd_upd, nth_upd_eq by (unfold ndim in *; lia). auto.
    - replace (upd (shp t) d size) with (upd (upd (shp t) d size) d size) by apply upd_upd. apply inrange_upd; auto.
  Qed.
  Lemma folded_get idx : inrange (upd (shp t) d size) idx ->
    tget (if (m =? 0)%nat then tp else @fold_in_dir R R_num tp d m) idx = foldC (along idx) m (nth d idx 0%nat).
  Proof.
    intros H. assert (Z : forall j, (s <= j)%nat -> along idx j = 0) by (intros j Hj; unfold along; destruct (Nat.ltb_spec j s); auto; lia).
    pose proof s_pos as Sp. assert (Hm : (m < size)%nat) by (unfold size; destruct (Nat.leb_spec s m); lia).
    assert (Hs : (s <= size)%nat) by (unfold size; destruct (Nat.leb_spec s m); lia).
    assert (Hk : (nth d idx 0 < size)%nat) by (apply (inrange_nth _ _ d) in H; [|rewrite upd_length; auto]; rewrite nth_upd_eq in H by auto; auto).
    destruct (Nat.eqb_spec m 0) as [E|E].
    - rewrite tp_get by auto. unfold foldC. rewrite E. destruct (nth d idx 0%nat) as [|k]; auto. cbn [Nat.leb Nat.add]. ring.
    - unfold fold_in_dir. rewrite (proj2 (Nat.eqb_neq m 0) E). rewrite tget_tbuild by (rewrite tp_shape; auto).
      rewrite tp_shape, nth_upd_eq by auto. unfold foldAt, foldC. destruct (nth d idx 0%nat) as [|k].
      + apply tp_along; auto.
      + destruct (Nat.ltb_spec m (k + 1)), (Nat.leb_spec (S k) m); try lia.
        * destruct (Nat.ltb_spec size (m + k + 2)).
          -- rewrite (Z (m + S k)%nat) by (unfold size in *; destruct (Nat.leb_spec s m); lia). rnum. ring.
          -- rewrite tp_along by (auto; lia). replace (m + k + 1)%nat with (m + S k)%nat by lia. ring.
        * destruct (Nat.ltb_spec size (m + k + 2)).
          -- rewrite tp_along by (auto; lia). rewrite (Z (m + S k)%nat) by (unfold size in *; destruct (Nat.leb_spec s m); lia).
             replace (m - k - 1)%nat with (m - S k)%nat by lia. ring.
          -- rewrite !tp_along by (auto; lia). replace (m + k + 1)%nat with (m + S k)%nat by lia. replace (m - k - 1)%nat with (m - S k)%nat by lia. reflexivity.
  Qed.
  Lemma mm1_get idx : inrange (upd (shp t) d (s + m)%nat) idx ->
    tget (@mon_mult1 R R_num t e d) idx = / 2 * (shiftC (along idx) m (nth d idx 0%nat) + foldC (along idx) m (nth d idx 0%nat)).
  Proof.
    intros H. pose proof mm1_shape as Sh. revert Sh. unfold mon_mult1. cbv zeta. rewrite !shp_tbuild. intros Sh.
    rewrite tget_tbuild by (rewrite Sh; auto). rewrite p1_get by auto. rewrite nlit_R. rnum.
    replace (IZR 1 / IZR 2) with (/ 2) by lra. f_equal. f_equal.
    rewrite Sh.
    replace (nth d e 0%nat) with m by (unfold e; rewrite nth_one, Nat.eqb_refl; auto).
    fold s. pose proof (padded_shape (shp t) d m Hd (proj2 W)) as P.
    assert (P' : map S (maxShape (map (fun i => (i - 1)%nat) (shp t)) e) = upd (shp t) d (Nat.max s (S m))) by exact P. rewrite P'. clear P P'.
    fold tp.
    assert (Nd : ndim tp = ndim t) by (unfold ndim; rewrite tp_shape, upd_length; auto). rewrite Nd.
    rewrite (fold_only _ d) by (auto; intros a i Hi; unfold e; rewrite nth_one by auto; rewrite (proj2 (Nat.eqb_neq i d) Hi); reflexivity).
    replace (nth d e 0%nat) with m by (unfold e; rewrite nth_one, Nat.eqb_refl; auto).
    set (F := if (m =? 0)%nat then tp else fold_in_dir tp d m).
    assert (SF : shp F = upd (shp t) d size) by (unfold F; destruct (Nat.eqb_spec m 0); [apply tp_shape|]; unfold fold_in_dir; rewrite (proj2 (Nat.eqb_neq m 0)) by auto; rewrite shp_tbuild; apply tp_shape).
    rewrite SF.
    destruct (lt_dec (nth d idx 0%nat) size) as [L|L].
    - assert (I : inrange (upd (shp t) d size) idx) by (apply (inrange_axis _ _ (s + m)); auto).
      destruct (list_eq_dec Nat.eq_dec _ _); [apply folded_get; auto|].
      unfold pad. rewrite tget_tbuild by auto. rewrite SF, inrangeb_true by auto. apply folded_get; auto.
    - assert (I : ~ inrange (upd (shp t) d size) idx) by (rewrite (inrange_axis _ _ (s + m)); auto; lia).
      destruct (list_eq_dec Nat.eq_dec _ _) as [Q|Q]; [rewrite <- Q in I; tauto|].
      unfold pad. rewrite tget_tbuild by auto. rewrite SF. destruct (inrangeb _ idx) eqn:B; [apply inrangeb_spec in B; tauto|].
      unfold foldC. pose proof s_pos. unfold size in L. destruct (nth d idx 0%nat) as [|k]; [destruct (Nat.leb_spec s m); lia|].
      unfold along. change (@n0 R R_num) with 0. destruct (Nat.leb_spec s m), (Nat.leb_spec (S k) m); try lia;
        destruct (Nat.ltb_spec (m + S k) s); try lia; rewrite Rplus_0_l || (destruct (Nat.ltb_spec (m - S k) s); try lia; rewrite Rplus_0_l); auto.
  Qed.
  Lemma mm1_wf : wf (@mon_mult1 R R_num t e d).
  Proof.
    unfold mon_mult1. apply wf_tbuild. unfold padBottom. rewrite shp_tbuild. unfold e, ndim. rewrite addShape_one by auto.
    apply Forall_upd; [apply W|]. pose proof s_pos. unfold s in *. lia.
  Qed.
  Lemma mm1_eval x : length x = ndim t -> evalT chebT (@mon_mult1 R R_num t e d) x = chebT m (nth d x 0) * evalT chebT t x.
  Proof.
    intros Lx. assert (N' : ndim (@mon_mult1 R R_num t e d) = ndim t) by (unfold ndim; rewrite mm1_shape, upd_length; auto).
    rewrite <- (evalL_repeat chebT t), <- (evalL_repeat chebT (mon_mult1 t e d)).
    rewrite (evalL_axis _ (mon_mult1 t e d) x d), (evalL_axis _ t x d); rewrite ?N', ?repeat_length; auto.
    rewrite mm1_shape, upd_upd. rewrite <- sumidx_scal. apply sumidx_ext. intros r Hr.
    rewrite (nth_indep _ phi1 chebT) by (rewrite repeat_length; auto). rewrite nth_repeat.
    rewrite <- Rmult_assoc. f_equal. unfold eval1. rewrite !fibre_length, mm1_shape, nth_upd_eq by auto. fold s.
    assert (Lr : length r = ndim t) by (apply inrange_length in Hr; rewrite upd_length in Hr; auto).
    rewrite <- (sumn_ext s (fun k => along r k * chebT k (nth d x 0))).
    - rewrite <- multiply_1D by (try apply s_pos; intros k Hk; unfold along; destruct (Nat.ltb_spec k s); auto; lia).
      apply sumn_ext. intros k Hk. f_equal. change 0 with (@n0 R R_num) at 1. rewrite fibre_nth by (rewrite mm1_shape, nth_upd_eq by auto; auto).
      rewrite mm1_get.
      + rewrite nth_upd_eq by (unfold ndim in *; lia). f_equal. unfold along.
        f_equal; [unfold shiftC; destruct (m <=? k)%nat; auto; rewrite upd_upd; auto|].
        unfold foldC. destruct k; rewrite !upd_upd; auto.
      + replace (upd (shp t) d (s + m)%nat) with (upd (upd (shp t) d 1%nat) d (s + m)%nat) by apply upd_upd. apply inrange_upd; auto.
    - intros k Hk. f_equal. unfold along. destruct (Nat.ltb_spec k s); [|lia]. change 0 with (@n0 R R_num). rewrite fibre_nth by auto. auto.
  Qed.
End Axis.

(** ** All axes *)
Fixpoint basisUpTo (i : nat) (mon : list nat) (x : list R) : R :=
  match i with O => 1 | S i' => basisUpTo i' mon x * chebT (nth i' mon 0%nat) (nth i' x 0) end.
Lemma basis_full (mon : list nat) (x : list R) : length x = length mon -> basisUpTo (length mon) mon x = basis chebT mon x.
Proof.
  assert (G : forall i m mon v x, basisUpTo (S i) (m :: mon) (v :: x) = chebT m v * basisUpTo i mon x).
  { induction i; intros; [cbn; ring|]. change (basisUpTo (S (S i)) (m :: mon0) (v :: x0)) with (basisUpTo (S i) (m :: mon0) (v :: x0) * chebT (nth i mon0 0%nat) (nth i x0 0)).
    rewrite IHi. cbn [basisUpTo]. ring. }
  revert x. induction mon as [|m mon IH]; intros [|v x] L; try discriminate; auto.
  cbn [length]. rewrite G. cbn [basis]. rewrite IH; auto.
Qed.
Lemma mm2_loop (mon : list nat) (t : tensor R) x : wf t -> length mon = ndim t -> length x = ndim t -> forall i, (i <= length mon)%nat ->
  let t' := fold_left (fun t i => @mon_mult1 R R_num t (upd (repeat 0%nat (length mon)) i (nth i mon 0%nat)) i) (seq 0 i) t in
  wf t' /\ ndim t' = ndim t /\ (forall j, nth j (shp t') 0%nat = nth j (shp t) 0%nat + if (j <? i)%nat then nth j mon 0%nat else 0)%nat /\
  evalT chebT t' x = basisUpTo i mon x * evalT chebT t x.
Proof.
  intros W Lm Lx. induction i as [|i IH]; intros Hi.
  - cbn. split; [auto|split; [auto|split; [intros; lia|ring]]].
  - replace (S i) with (i + 1)%nat by lia. rewrite seq_app, fold_left_app. cbn [Nat.add seq fold_left].
    destruct (IH ltac:(lia)) as (W' & N' & S' & E'). set (t' := fold_left _ (seq 0 i) t) in *. cbv zeta.
    rewrite Lm, <- N' in Hi. rewrite Lm, <- N'. assert (Hd : (i < ndim t')%nat) by lia. split; [apply mm1_wf; auto|].
    split; [unfold ndim; rewrite mm1_shape, upd_length; auto|]. split.
    + intros j. rewrite mm1_shape by auto. rewrite nth_upd by (unfold ndim in *; lia). rewrite !S'.
      destruct (Nat.eqb_spec j i) as [->|Ne].
      * rewrite Nat.ltb_irrefl. destruct (Nat.ltb_spec i (i + 1)); lia.
      * destruct (Nat.ltb_spec j i), (Nat.ltb_spec j (i + 1)); lia.
    + rewrite mm1_eval by (auto; lia). rewrite E'. rewrite Nat.add_1_r. cbn [basisUpTo]. ring.
Qed.
Lemma addShape_nth s : forall m j, length m = length s -> nth j (addShape s m) 0%nat = (nth j s 0 + nth j m 0)%nat.
Proof. induction s; intros [|b m] [|j] L; try discriminate; cbn in *; auto. Qed.

(** ** Powers *)
Lemma sumidx_bottom s : forall (mon : list nat) (x : list R) (F : list nat -> R), length mon = length s -> length x = length s ->
  sumidx (addShape s mon) (fun idx => match offset (addShape s mon) s idx with Some r => F r | None => 0 end * basis pw idx x) = basis pw mon x * sumidx s (fun r => F r * basis pw r x).
Proof.
  induction s as [|a s IH]; intros [|m mon] [|v x] F L1 L2; try discriminate.
  - cbn. ring.
  - cbn [addShape sumidx basis offset]. rewrite (Nat.add_comm a m). rewrite sumn_split. rewrite sumn_zero.
    + rewrite Rplus_0_l, Rmult_assoc, <- sumn_scal, <- sumn_scal. apply sumn_ext. intros i Hi.
      replace (m + a - a)%nat with m by lia.
      rewrite (sumidx_ext _ _ (fun r => pw (m + i) v * (match offset (addShape s mon) s r with Some q => F (i :: q) | None => 0 end * basis pw r x))).
      * rewrite sumidx_scal, (IH mon x (fun q => F (i :: q))) by (cbn in *; lia).
        rewrite (sumidx_ext s (fun r => F (i :: r) * (pw i v * basis pw r x)) (fun r => pw i v * (F (i :: r) * basis pw r x))) by (intros; ring).
        rewrite sumidx_scal. unfold pw. rewrite pow_add. ring.
      * intros r Hr. destruct (Nat.leb_spec m (m + i)), (Nat.ltb_spec (m + i) (m + a)); try lia. cbn [andb].
        replace (m + i - m)%nat with i by lia. destruct (offset _ s r); ring.
    + intros i Hi. rewrite (sumidx_ext _ _ (fun _ => 0)); [apply sumidx_0|].
      intros r Hr. replace (m + a - a)%nat with m by lia. destruct (Nat.leb_spec m i); [lia|]. cbn [andb]. ring.
Qed.
Lemma padBottom_eval (t : tensor R) mon x : length mon = ndim t -> length x = ndim t ->
  evalT pw (@padBottom R R_num (addShape (shp t) mon) t) x = basis pw mon x * evalT pw t x.
Proof.
  intros L1 L2. unfold evalT. unfold padBottom at 1. rewrite shp_tbuild.
  rewrite (sumidx_ext _ _ (fun idx => match offset (addShape (shp t) mon) (shp t) idx with Some r => tget t r | None => 0 end * basis pw idx x)).
  - apply sumidx_bottom; auto.
  - intros idx Hi. unfold padBottom. rewrite tget_tbuild by auto. destruct (offset _ _ _); reflexivity.
Qed.
