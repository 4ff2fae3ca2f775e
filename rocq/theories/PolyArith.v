(** * Cleaning, padding, sums and products of coefficient tensors over the reals *)
From Coq Require Import Reals List Lia Lra Arith Bool.
From Verif Require Import Num RSum Cheb Tensor PolySpec TransformModel PolyModel PolyEval.
Import ListNotations.
Local Open Scope R_scope.

Lemma Forall2_length {A B} {P : A -> B -> Prop} {l1 l2} : Forall2 P l1 l2 -> length l1 = length l2.
Proof. induction 1; cbn; auto. Qed.
Lemma inrangeb_spec s : forall idx, inrangeb s idx = true <-> inrange s idx.
Proof.
  induction s as [|n s IH]; intros [|i idx]; cbn; split; intros H; try discriminate; try constructor; try (inversion H; fail).
  - apply andb_true_iff in H. apply Nat.ltb_lt. apply H.
  - apply andb_true_iff in H. apply IH. apply H.
  - inversion H; subst. apply andb_true_iff. split; [apply Nat.ltb_lt; auto|apply IH; auto].
Qed.
Lemma inrangeb_true s idx : inrange s idx -> inrangeb s idx = true.
Proof. apply inrangeb_spec. Qed.

(** ** Padding with zeros *)
Lemma sumidx_pad s0 : forall s F, Forall2 le s0 s -> sumidx s (fun idx => if inrangeb s0 idx then F idx else 0) = sumidx s0 F.
Proof.
  induction s0 as [|n s0 IH]; intros s F H; inversion H as [|? m ? s' Hn Hs]; subst; [reflexivity|].
  cbn [sumidx inrangeb]. rewrite (sumn_extend n m); auto.
  - apply sumn_ext. intros i Hi. assert (E : Nat.ltb i n = true) by (apply Nat.ltb_lt; auto). rewrite E. cbn [andb]. apply IH; auto.
  - intros i Hi. assert (E : Nat.ltb i n = false) by (apply Nat.ltb_ge; lia). rewrite E. cbn [andb]. apply sumidx_0.
Qed.
Lemma evalT_pad phi s (t : tensor R) x : Forall2 le (shp t) s -> evalT phi (@pad R R_num s t) x = evalT phi t x.
Proof.
  intros H. unfold evalT, pad. rewrite shp_tbuild. rewrite <- (sumidx_pad (shp t) s) by auto. apply sumidx_ext. intros idx Hi.
  rewrite tget_tbuild by auto. destruct (inrangeb (shp t) idx); auto. rnum. ring.
Qed.
Lemma maxShape_le s1 : forall s2, length s1 = length s2 -> Forall2 le s1 (maxShape s1 s2) /\ Forall2 le s2 (maxShape s1 s2).
Proof.
  induction s1 as [|a s1 IH]; intros [|b s2] H; try discriminate; cbn; [auto|]. injection H as H.
  destruct (IH s2 H). split; constructor; auto; lia.
Qed.
Lemma Forall_ge1 s0 s : Forall (fun n => (1 <= n)%nat) s0 -> Forall2 le s0 s -> Forall (fun n => (1 <= n)%nat) s.
Proof. intros H F. induction F; auto. inversion H; subst. constructor; auto. lia. Qed.

(** the two operands have the same shape and unchanged values *)
Lemma sameSize_ok (a b a' b' : tensor R) phi : wf a -> wf b -> @sameSize R R_num a b = Val (a', b') ->
  wf a' /\ wf b' /\ shp a' = shp b' /\ ndim a' = ndim a /\ (forall x, evalT phi a' x = evalT phi a x) /\ (forall x, evalT phi b' x = evalT phi b x).
Proof.
  intros Wa Wb. unfold sameSize. destruct (list_eq_dec Nat.eq_dec (shp a) (shp b)) as [E|_].
  - intros [= <- <-]. repeat split; try apply Wa; try apply Wb; auto.
  - unfold matchSize. destruct (Nat.eqb_spec (ndim a) (ndim b)) as [E|]; [|discriminate]. intros [= <- <-].
    destruct (maxShape_le (shp a) (shp b) E) as [La Lb].
    assert (P : Forall (fun n => (1 <= n)%nat) (maxShape (shp a) (shp b))) by (apply (Forall_ge1 (shp a)); auto; apply Wa).
    repeat split; try (apply wf_tbuild; exact P); auto.
    + unfold ndim, pad. rewrite shp_tbuild. symmetry. apply (Forall2_length La).
    + intros x. apply evalT_pad; auto.
    + intros x. apply evalT_pad; auto.
Qed.
(** numpy can combine them exactly when they have the same number of axes *)
Lemma sameSize_raises (a b : tensor R) : @sameSize R R_num a b = ValueError <-> ndim a <> ndim b.
Proof.
  unfold sameSize, matchSize. destruct (list_eq_dec Nat.eq_dec (shp a) (shp b)) as [E|].
  - split; [discriminate|]. intros H. exfalso. apply H. unfold ndim. congruence.
  - destruct (Nat.eqb_spec (ndim a) (ndim b)); split; intros; try discriminate; try congruence; auto.
Qed.

Lemma evalT_add phi (a b : tensor R) x : shp a = shp b -> evalT phi (@tzip R R_num Rplus a b) x = evalT phi a x + evalT phi b x.
Proof.
  intros E. unfold evalT, tzip. rewrite shp_tbuild, <- E, <- sumidx_plus. apply sumidx_ext. intros. rewrite tget_tbuild by auto. ring.
Qed.
Lemma evalT_sub phi (a b : tensor R) x : shp a = shp b -> evalT phi (@tzip R R_num Rminus a b) x = evalT phi a x - evalT phi b x.
Proof.
  intros E. unfold evalT, tzip. rewrite shp_tbuild, <- E, <- sumidx_minus. apply sumidx_ext. intros. rewrite tget_tbuild by auto. ring.
Qed.
Lemma wf_tzip f (a b : tensor R) : wf a -> wf (@tzip R R_num f a b).
Proof. intros [_ W]. apply wf_tbuild. auto. Qed.

(** ** Removing zero slices *)
Lemma Rsum_abs_0 {A} (f : A -> R) l : fold_right Rplus 0 (map Rabs (map f l)) = 0 -> forall a, In a l -> f a = 0.
Proof.
  induction l as [|b l IH]; cbn; [tauto|]. intros H.
  assert (P : 0 <= fold_right Rplus 0 (map Rabs (map f l))).
  { clear. induction l; cbn; [lra|]. pose proof (Rabs_pos (f a)). lra. }
  pose proof (Rabs_pos (f b)). intros a [->|Ha]; [|apply IH; auto; lra].
  destruct (Req_dec (f a) 0) as [|N]; auto. pose proof (Rabs_pos_lt _ N). lra.
Qed.
Definition slice0 (ax : nat) (t : tensor R) : Prop :=
  forall idx, inrange (shp t) idx -> nth ax idx 0%nat = (nth ax (shp t) 0 - 1)%nat -> tget t idx = 0.
Lemma inrange_upd1 s ax idx : inrange s idx -> (ax < length s)%nat -> inrange (upd s ax 1%nat) (upd idx ax 0%nat).
Proof. intros. apply inrange_upd; auto. Qed.
Lemma upd_self {A} (l : list A) i d : upd l i (nth i l d) = l. Proof. apply upd_nth. Qed.
Lemma lastSlice_zero ax (t : tensor R) : (ax < ndim t)%nat -> @nsumabs R R_num (lastSlice ax t) = 0 -> slice0 ax t.
Proof.
  intros Hd H idx Hi E. unfold nsumabs, lastSlice in H. rewrite nsum_R in H. change (@nabs R R_num) with Rabs in H.
  pose proof (Rsum_abs_0 _ _ H (upd idx ax 0%nat)) as K. cbv beta in K. rewrite upd_upd, <- E, upd_nth in K. apply K.
  apply in_indices. apply inrange_upd1; auto.
Qed.
Lemma lastSlice_nonzero ax (t : tensor R) : (ax < ndim t)%nat -> wf t -> @nsumabs R R_num (lastSlice ax t) <> 0 ->
  exists idx, inrange (shp t) idx /\ nth ax idx 0%nat = (nth ax (shp t) 0 - 1)%nat /\ tget t idx <> 0.
Proof.
  intros Hd W H. unfold nsumabs, lastSlice in H. rewrite nsum_R in H. change (@nabs R R_num) with Rabs in H.
  assert (K : exists r, In r (indices (upd (shp t) ax 1%nat)) /\ tget t (upd r ax (nth ax (shp t) 0 - 1)%nat) <> 0).
  { revert H. generalize (indices (upd (shp t) ax 1%nat)). induction l as [|b l IH]; cbn; [tauto|]. intros H.
    destruct (Req_dec (tget t (upd b ax (nth ax (shp t) 0 - 1)%nat)) 0) as [Z|Z]; [|exists b; auto].
    rewrite Z, Rabs_R0, Rplus_0_l in H. destruct (IH H) as (r & Hr & Hz). exists r; auto. }
  destruct K as (r & Hr & Hz). apply in_indices in Hr.
  assert (Lr : length r = length (shp t)) by (apply inrange_length in Hr; rewrite upd_length in Hr; auto).
  assert (P : (1 <= nth ax (shp t) 0)%nat) by (destruct W as [_ W]; apply (proj1 (Forall_nth _ (shp t)) W ax 0%nat); auto).
  exists (upd r ax (nth ax (shp t) 0 - 1)%nat). split; [|split; auto].
  - replace (shp t) with (upd (upd (shp t) ax 1%nat) ax (nth ax (shp t) 0%nat)) at 1 by (rewrite upd_upd; apply upd_nth).
    apply inrange_upd; auto. lia.
  - apply nth_upd_eq. unfold ndim in Hd. lia.
Qed.
Lemma inrange_drop s ax idx : inrange s idx -> (ax < length s)%nat -> nth ax idx 0%nat <> (nth ax s 0 - 1)%nat -> inrange (upd s ax (nth ax s 0 - 1)%nat) idx.
Proof.
  intros H Ha N. pose proof (inrange_nth s idx ax H Ha) as L. replace idx with (upd idx ax (nth ax idx 0%nat)) by apply upd_nth.
  apply inrange_upd; auto. lia.
Qed.
Lemma inrange_dropped s ax idx : inrange (upd s ax (nth ax s 0 - 1)%nat) idx -> (ax < length s)%nat -> inrange s idx.
Proof.
  intros H Ha. assert (Ha' : (ax < length (upd s ax (nth ax s 0 - 1)%nat))%nat) by (rewrite upd_length; auto).
  pose proof (inrange_nth _ idx ax H Ha') as L. rewrite nth_upd_eq in L by auto.
  replace s with (upd (upd s ax (nth ax s 0 - 1)%nat) ax (nth ax s 0%nat)) by (rewrite upd_upd; apply upd_nth).
  replace idx with (upd idx ax (nth ax idx 0%nat)) by apply upd_nth. apply inrange_upd; auto. lia.
Qed.

(** [t'] is [t] with some zero slices removed *)
Record cleaned (t t' : tensor R) : Prop := {
  cl_wf : wf t';
  cl_le : Forall2 le (shp t') (shp t);
  cl_get : forall idx, inrange (shp t') idx -> tget t' idx = tget t idx;
  cl_out : forall idx, inrange (shp t) idx -> ~ inrange (shp t') idx -> tget t idx = 0
}.
Lemma Forall2_le_refl s : Forall2 le s s. Proof. induction s; auto. Qed.
Lemma Forall2_le_trans s1 : forall s2 s3, Forall2 le s1 s2 -> Forall2 le s2 s3 -> Forall2 le s1 s3.
Proof. induction s1; intros s2 s3 H1 H2; inversion H1; subst; inversion H2; subst; constructor; eauto; lia. Qed.
Lemma inrange_le s1 : forall s2 idx, Forall2 le s1 s2 -> inrange s1 idx -> inrange s2 idx.
Proof. induction s1; intros s2 idx H1 H2; inversion H1; subst; inversion H2; subst; constructor; [lia|]. eapply IHs1; eauto. Qed.
Lemma cleaned_refl t : wf t -> cleaned t t.
Proof. intros W. constructor; auto using Forall2_le_refl. tauto. Qed.
Lemma cleaned_trans a b c : cleaned a b -> cleaned b c -> cleaned a c.
Proof.
  intros [W1 L1 G1 O1] [W2 L2 G2 O2]. constructor; auto.
  - eapply Forall2_le_trans; eauto.
  - intros idx H. rewrite G2 by auto. apply G1. eapply inrange_le; eauto.
  - intros idx H N. destruct (inrangeb (shp b) idx) eqn:E.
    + apply inrangeb_spec in E. rewrite <- G1 by auto. apply O2; auto.
    + apply O1; auto. intros K. apply inrangeb_spec in K. congruence.
Qed.
Lemma upd_le s ax k : (k <= nth ax s 0)%nat -> Forall2 le (upd s ax k) s.
Proof. revert ax; induction s as [|a s IH]; intros [|ax] H; cbn in *; constructor; auto using Forall2_le_refl. Qed.
Lemma dropLast_cleaned ax (t : tensor R) : wf t -> (ax < ndim t)%nat -> nth ax (shp t) 0%nat <> 1%nat -> slice0 ax t -> cleaned t (dropLast ax t).
Proof.
  intros W Ha N Z. assert (P : (1 <= nth ax (shp t) 0)%nat) by (destruct W as [_ W]; apply (proj1 (Forall_nth _ (shp t)) W ax 0%nat); auto).
  unfold dropLast. constructor.
  - apply wf_tbuild. apply Forall_upd; [apply W|lia].
  - rewrite shp_tbuild. apply upd_le. lia.
  - intros idx. rewrite shp_tbuild. intros H. apply tget_tbuild; auto.
  - intros idx H. rewrite shp_tbuild. intros O. destruct (Nat.eq_dec (nth ax idx 0%nat) (nth ax (shp t) 0 - 1)%nat) as [E|E]; [apply Z; auto|].
    exfalso. apply O. apply inrange_drop; auto.
Qed.
Definition axisDone (ax : nat) (t : tensor R) : Prop :=
  nth ax (shp t) 0%nat = 1%nat \/ exists idx, inrange (shp t) idx /\ nth ax idx 0%nat = (nth ax (shp t) 0 - 1)%nat /\ tget t idx <> 0.
Lemma cleaned_ndim a b : cleaned a b -> ndim b = ndim a.
Proof. intros [_ L _ _]. exact (Forall2_length L). Qed.
Lemma cleanAxis_ok fuel ax : forall t : tensor R, wf t -> (ax < ndim t)%nat -> (nth ax (shp t) 0 <= fuel)%nat ->
  cleaned t (cleanAxis fuel ax t) /\ axisDone ax (cleanAxis fuel ax t).
Proof.
  induction fuel as [|fuel IH]; intros t W Ha F.
  - assert (P : (1 <= nth ax (shp t) 0)%nat) by (destruct W as [_ W]; apply (proj1 (Forall_nth _ (shp t)) W ax 0%nat); auto). lia.
  - cbn [cleanAxis]. destruct (Nat.eqb_spec (nth ax (shp t) 0%nat) 1) as [E|E]; [split; [apply cleaned_refl; auto|left; auto]|].
    rnum. destruct (Reqb (nsumabs (lastSlice ax t)) 0) eqn:Z.
    + apply Reqb_true in Z. pose proof (dropLast_cleaned ax t W Ha E (lastSlice_zero ax t Ha Z)) as D.
      destruct (IH (dropLast ax t)) as [A B].
      * apply D.
      * rewrite (cleaned_ndim _ _ D). auto.
      * unfold dropLast. rewrite shp_tbuild, nth_upd_eq by auto. lia.
      * split; auto. eapply cleaned_trans; eauto.
    + apply Reqb_false in Z. split; [apply cleaned_refl; auto|]. right. apply lastSlice_nonzero; auto.
Qed.
(** a non-zero entry survives *)
Lemma cleaned_done ax a b : cleaned a b -> wf a -> (ax < ndim a)%nat -> axisDone ax a -> axisDone ax b.
Proof.
  intros [W L G O] Wa Ha D.
  assert (Ps : (nth ax (shp b) 0 <= nth ax (shp a) 0)%nat).
  { clear - L. revert ax. induction L; intros [|ax]; cbn; auto. }
  assert (Pb : (1 <= nth ax (shp b) 0)%nat).
  { destruct W as [_ W]. apply (proj1 (Forall_nth _ (shp b)) W ax 0%nat). rewrite (Forall2_length L). exact Ha. }
  destruct D as [D|(idx & Hi & E & Hz)]; [left; lia|]. right. exists idx.
  assert (Hib : inrange (shp b) idx).
  { destruct (inrangeb (shp b) idx) eqn:K; [apply inrangeb_spec; auto|]. exfalso. apply Hz. apply O; auto.
    intros K2. apply inrangeb_spec in K2. congruence. }
  repeat split; auto.
  - pose proof (inrange_nth _ idx ax Hib) as Lb. rewrite (Forall2_length L) in Lb. specialize (Lb Ha). lia.
  - rewrite G; auto.
Qed.
Lemma clean_axes axs : forall t : tensor R, wf t -> Forall (fun ax => (ax < ndim t)%nat) axs ->
  cleaned t (fold_left (fun t ax => cleanAxis (nth ax (shp t) 0%nat) ax t) axs t) /\
  Forall (fun ax => axisDone ax (fold_left (fun t ax => cleanAxis (nth ax (shp t) 0%nat) ax t) axs t)) axs.
Proof.
  induction axs as [|ax axs IH]; intros t W F; cbn [fold_left]; [split; [apply cleaned_refl; auto|constructor]|].
  apply Forall_cons_iff in F. destruct F as [Fa F].
  destruct (cleanAxis_ok (nth ax (shp t) 0%nat) ax t W Fa ltac:(lia)) as [A B]. set (t1 := cleanAxis _ ax t) in *.
  destruct (IH t1) as [C D].
  - apply A.
  - rewrite (cleaned_ndim _ _ A). auto.
  - split; [eapply cleaned_trans; eauto|]. constructor; auto. eapply cleaned_done; eauto; [apply A|]. rewrite (cleaned_ndim _ _ A). auto.
Qed.
Lemma clean_ok (t : tensor R) : wf t -> cleaned t (clean t) /\ forall ax, (ax < ndim t)%nat -> axisDone ax (clean t).
Proof.
  intros W. destruct (clean_axes (seq 0 (ndim t)) t W) as [A B].
  - apply Forall_forall. intros ax H. apply in_seq in H. lia.
  - split; auto. intros ax H. apply (proj1 (Forall_forall _ _) B). apply in_seq. lia.
Qed.
Lemma cleaned_eval phi a b x : cleaned a b -> evalT phi b x = evalT phi a x.
Proof.
  intros [W L G O]. unfold evalT. rewrite <- (sumidx_pad (shp b) (shp a)) by auto. apply sumidx_ext. intros idx Hi.
  destruct (inrangeb (shp b) idx) eqn:E.
  - apply inrangeb_spec in E. rewrite G by auto. reflexivity.
  - rewrite O; auto; [ring|]. intros K. apply inrangeb_spec in K. congruence.
Qed.

(** ** Products *)
Lemma sumidx_swap s1 : forall s2 F, sumidx s1 (fun i => sumidx s2 (fun j => F i j)) = sumidx s2 (fun j => sumidx s1 (fun i => F i j)).
Proof.
  induction s1 as [|n s1 IH]; intros s2 F; cbn [sumidx]; [reflexivity|].
  rewrite sumidx_sumn. apply sumn_ext. intros i _. apply IH.
Qed.
Fixpoint addIdx (i j : list nat) : list nat :=
  match i, j with a :: i', b :: j' => (a + b)%nat :: addIdx i' j' | _, _ => [] end.
Lemma sumidx_conv sa : forall sb i H, length sa = length sb -> inrange sa i ->
  sumidx (convShape sa sb) (fun k => match subIdx k i with Some j => if inrangeb sb j then H k j else 0 | None => 0 end) = sumidx sb (fun j => H (addIdx i j) j).
Proof.
  induction sa as [|a sa IH]; intros [|b sb] i H L Hi; try discriminate.
  - inversion Hi. subst. reflexivity.
  - inversion Hi as [|i0 ? i' ? Ha Hi']. subst. cbn [convShape sumidx].
    replace (a + b - 1)%nat with (i0 + (b + (a - 1 - i0)))%nat by lia. rewrite sumn_split.
    rewrite (sumn_zero i0).
    2:{ intros k Hk. cbn [subIdx]. assert (E : Nat.leb i0 k = false) by (apply Nat.leb_gt; auto). rewrite E. apply sumidx_0. }
    rewrite Rplus_0_l, sumn_split. rewrite (sumn_zero (a - 1 - i0)), Rplus_0_r.
    2:{ intros k Hk. cbn [subIdx]. assert (E : Nat.leb i0 (i0 + (b + k)) = true) by (apply Nat.leb_le; lia). rewrite E.
        rewrite <- (sumidx_0 (convShape sa sb)) at 1. apply sumidx_ext. intros r _. destruct (subIdx r i'); auto. cbn [inrangeb].
        assert (E2 : Nat.ltb (i0 + (b + k) - i0) b = false) by (apply Nat.ltb_ge; lia). rewrite E2. reflexivity. }
    apply sumn_ext. intros k Hk. cbn [subIdx addIdx]. assert (E : Nat.leb i0 (i0 + k) = true) by (apply Nat.leb_le; lia). rewrite E.
    rewrite <- (IH sb i' (fun r j => H ((i0 + k)%nat :: r) (k :: j)) ltac:(cbn in L; lia) Hi').
    apply sumidx_ext. intros r _. destruct (subIdx r i'); auto. cbn [inrangeb].
    replace (i0 + k - i0)%nat with k by lia. assert (E2 : Nat.ltb k b = true) by (apply Nat.ltb_lt; auto). rewrite E2. reflexivity.
Qed.
Lemma basis_pw_add i : forall j x, length i = length j -> length x = length i -> basis pw (addIdx i j) x = basis pw i x * basis pw j x.
Proof.
  induction i as [|a i IH]; intros [|b j] [|v x] L1 L2; try discriminate; cbn; [ring|]. rewrite IH by (cbn in *; lia). unfold pw. rewrite pow_add. ring.
Qed.
Lemma evalT_convolve (a b : tensor R) x : ndim a = ndim b -> length x = ndim a -> evalT pw (@convolve R R_num a b) x = evalT pw a x * evalT pw b x.
Proof.
  intros L Lx. unfold evalT at 1, convolve. rewrite shp_tbuild.
  rewrite (sumidx_ext _ _ (fun k => sumidx (shp a) (fun i => match subIdx k i with Some j => if inrangeb (shp b) j then tget a i * tget b j * basis pw k x else 0 | None => 0 end))).
  - rewrite sumidx_swap. unfold evalT at 1. rewrite Rmult_comm, <- sumidx_scal. apply sumidx_ext. intros i Hi.
    rewrite (sumidx_conv (shp a) (shp b) i (fun k j => tget a i * tget b j * basis pw k x)) by auto.
    unfold evalT. rewrite Rmult_comm, <- sumidx_scal. apply sumidx_ext. intros j Hj.
    apply inrange_length in Hi, Hj. unfold ndim in *. rewrite basis_pw_add by lia. ring.
  - intros k Hk. rewrite tget_tbuild by auto. rewrite nsum_R. change (fold_right Rplus 0) with Rsum. rewrite sumidx_indices, Rmult_comm, <- sumidx_scal.
    apply sumidx_ext. intros i Hi. rnum. destruct (subIdx k i); [|ring]. destruct (inrangeb (shp b) l); ring.
Qed.
Lemma convShape_ge1 s1 : forall s2, Forall (fun n => (1 <= n)%nat) s1 -> Forall (fun n => (1 <= n)%nat) s2 -> Forall (fun n => (1 <= n)%nat) (convShape s1 s2).
Proof. induction s1; intros [|b s2] H1 H2; cbn; auto. inversion H1; inversion H2; subst. constructor; auto. lia. Qed.
Lemma wf_convolve (a b : tensor R) : wf a -> wf b -> wf (@convolve R R_num a b).
Proof. intros [_ Wa] [_ Wb]. apply wf_tbuild. apply convShape_ge1; auto. Qed.
