(** * Lemmas about the rows of the Macaulay matrix *)
From Coq Require Import List Arith Reals Lia Lra Bool Permutation.
From Coquelicot Require Import Complex.
From Coq Require Import List.
From Verif Require Import Num Tensor RSum Cheb PolySpec PolyModel MonMultModel MonMultProofs TermModel TermProofs UtilModel OrderProofs UtilProps OneDSpec OneDProofs MacaulayModel MacaulaySpec.
Import ListNotations.
Local Open Scope R_scope.

(** ** The adjoint of multiplication by T_m(x_d) *)
Definition op (d m : nat) (W : list nat -> R) (idx : list nat) : R :=
  / 2 * (W (upd idx d (nth d idx 0 + m)%nat) + W (upd idx d (dist (nth d idx 0%nat) m))).
Section Adj.
  Variables (t : tensor R) (d m : nat).
  Hypothesis Wt : wf t.
  Hypothesis Hd : (d < ndim t)%nat.
  Let s := nth d (shp t) 0%nat.
  Let e := upd (repeat 0%nat (ndim t)) d m.
  Lemma mm1_adj W : sumidx (shp (@mon_mult1 R R_num t e d)) (fun idx => tget (@mon_mult1 R R_num t e d) idx * W idx) =
    sumidx (shp t) (fun idx => tget t idx * op d m W idx).
  Proof.
    unfold e. rewrite mm1_shape by auto. fold s. rewrite (sumidx_axis (upd (shp t) d (s + m)%nat) d) by (rewrite upd_length; auto).
    rewrite (sumidx_axis (shp t) d) by auto. rewrite upd_upd, nth_upd_eq by auto. fold s. apply sumidx_ext. intros r Hr.
    assert (Lr : length r = ndim t) by (apply inrange_length in Hr; rewrite upd_length in Hr; auto).
    assert (Ld : (d < length r)%nat) by (unfold ndim in *; lia).
    pose (al := fun j => if (j <? s)%nat then tget t (upd r d j) else 0).
    assert (Z : forall k, (s <= k)%nat -> al k = 0) by (intros k Hk; unfold al; destruct (Nat.ltb_spec k s); auto; lia).
    rewrite (sumn_ext (s + m) _ (fun k => sumn s (fun n => / 2 * al n * ((if Nat.eqb k (n + m) then 1 else 0) * W (upd r d k) + (if Nat.eqb k (dist n m) then 1 else 0) * W (upd r d k))))).
    - rewrite sumn_swap. apply sumn_ext. intros n Hn. rewrite sumn_scal, sumn_plus.
      pose proof (s_pos t d Wt Hd) as Sp. fold s in Sp.
      rewrite (sumn_pick (s + m) (n + m) (fun k => W (upd r d k))), (sumn_pick (s + m) (dist n m) (fun k => W (upd r d k))) by (unfold dist; lia).
      unfold op. rewrite nth_upd_eq, !upd_upd by auto. unfold al. destruct (Nat.ltb_spec n s); [ring|lia].
    - intros k Hk.
      assert (I : inrange (upd (shp t) d (s + m)%nat) (upd r d k)).
      { replace (upd (shp t) d (s + m)%nat) with (upd (upd (shp t) d 1%nat) d (s + m)%nat) by apply upd_upd. apply inrange_upd; auto. }
      rewrite mm1_get by auto. rewrite nth_upd_eq by auto.
      match goal with |- / 2 * (shiftC ?a _ _ + foldC ?b _ _) * _ = _ =>
        assert (Ea : forall j, a j = al j) by (intros j; unfold al; rewrite upd_upd; reflexivity) end.
      rewrite (shiftC_sum s), (foldC_sum s) by (intros j Hj; rewrite Ea; auto).
      rewrite <- sumn_plus, <- sumn_scal, <- sumn_scal_r. apply sumn_ext. intros n Hn. rewrite Ea. ring.
  Qed.
End Adj.

(** the axes 0 .. i-1 *)
Fixpoint opUpTo (mon : list nat) (i : nat) (W : list nat -> R) : list nat -> R :=
  match i with O => W | S i' => opUpTo mon i' (op i' (nth i' mon 0%nat) W) end.
Lemma mm2_adj (mon : list nat) (t : tensor R) : wf t -> length mon = ndim t -> forall i, (i <= length mon)%nat ->
  let t' := fold_left (fun t i => @mon_mult1 R R_num t (upd (repeat 0%nat (length mon)) i (nth i mon 0%nat)) i) (seq 0 i) t in
  forall W, sumidx (shp t') (fun idx => tget t' idx * W idx) = sumidx (shp t) (fun idx => tget t idx * opUpTo mon i W idx).
Proof.
  intros W Lm. induction i as [|i IH]; intros Hi; [reflexivity|].
  rewrite seq_S, fold_left_app. cbn [Nat.add fold_left].
  pose proof (mm2_loop mon t (repeat 0 (ndim t)) W Lm (repeat_length _ _) i ltac:(lia)) as (W' & N' & _ & _).
  specialize (IH ltac:(lia)). set (t' := fold_left _ (seq 0 i) t) in *. cbv zeta. intros F. cbn [opUpTo].
  rewrite <- IH. rewrite Lm, <- N'. apply mm1_adj; auto. lia.
Qed.

(** ** Values *)
Lemma Re_plus a b : Re (a + b)%C = Re a + Re b. Proof. destruct a, b; reflexivity. Qed.
Lemma Im_plus a b : Im (a + b)%C = Im a + Im b. Proof. destruct a, b; reflexivity. Qed.
Lemma Re_scal r a : Re (RtoC r * a)%C = r * Re a. Proof. destruct a; cbn; ring. Qed.
Lemma Im_scal r a : Im (RtoC r * a)%C = r * Im a. Proof. destruct a; cbn; ring. Qed.
Lemma C_ext a b : Re a = Re b -> Im a = Im b -> a = b.
Proof. destruct a, b; cbn; congruence. Qed.
(** a real linear functional of the values *)
Definition linR (f : C -> R) : Prop := (forall a b, f (a + b)%C = f a + f b) /\ (forall r a, f (RtoC r * a)%C = r * f a).
Lemma linR_Re : linR Re. Proof. split; [apply Re_plus|apply Re_scal]. Qed.
Lemma linR_Im : linR Im. Proof. split; [apply Im_plus|apply Im_scal]. Qed.
Lemma linR_0 f : linR f -> f (RtoC 0) = 0.
Proof. intros [_ H]. replace (RtoC 0) with (RtoC 0 * RtoC 0)%C by ring. rewrite H. ring. Qed.
Lemma linR_mul f c : linR f -> linR (fun a => f (c * a)%C).
Proof. intros [A B]. split; intros; [rewrite <- A|rewrite <- B]; f_equal; ring. Qed.
Lemma linR_csumL {A} f (l : list A) (g : A -> R) (h : A -> C) : linR f -> f (csumL (map (fun i => RtoC (g i) * h i)%C l)) = Rsum (map (fun i => g i * f (h i)) l).
Proof. intros Hf. induction l; cbn; [apply linR_0; auto|]. destruct Hf as [A1 B1]. rewrite A1, B1. f_equal. apply IHl. Qed.
Lemma polyAt_lin f power t z : linR f -> f (polyAt power t z) = sumidx (shp t) (fun idx => tget t idx * f (monAt power idx z)).
Proof. intros Hf. unfold polyAt. rewrite (linR_csumL f) by auto. apply sumidx_indices. Qed.

Lemma C2 : RtoC 2 = (1 + 1)%C. Proof. apply C_ext; cbn; lra. Qed.
Lemma chebTC_SS x k : OneDSpec.chebT x (S (S k)) = (2 * x * OneDSpec.chebT x (S k) - OneDSpec.chebT x k)%C.
Proof. unfold OneDSpec.chebT. cbn. destruct (chebT2 x k); reflexivity. Qed.
Lemma chebTC_mul2x x k : (2 * x * OneDSpec.chebT x (S k))%C = (OneDSpec.chebT x (S (S k)) + OneDSpec.chebT x k)%C.
Proof. rewrite chebTC_SS. ring. Qed.
Lemma chebTC_product m : forall n x, (2 * OneDSpec.chebT x m * OneDSpec.chebT x n)%C = (OneDSpec.chebT x (n + m) + OneDSpec.chebT x (dist n m))%C.
Proof.
  enough (G : forall n x, (2 * OneDSpec.chebT x m * OneDSpec.chebT x n)%C = (OneDSpec.chebT x (n + m) + OneDSpec.chebT x (dist n m))%C /\
    (2 * OneDSpec.chebT x (S m) * OneDSpec.chebT x n)%C = (OneDSpec.chebT x (n + S m) + OneDSpec.chebT x (dist n (S m)))%C) by (intros; apply G).
  induction m as [|m IH]; intros n x.
  - split.
    + unfold dist. rewrite Nat.add_0_r, Nat.sub_0_r. cbn [Nat.sub]. rewrite Nat.add_0_r. change (OneDSpec.chebT x 0) with (RtoC 1). rewrite C2. ring.
    + destruct n as [|n].
      * cbn [Nat.add]. change (dist 0 1) with 1%nat. change (OneDSpec.chebT x 0) with (RtoC 1). rewrite C2. ring.
      * unfold dist. replace (S n - 1 + (1 - S n))%nat with n by lia. replace (S n + 1)%nat with (S (S n)) by lia.
        change (OneDSpec.chebT x 1) with x. apply chebTC_mul2x.
  - destruct (IH n x) as [A B]. split; auto. rewrite chebTC_SS.
    replace (2 * (2 * x * OneDSpec.chebT x (S m) - OneDSpec.chebT x m) * OneDSpec.chebT x n)%C
      with (2 * x * (2 * OneDSpec.chebT x (S m) * OneDSpec.chebT x n) - 2 * OneDSpec.chebT x m * OneDSpec.chebT x n)%C by ring.
    rewrite B, A. replace (n + S (S m))%nat with (S (S (n + m))) by lia. replace (n + S m)%nat with (S (n + m)) by lia.
    rewrite (chebTC_SS x (n + m)).
    replace (2 * x * (OneDSpec.chebT x (S (n + m)) + OneDSpec.chebT x (dist n (S m))) - (OneDSpec.chebT x (n + m) + OneDSpec.chebT x (dist n m)))%C
      with (2 * x * OneDSpec.chebT x (S (n + m)) - OneDSpec.chebT x (n + m) + (2 * x * OneDSpec.chebT x (dist n (S m)) - OneDSpec.chebT x (dist n m)))%C by ring.
    f_equal. unfold dist. destruct (lt_eq_lt_dec n (S m)) as [[L|E]|L].
    + replace (n - S m + (S m - n))%nat with (S (m - n)) by lia. replace (n - m + (m - n))%nat with (m - n)%nat by lia.
      replace (n - S (S m) + (S (S m) - n))%nat with (S (S (m - n))) by lia. rewrite chebTC_SS. reflexivity.
    + subst n. replace (S m - S m + (S m - S m))%nat with 0%nat by lia. replace (S m - m + (m - S m))%nat with 1%nat by lia.
      replace (S m - S (S m) + (S (S m) - S m))%nat with 1%nat by lia. change (OneDSpec.chebT x 0) with (RtoC 1). change (OneDSpec.chebT x 1) with x. rewrite C2. ring.
    + replace (n - S m + (S m - n))%nat with (S (n - S (S m))) by lia. replace (n - m + (m - n))%nat with (S (S (n - S (S m)))) by lia.
      replace (n - S (S m) + (S (S m) - n))%nat with (n - S (S m))%nat by lia. rewrite (chebTC_mul2x x (n - S (S m))). ring.
Qed.

Lemma monAt_upd power mon : forall z d k, length z = length mon -> (d < length mon)%nat ->
  exists c, (forall j, monAt power (upd mon d j) z = monAt1 power j (nth d z 0) * c)%C /\ (k = nth d mon 0%nat -> monAt power mon z = monAt1 power k (nth d z 0) * c)%C.
Proof.
  induction mon as [|a mon IH]; intros [|v z] [|d] k L Hd; try discriminate; try (cbn in Hd; lia).
  - exists (monAt power mon z). split; [intros j; reflexivity|intros ->; reflexivity].
  - destruct (IH z d k ltac:(cbn in *; lia) ltac:(cbn in *; lia)) as (c & A & B). exists (monAt1 power a v * c)%C. split.
    + intros j. cbn [upd monAt nth]. rewrite A. ring.
    + intros E. cbn [monAt nth] in *. rewrite (B E). ring.
Qed.
Lemma op_mon f z d m idx : linR f -> length z = length idx -> (d < length idx)%nat ->
  op d m (fun i => f (monAt false i z)) idx = f (OneDSpec.chebT (nth d z 0) m * monAt false idx z)%C.
Proof.
  intros Hf L Hd. unfold op. destruct (monAt_upd false idx z d (nth d idx 0%nat) L Hd) as (c & A & B). rewrite !A, (B eq_refl).
  destruct Hf as [F1 F2]. rewrite <- F1, <- F2. f_equal. cbn [monAt1].
  pose proof (chebTC_product m (nth d idx 0%nat) (nth d z 0%C)) as P.
  transitivity (RtoC (/2) * (OneDSpec.chebT (nth d z 0%C) (nth d idx 0%nat + m) + OneDSpec.chebT (nth d z 0%C) (dist (nth d idx 0%nat) m)) * c)%C; [ring|].
  rewrite <- P. replace (RtoC (/ 2)) with (/ 2)%C by (rewrite RtoC_inv; [reflexivity|lra]). field. intros E. injection E. lra.
Qed.
Fixpoint monUpTo (i : nat) (mon : list nat) (z : list C) : C :=
  match i with O => 1 | S i' => monUpTo i' mon z * OneDSpec.chebT (nth i' z 0) (nth i' mon 0%nat) end%C.
Lemma monUpTo_full (mon : list nat) (z : list C) : length z = length mon -> monUpTo (length mon) mon z = monAt false mon z.
Proof.
  assert (G : forall i m mon v z, monUpTo (S i) (m :: mon) (v :: z) = (OneDSpec.chebT v m * monUpTo i mon z)%C).
  { induction i; intros; [cbn; ring|]. change (monUpTo (S (S i)) (m :: mon0) (v :: z0)) with (monUpTo (S i) (m :: mon0) (v :: z0) * OneDSpec.chebT (nth i z0 0) (nth i mon0 0%nat))%C.
    rewrite IHi. cbn [monUpTo]. ring. }
  revert z. induction mon as [|m mon IH]; intros [|v z] L; try discriminate; auto.
  cbn [length]. rewrite G. cbn [monAt]. rewrite IH; auto.
Qed.
Lemma op_ext n d m W W' : (forall idx, length idx = n -> W idx = W' idx) -> forall idx, length idx = n -> op d m W idx = op d m W' idx.
Proof. intros H idx L. unfold op. rewrite !H; auto; rewrite upd_length; auto. Qed.
Lemma opUpTo_ext n mon i : forall W W', (forall idx, length idx = n -> W idx = W' idx) -> forall idx, length idx = n -> opUpTo mon i W idx = opUpTo mon i W' idx.
Proof. induction i; intros W W' H idx L; cbn [opUpTo]; [auto|]. apply IHi; auto. intros. apply (op_ext n); auto. Qed.
Lemma opUpTo_mon f mon z : linR f -> forall i, (i <= length z)%nat -> forall c idx, length idx = length z ->
  opUpTo mon i (fun j => f (c * monAt false j z)%C) idx = f (c * monUpTo i mon z * monAt false idx z)%C.
Proof.
  intros Hf. induction i; intros Hi c idx L; cbn [opUpTo monUpTo].
  - f_equal. ring.
  - rewrite (opUpTo_ext (length z) mon i _ (fun j => f ((c * OneDSpec.chebT (nth i z 0) (nth i mon 0%nat)) * monAt false j z)%C)); auto.
    + rewrite IHi by (auto; lia). f_equal. ring.
    + intros j Lj. rewrite (op_mon (fun a => f (c * a)%C)) by (try lia; apply linR_mul; auto). f_equal. ring.
Qed.

(** ** Powers *)
Lemma cpow_add x a b : cpow x (a + b) = (cpow x a * cpow x b)%C.
Proof. induction a; cbn; [ring|]. rewrite IHa. ring. Qed.
Lemma monAt_add mon : forall idx z, length mon = length idx -> length z = length idx -> monAt true (addShape idx mon) z = (monAt true mon z * monAt true idx z)%C.
Proof.
  induction mon as [|m mon IH]; intros [|i idx] [|v z] L1 L2; try discriminate; cbn [addShape monAt]; [ring|].
  rewrite IH by (cbn in *; lia). cbn [monAt1]. rewrite cpow_add. ring.
Qed.
Lemma sumidx_bottomW s : forall (mon : list nat) (F W : list nat -> R), length mon = length s ->
  sumidx (addShape s mon) (fun idx => match offset (addShape s mon) s idx with Some r => F r | None => 0 end * W idx) = sumidx s (fun r => F r * W (addShape r mon)).
Proof.
  induction s as [|a s IH]; intros [|m mon] F W L1; try discriminate; [reflexivity|].
  cbn [addShape sumidx offset]. rewrite (Nat.add_comm a m). rewrite sumn_split. rewrite sumn_zero.
  - rewrite Rplus_0_l. apply sumn_ext. intros i Hi. replace (m + a - a)%nat with m by lia.
    rewrite <- (IH mon (fun q => F (i :: q)) (fun q => W ((i + m)%nat :: q))) by (cbn in *; lia).
    apply sumidx_ext. intros r Hr. destruct (Nat.leb_spec m (m + i)), (Nat.ltb_spec (m + i) (m + a)); try lia. cbn [andb].
    replace (m + i - m)%nat with i by lia. rewrite (Nat.add_comm i m). destruct (offset _ s r); ring.
  - intros i Hi. rewrite (sumidx_ext _ _ (fun _ => 0)); [apply sumidx_0|].
    intros r Hr. replace (m + a - a)%nat with m by lia. destruct (Nat.leb_spec m i); [lia|]. cbn [andb]. ring.
Qed.
Lemma padBottom_adj (t : tensor R) mon W : length mon = ndim t ->
  sumidx (addShape (shp t) mon) (fun idx => tget (@padBottom R R_num (addShape (shp t) mon) t) idx * W idx) = sumidx (shp t) (fun idx => tget t idx * W (addShape idx mon)).
Proof.
  intros L1. rewrite <- (sumidx_bottomW (shp t) mon (tget t) W) by auto. apply sumidx_ext. intros idx Hi. unfold padBottom. rewrite tget_tbuild by auto. destruct (offset _ _ _); reflexivity.
Qed.

(** ** Both bases: the product r of the polynomial t and a monomial *)
Definition adjOf (power : bool) (mon : list nat) (W : list nat -> R) : list nat -> R :=
  if power then fun idx => W (addShape idx mon) else opUpTo mon (length mon) W.
Lemma mult_spec power (t : tensor R) mon : wf t -> length mon = ndim t ->
  exists r, @mon_mult2 R R_num true t mon power = Array r /\ wf r /\ ndim r = ndim t /\
    (forall j, nth j (shp r) 0%nat = (nth j (shp t) 0 + nth j mon 0)%nat) /\
    forall W, sumidx (shp r) (fun idx => tget r idx * W idx) = sumidx (shp t) (fun idx => tget t idx * adjOf power mon W idx).
Proof.
  intros Wt L. destruct power; unfold mon_mult2; eexists; (split; [reflexivity|]).
  - unfold ndim in L. split; [|split; [|split]].
    + apply wf_tbuild. destruct Wt as [_ F]. revert mon L. induction F; intros [|m mon] L; try discriminate; cbn; constructor; [lia|]. apply IHF. cbn in L; lia.
    + apply addShape_length; auto.
    + intros j. apply addShape_nth; auto.
    + intros W. unfold padBottom at 1. rewrite shp_tbuild. apply padBottom_adj; auto.
  - pose proof (mm2_loop mon t (repeat 0 (ndim t)) Wt L (repeat_length _ _) (length mon) (le_n _)) as (W' & N' & S' & _). cbn [negb andb].
    split; [auto|split; [auto|split]].
    + intros j. rewrite S'. destruct (Nat.ltb_spec j (length mon)); [lia|]. rewrite (nth_overflow mon) by lia. lia.
    + intros W. apply (mm2_adj mon t Wt L (length mon) (le_n _)).
Qed.
Lemma adj_mon f power mon z idx : linR f -> length mon = length idx -> length z = length idx ->
  adjOf power mon (fun j => f (monAt power j z)) idx = f (monAt power mon z * monAt power idx z)%C.
Proof.
  intros Hf L1 L2. destruct power; cbn [adjOf].
  - rewrite monAt_add by auto. auto.
  - rewrite (opUpTo_ext (length idx) mon (length mon) _ (fun j => f (RtoC 1 * monAt false j z)%C)); [|intros; f_equal; ring|auto].
    rewrite opUpTo_mon by (auto; lia). rewrite monUpTo_full by lia. f_equal. ring.
Qed.
(** ** Degrees *)
Lemma addShape_sum mon : forall idx, length mon = length idx -> list_sum (addShape idx mon) = (list_sum idx + list_sum mon)%nat.
Proof. induction mon as [|m mon IH]; intros [|i idx] L; try discriminate; cbn; auto. specialize (IH idx ltac:(cbn in L; lia)). unfold list_sum in *. lia. Qed.
Lemma list_sum_upd l : forall d v, (d < length l)%nat -> (list_sum (upd l d v) + nth d l 0 = list_sum l + v)%nat.
Proof. induction l; intros [|d] v H; cbn in H; try lia; cbn; [unfold list_sum; lia|]. specialize (IHl d v ltac:(lia)). unfold list_sum in *. lia. Qed.
(** W vanishes below the degree of a and at the other exponents of its degree *)
Definition peak (n : nat) (a : list nat) (W : list nat -> R) : Prop :=
  length a = n /\ (forall idx, length idx = n -> (list_sum idx <= list_sum a)%nat -> idx <> a -> W idx = 0) /\ W a <> 0.
Lemma upd_eq_iff (idx a : list nat) d : length idx = length a -> (d < length a)%nat -> (forall v, upd idx d v = a -> nth d a 0%nat = v /\ forall w, upd idx d w = upd a d w).
Proof.
  intros L Hd v E. split.
  - rewrite <- E. apply nth_upd_eq. lia.
  - intros w. rewrite <- E. rewrite upd_upd. reflexivity.
Qed.
Lemma op_peak n d m a W : peak n a W -> (d < n)%nat -> (m <= nth d a 0)%nat -> peak n (upd a d (nth d a 0 - m)%nat) (op d m W).
Proof.
  intros (La & Z & Wa) Hd Hm. split; [rewrite upd_length; auto|].
  pose proof (list_sum_upd a d (nth d a 0 - m)%nat ltac:(lia)) as S1.
  assert (G : forall idx v, length idx = n -> (v <= nth d idx 0 + m)%nat -> (list_sum idx <= list_sum (upd a d (nth d a 0 - m)%nat))%nat ->
    upd idx d v <> a -> W (upd idx d v) = 0).
  { intros idx v L Hv Hs Hne. apply Z; auto; [rewrite upd_length; auto|]. pose proof (list_sum_upd idx d v ltac:(lia)). lia. }
  split.
  - intros idx L Hs Hne. unfold op.
    rewrite !G; auto; [ring| | |].
    + unfold dist. lia.
    + intros E. destruct (upd_eq_iff idx a d ltac:(lia) ltac:(lia) _ E) as [E1 E2]. apply Hne. rewrite <- E2.
      pose proof (list_sum_upd idx d (dist (nth d idx 0%nat) m) ltac:(lia)). rewrite E in H. unfold dist in *.
      assert (nth d idx 0 = nth d a 0 - m)%nat by lia. rewrite <- H0. symmetry. apply upd_nth.
    + intros E. destruct (upd_eq_iff idx a d ltac:(lia) ltac:(lia) _ E) as [E1 E2]. apply Hne. rewrite <- E2. replace (nth d a 0 - m)%nat with (nth d idx 0%nat) by lia. symmetry. apply upd_nth.
  - unfold op. rewrite nth_upd_eq, !upd_upd by lia. replace (nth d a 0 - m + m)%nat with (nth d a 0%nat) by lia. rewrite upd_nth.
    destruct (Nat.eq_dec (dist (nth d a 0 - m)%nat m) (nth d a 0%nat)) as [E|E].
    + rewrite E, upd_nth. lra.
    + replace (upd a d (dist (nth d a 0 - m)%nat m)) with (upd (upd a d (nth d a 0 - m)%nat) d (dist (nth d a 0 - m)%nat m)) by apply upd_upd.
      rewrite (G (upd a d (nth d a 0 - m)%nat)); [lra|rewrite upd_length; auto|rewrite nth_upd_eq by lia; unfold dist; lia|lia|].
      rewrite upd_upd. intros E1. apply E. assert (Q := f_equal (fun l => nth d l 0%nat) E1). cbv beta in Q. rewrite nth_upd_eq in Q by lia. auto.
Qed.
(** a with the exponents of mon subtracted on the axes i, i+1, ... *)
Lemma opUpTo_peak n mon i : forall a W, peak n a W -> (i <= n)%nat -> (forall j, (j < i)%nat -> (nth j mon 0 <= nth j a 0)%nat) ->
  exists a', peak n a' (opUpTo mon i W) /\ forall j, nth j a' 0%nat = if (j <? i)%nat then (nth j a 0 - nth j mon 0)%nat else nth j a 0%nat.
Proof.
  induction i; intros a W P Hi Hj; cbn [opUpTo].
  - exists a. split; auto.
  - pose proof P as (La & _). destruct (IHi _ _ (op_peak n i (nth i mon 0%nat) a W P ltac:(lia) (Hj i ltac:(lia))) ltac:(lia)) as (a' & P' & E).
    + intros j Hlt. rewrite nth_upd_neq by lia. apply Hj. lia.
    + exists a'. split; auto. intros j. rewrite E. destruct (Nat.ltb_spec j i), (Nat.ltb_spec j (S i)); try lia.
      * rewrite nth_upd_neq by lia. auto.
      * replace j with i by lia. rewrite nth_upd_eq by lia. auto.
      * rewrite nth_upd_neq by lia. auto.
Qed.
Lemma nth_eq_lists (a b : list nat) : length a = length b -> (forall j, nth j a 0%nat = nth j b 0%nat) -> a = b.
Proof. intros L H. apply (nth_ext a b 0%nat 0%nat L). auto. Qed.
Lemma adj_peak power mon a n : length mon = n -> length a = n ->
  exists c, c <> 0 /\ (let W := fun j => if list_eq_dec Nat.eq_dec j (addShape a mon) then 1 else 0 in
    adjOf power mon W a = c /\ forall idx, length idx = n -> (list_sum idx <= list_sum a)%nat -> idx <> a -> adjOf power mon W idx = 0).
Proof.
  intros Lm La. cbv zeta. set (W := fun j => if list_eq_dec Nat.eq_dec j (addShape a mon) then 1 else 0).
  assert (Ls : length (addShape a mon) = n) by (rewrite addShape_length; lia).
  assert (P : peak n (addShape a mon) W).
  { split; auto. unfold W. split.
    - intros idx _ _ H. destruct (list_eq_dec _ _ _); [congruence|auto].
    - destruct (list_eq_dec _ _ _); [lra|congruence]. }
  destruct power; cbn [adjOf].
  - exists 1. split; [lra|]. split.
    + unfold W. destruct (list_eq_dec _ _ _); congruence.
    + intros idx L _ Hne. unfold W. destruct (list_eq_dec Nat.eq_dec (addShape idx mon) (addShape a mon)) as [E|E]; auto. exfalso. apply Hne.
      apply nth_eq_lists; [lia|]. intros j. assert (E' : nth j (addShape idx mon) 0%nat = nth j (addShape a mon) 0%nat) by (rewrite E; auto).
      rewrite !addShape_nth in E' by lia. lia.
  - destruct (opUpTo_peak n mon n (addShape a mon) W P (le_n _)) as (a' & P' & E).
    { intros j Hj. rewrite addShape_nth by lia. lia. }
    assert (a' = a) as ->.
    { destruct P' as (L' & _). apply nth_eq_lists; [lia|]. intros j. rewrite E, addShape_nth by lia. destruct (Nat.ltb_spec j n); [lia|]. rewrite (nth_overflow mon) by lia. lia. }
    rewrite Lm. exists (opUpTo mon n W a). destruct P' as (_ & A & B). auto.
Qed.
(** ... and W vanishing up to degree D gives zero up to degree D - |mon| *)
Lemma opUpTo_low n mon i : forall D W, (forall idx, length idx = n -> (list_sum idx <= D + list_sum (firstn i mon))%nat -> W idx = 0) -> (i <= n)%nat -> length mon = n ->
  forall idx, length idx = n -> (list_sum idx <= D)%nat -> opUpTo mon i W idx = 0.
Proof.
  induction i; intros D W HW Hi Lm idx L Hs; cbn [opUpTo].
  - apply HW; auto. cbn. lia.
  - apply (IHi D); auto; [|lia]. intros j Lj Hj. unfold op.
    assert (F : list_sum (firstn (S i) mon) = (list_sum (firstn i mon) + nth i mon 0)%nat).
    { clear - Hi Lm. revert i n Hi Lm. induction mon as [|m mon IH]; intros [|i] n Hi Lm; cbn in *; try lia.
      specialize (IH i (n - 1)%nat ltac:(lia) ltac:(lia)). unfold list_sum in *. cbn [firstn fold_right nth] in *. lia. }
    rewrite !HW; try ring; rewrite ?upd_length; auto;
      [pose proof (list_sum_upd j i (dist (nth i j 0%nat) (nth i mon 0%nat)) ltac:(lia)) as Q; unfold dist in *; lia|pose proof (list_sum_upd j i (nth i j 0 + nth i mon 0)%nat ltac:(lia)) as Q; lia].
Qed.
Lemma adj_low power mon D W n : length mon = n -> (forall idx, length idx = n -> (list_sum idx <= D + list_sum mon)%nat -> W idx = 0) ->
  forall idx, length idx = n -> (list_sum idx <= D)%nat -> adjOf power mon W idx = 0.
Proof.
  intros Lm HW idx L Hs. destruct power; cbn [adjOf].
  - apply HW; [rewrite addShape_length; lia|]. rewrite addShape_sum by lia. lia.
  - apply (opUpTo_low n mon (length mon) D W); auto; [|lia]. intros j Lj Hj. apply HW; auto. rewrite firstn_all in Hj. auto.
Qed.
