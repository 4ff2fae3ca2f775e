(** * M_maker: stored values, the block copy and the Fourier sum *)
From Coq Require Import Reals List Lia Lra Arith ZArith Bool.
From Verif Require Import Num Tensor RSum Cheb PolySpec LinearModel CombinedModel CombinedSpec ApproxModel ApproxDct ApproxInterp MakerModel.
From Verif Require PolyModel.
Import ListNotations.

(** ** dictionaries *)
Lemma keyEqb_true x y : keyEqb x y = true <-> x = y.
Proof. unfold keyEqb. destruct (list_eq_dec Nat.eq_dec x y); split; congruence. Qed.
Lemma dget_dput {V} k k' (v : V) d : dget k (dput k' v d) = if keyEqb k k' then Some v else dget k d.
Proof.
  induction d as [|[k2 v2] d IH]; cbn [dput dget].
  - reflexivity.
  - destruct (keyEqb k' k2) eqn:E; cbn [dget].
    + apply keyEqb_true in E. subst k2. destruct (keyEqb k k') eqn:E2; auto.
    + destruct (keyEqb k k2) eqn:E2; auto. destruct (keyEqb k k') eqn:E3; auto.
      apply keyEqb_true in E2, E3. subst. rewrite (proj2 (keyEqb_true k2 k2) eq_refl) in E. discriminate.
Qed.

(** ** masks *)
Lemma maskSelect_map {A} (p : A -> bool) l : maskSelect (map p l) l = filter p l.
Proof. induction l; simpl; auto. destruct (p a); rewrite IHl; auto. Qed.
Lemma maskSelect_map2 {A B} (p : A -> bool) (g : A -> B) l : maskSelect (map p l) (map g l) = map g (filter p l).
Proof. induction l; simpl; auto. destruct (p a); simpl; rewrite IHl; auto. Qed.
Lemma fillMask_ok {A B} (dflt : B) (p : A -> bool) (g : A -> B) l :
  fillMask dflt (map p l) (map g (filter (fun x => negb (p x)) l)) (map g (filter p l)) = map g l.
Proof. induction l as [|x l IH]; simpl; auto. destruct (p x); simpl; rewrite IH; auto. Qed.

(** ** the points of the half grid *)
Lemma filter_flat_map {A B} (p : B -> bool) (f : A -> list B) l : filter p (flat_map f l) = flat_map (fun x => filter p (f x)) l.
Proof. induction l; simpl; auto. rewrite filter_app, IHl. reflexivity. Qed.
Lemma filter_map {A B} (p : B -> bool) (f : A -> B) l : filter p (map f l) = map f (filter (fun x => p (f x)) l).
Proof. induction l; simpl; auto. destruct (p (f a)); simpl; rewrite IHl; auto. Qed.
Lemma flat_map_seq_even {A} (f : nat -> list A) h :
  flat_map (fun i => if Nat.even i then f i else []) (seq 0 (S (2 * h))) = flat_map (fun i => f (2 * i)%nat) (seq 0 (S h)).
Proof.
  induction h; [reflexivity|].
  replace (S (2 * S h)) with (S (S (S (2 * h)))) by lia.
  rewrite (seq_S (S (S (2 * h)))), (seq_S (S (2 * h))), (seq_S (S h)), !flat_map_app, IHh.
  rewrite <- app_assoc. f_equal. cbn [flat_map Nat.add]. rewrite !app_nil_r.
  replace (Nat.even (S (2 * h))) with false by (symmetry; rewrite Nat.even_succ, <- Nat.negb_even, Nat.even_mul; reflexivity).
  replace (Nat.even (S (S (2 * h)))) with true by (symmetry; change (Nat.even (S (S (2 * h)))) with (Nat.even (2 * h)); rewrite Nat.even_mul; reflexivity).
  cbn [app]. f_equal. lia.
Qed.
Lemma even_indices h : filter (forallb Nat.even) (indices (map S (map (fun d => 2 * d)%nat h))) = map (map (fun i => 2 * i)%nat) (indices (map S h)).
Proof.
  induction h as [|d h IH]; [reflexivity|].
  cbn [map]. rewrite !indices_cons, filter_flat_map.
  transitivity (flat_map (fun i => if Nat.even i then map (cons i) (map (map (fun i => 2 * i)%nat) (indices (map S h))) else []) (seq 0 (S (2 * d)))).
  - apply flat_map_ext. intros i. rewrite filter_map. cbn [forallb]. destruct (Nat.even i); cbn [andb].
    + rewrite <- IH. reflexivity.
    + generalize (indices (map S (map (fun d0 => (2 * d0)%nat) h))). induction l; simpl; auto.
  - rewrite flat_map_seq_even. generalize (seq 0 (S d)). induction l as [|i l IHl]; [reflexivity|]. cbn [flat_map]. rewrite map_app, <- IHl. f_equal. rewrite !map_map. reflexivity.
Qed.
Lemma double_div2 degs : forallb Nat.even degs = true -> map (fun d => 2 * d)%nat (map Nat.div2 degs) = degs.
Proof.
  induction degs as [|d degs IH]; cbn [forallb map]; auto. intros H. apply andb_prop in H. destruct H as [H1 H2]. rewrite IH by auto. f_equal.
  apply Nat.even_spec in H1. destruct H1 as [m ->]. rewrite Nat.div2_double. reflexivity.
Qed.

Section Stored.
  Context {T : Type} {NT : Num T}.
  Variable cosn : nat -> nat -> T.
  Variable junk : list nat -> T.
  (** halving numerator and denominator of an angle changes nothing *)
  Hypothesis cosn_double : forall m d, cosn (2 * m) (2 * d) = cosn m d.
  Variable f : fobj T.
  Variables a b : list T.

  Lemma gridPoint_double degs idx : gridPoint cosn (map (fun d => 2 * d)%nat degs) a b (map (fun i => 2 * i)%nat idx) = gridPoint cosn degs a b idx.
  Proof.
    unfold gridPoint. f_equal. revert degs. induction idx as [|i idx IH]; intros [|d degs]; cbn [map combine]; auto.
    f_equal; [cbn [fst snd]; apply cosn_double|apply IH].
  Qed.
  (** the value block without any stored values *)
  Definition freshBlock (degs : list nat) : tensor T := gridValues cosn f degs a b.
  Definition freshNorm (degs : list nat) : T := maxAbs (dat (blockCopy junk (freshBlock degs))).
  Definition freshCoeffs (degs : list nat) : tensor T := coeffsOf cosn degs (blockCopy junk (freshBlock degs)).
  Definition goodStore (st : @store T) : Prop :=
    (forall k v, dget k (memo st) = Some v -> v = freshBlock k) /\
    (forall k v, dget k (fftd st) = Some v -> v = (freshCoeffs k, freshNorm k)).
  Lemma good_empty : goodStore (mkStore [] []).
  Proof. split; intros; discriminate. Qed.
  Lemma valuesBlock_ok degs m vb : (forall k v, dget k m = Some v -> v = freshBlock k) -> valuesBlock cosn f degs a b m = Some vb -> vb = freshBlock degs.
  Proof.
    intros Hm H. unfold valuesBlock in H.
    assert (HP : match dget degs m with
        | Some v => Some v
        | None => match (if forallb Nat.even degs then dget (map Nat.div2 degs) m else None) with
            | Some half => Some (mkT (map S degs) (fillMask n0 (map (fun idx => negb (forallb Nat.even idx)) (indices (map S degs))) (dat half)
                 (map (callAt f) (maskSelect (map (fun idx => negb (forallb Nat.even idx)) (indices (map S degs))) (map (gridPoint cosn degs a b) (indices (map S degs)))))))
            | None => Some (gridValues cosn f degs a b)
            end
        end = Some vb -> vb = freshBlock degs).
    { clear H. destruct (dget degs m) eqn:E1; intros H; [injection H as <-; auto|].
      destruct (forallb Nat.even degs) eqn:E2; [|injection H as <-; reflexivity].
      destruct (dget (map Nat.div2 degs) m) eqn:E3; [|injection H as <-; reflexivity].
      injection H as <-. apply Hm in E3. subst t. unfold freshBlock, gridValues, tbuild. f_equal.
      rewrite maskSelect_map2, (map_map (gridPoint cosn degs a b) (callAt f)).
      rewrite <- (fillMask_ok n0 (fun idx => negb (forallb Nat.even idx)) (fun idx => callAt f (gridPoint cosn degs a b idx)) (indices (map S degs))).
      f_equal. rewrite (filter_ext _ (forallb Nat.even)) by (intros; apply negb_involutive).
      rewrite <- (double_div2 degs E2) at 3. rewrite even_indices. cbn [dat]. rewrite (map_map (map (fun i => (2 * i)%nat))). apply map_ext. intros idx.
      rewrite <- (double_div2 degs E2) at 2. rewrite gridPoint_double. reflexivity. }
    destruct f eqn:Ef; auto; (destruct (forallb _ degs); try discriminate; injection H as <-; unfold freshBlock; rewrite Ef; reflexivity).
  Qed.
  Lemma approximate_ok degs st c nrm st' : goodStore st -> approximate cosn junk f a b degs st = MOk (c, nrm, st') ->
    c = freshCoeffs degs /\ nrm = freshNorm degs /\ goodStore st' .
  Proof.
    intros [Hm Hf] H. unfold approximate in H. destruct (dget degs (fftd st)) as [[c0 n0']|] eqn:E.
    - injection H as <- <- <-. apply Hf in E. injection E as -> ->. split; auto. split; auto. split; auto.
    - destruct (valuesBlock cosn f degs a b (memo st)) as [vb|] eqn:E2; [|discriminate].
      destruct (existsb (Nat.eqb 0) degs); [discriminate|]. apply valuesBlock_ok in E2; auto. subst vb.
      injection H as <- <- <-. split; auto. split; auto. split; cbn [memo fftd]; intros k v; rewrite dget_dput; destruct (keyEqb k degs) eqn:K; auto.
      + apply keyEqb_true in K. subst. intros Q. injection Q as <-. reflexivity.
      + apply keyEqb_true in K. subst. intros Q. injection Q as <-. reflexivity.
  Qed.
  Definition gridOK (degs : list nat) : Prop := match f with Plain _ | NotCallable => True | _ => forallb (Nat.eqb (hd 0%nat degs)) degs = true end.
  Lemma valuesBlock_some degs m : gridOK degs -> exists vb, valuesBlock cosn f degs a b m = Some vb.
  Proof.
    unfold gridOK, valuesBlock. intros H. destruct f; try (rewrite H; eauto);
      (destruct (dget degs m); [eauto|]; match goal with |- context [match ?x with Some _ => _ | None => _ end] => destruct x end; eauto).
  Qed.
  Lemma approximate_total degs st : gridOK degs -> Forall (fun d => (1 <= d)%nat) degs -> exists r, approximate cosn junk f a b degs st = MOk r.
  Proof.
    intros HF H1. unfold approximate. destruct (dget degs (fftd st)) as [[c n]|]; [eauto|].
    destruct (valuesBlock_some degs (memo st) HF) as [vb ->].
    assert (X : existsb (Nat.eqb 0) degs = false).
    { clear - H1. induction H1 as [|x l Hx Hl IH]; cbn [existsb]; auto. rewrite IH. destruct x; [lia|reflexivity]. }
    rewrite X. eauto.
  Qed.
End Stored.

(** ** the block copy *)
Definition foldI (d e : nat) : nat := if (e <=? d)%nat then e else (2 * d - e)%nat.
Fixpoint foldIdx (degs e : list nat) : list nat :=
  match degs, e with d :: degs', i :: e' => foldI d i :: foldIdx degs' e' | _, _ => [] end.
Lemma findPos_seq x lo n : findPos x (seq lo n) = if ((lo <=? x) && (x <? lo + n))%nat then Some (x - lo)%nat else None.
Proof.
  revert lo. induction n; intros lo; cbn [seq findPos].
  - destruct (Nat.leb_spec lo x), (Nat.ltb_spec x (lo + 0)); auto; lia.
  - destruct (Nat.eqb_spec x lo).
    + subst. destruct (Nat.leb_spec lo lo), (Nat.ltb_spec lo (lo + S n)); try lia. simpl. f_equal. lia.
    + rewrite IHn. destruct (Nat.leb_spec (S lo) x), (Nat.ltb_spec x (S lo + n)), (Nat.leb_spec lo x), (Nat.ltb_spec x (lo + S n)); simpl; auto; try lia. f_equal. lia.
Qed.
Lemma locate_one d fl e : (1 <= d)%nat -> (e < 2 * d)%nat ->
  findPos e (chebIdx d fl) = if Bool.eqb fl (d <? e)%nat then Some (if fl then (e - (d + 1))%nat else e) else None.
Proof.
  intros Hd He. unfold chebIdx. destruct fl; rewrite findPos_seq; destruct (Nat.ltb_spec d e); cbn [Bool.eqb].
  - destruct (Nat.leb_spec (d + 1) e), (Nat.ltb_spec e (d + 1 + (2 * d - (d + 1)))); simpl; auto; lia.
  - destruct (Nat.leb_spec (d + 1) e), (Nat.ltb_spec e (d + 1 + (2 * d - (d + 1)))); simpl; auto; lia.
  - destruct (Nat.leb_spec 0 e), (Nat.ltb_spec e (0 + Nat.min (d + 1) (2 * d))); simpl; auto; lia.
  - destruct (Nat.leb_spec 0 e), (Nat.ltb_spec e (0 + Nat.min (d + 1) (2 * d))); simpl; try lia. f_equal; lia.
Qed.
Lemma blockIdx_one d e : (1 <= d)%nat -> (e < 2 * d)%nat ->
  nth (if (d <? e)%nat then (e - (d + 1))%nat else e) (blockIdx d (d <? e)%nat) 0%nat = foldI d e.
Proof.
  intros Hd He. unfold blockIdx, foldI. destruct (Nat.ltb_spec d e), (Nat.leb_spec e d); try lia.
  - rewrite rev_nth by (rewrite seq_length; lia). rewrite seq_length, seq_nth by lia. lia.
  - rewrite seq_nth by lia. lia.
Qed.
Definition flips (degs e : list nat) : list bool := map (fun p => (fst p <? snd p)%nat) (combine degs e).
Lemma locate_spec degs : Forall (fun d => (1 <= d)%nat) degs -> forall block e, length block = length degs -> inrange (map (fun d => 2 * d)%nat degs) e ->
  locate degs block e = if list_eq_dec Bool.bool_dec block (flips degs e) then Some (foldIdx degs e) else None.
Proof.
  induction 1 as [|d degs Hd HD IH]; intros [|fl block] e HL He; simpl in HL; try lia; inversion He as [|i ? e' ? Hi He']; subst; cbn [locate flips combine map fst snd foldIdx].
  - destruct (list_eq_dec _ [] []); congruence.
  - rewrite locate_one by auto. rewrite IH by (auto; lia). fold (flips degs e').
    destruct (Bool.eqb fl (d <? i)%nat) eqn:E.
    + apply Bool.eqb_prop in E. subst fl. destruct (list_eq_dec Bool.bool_dec block (flips degs e')) as [->|N];
        destruct (list_eq_dec Bool.bool_dec (_ :: _) _) as [E2|N2]; try congruence. rewrite blockIdx_one by auto. reflexivity.
    + destruct (list_eq_dec Bool.bool_dec (_ :: _) _) as [E2|N2]; auto. injection E2 as -> _. rewrite Bool.eqb_reflx in E. discriminate.
Qed.
Lemma blocks_length n : forall bl, In bl (blocks n) -> length bl = n.
Proof.
  induction n; simpl; intros bl H; [destruct H as [<-|[]]; reflexivity|].
  apply in_app_or in H. destruct H as [H|H]; apply in_map_iff in H; destruct H as (x & <- & Hx); simpl; f_equal; auto.
Qed.
Lemma blocks_all n : forall bl, length bl = n -> In bl (blocks n).
Proof.
  induction n; intros [|x bl] H; simpl in *; try lia; auto.
  apply in_or_app. destruct x; [right|left]; apply in_map, IHn; lia.
Qed.
Lemma flips_length degs e : length e = length degs -> length (flips degs e) = length degs.
Proof. intros H. unfold flips. rewrite map_length, combine_length. lia. Qed.
Lemma blockCopy_get {T} {NT : Num T} (junk : list nat -> T) degs (vb : tensor T) e : Forall (fun d => (1 <= d)%nat) degs -> shp vb = map S degs ->
  inrange (map (fun d => 2 * d)%nat degs) e -> tget (blockCopy junk vb) e = tget vb (foldIdx degs e).
Proof.
  intros HD Hs He. unfold blockCopy. rewrite Hs. rewrite map_map. cbn [pred]. rewrite map_id.
  assert (G : forall l acc, (forall bl, In bl l -> length bl = length degs) -> In (flips degs e) l \/ tget acc e = tget vb (foldIdx degs e) ->
     tget (fold_left (copyStep degs vb) l acc) e = tget vb (foldIdx degs e)).
  { induction l as [|bl l IH]; intros acc HL HI; cbn [fold_left].
    - destruct HI as [[]|HI]; auto.
    - apply IH; [intros; apply HL; right; auto|]. unfold copyStep at 1. rewrite tget_tbuild by auto.
      rewrite locate_spec by (auto; apply HL; left; reflexivity).
      destruct (list_eq_dec Bool.bool_dec bl (flips degs e)) as [E|E]; auto. destruct HI as [[HI|HI]|HI]; auto. contradiction. }
  apply G; [apply blocks_length|]. left. apply blocks_all, flips_length.
  apply inrange_length in He. rewrite map_length in He. auto.
Qed.
Lemma copyStep_shape {T} {NT : Num T} degs (vb acc : tensor T) bl : shp (copyStep degs vb acc bl) = map (fun d => 2 * d)%nat degs.
Proof. reflexivity. Qed.
Lemma blockCopy_shape {T} {NT : Num T} (junk : list nat -> T) degs (vb : tensor T) : shp vb = map S degs -> shp (blockCopy junk vb) = map (fun d => 2 * d)%nat degs.
Proof.
  intros Hs. unfold blockCopy. rewrite Hs, map_map. cbn [pred]. rewrite map_id.
  assert (G : forall l acc, shp acc = map (fun d => 2 * d)%nat degs -> shp (fold_left (copyStep degs vb) l acc) = map (fun d => 2 * d)%nat degs).
  { induction l; intros acc H; cbn [fold_left]; auto. }
  apply G. reflexivity.
Qed.

(** ** the Fourier sum over R *)
Local Open Scope R_scope.
Lemma sumn_rev n f : sumn n f = sumn n (fun i => f (n - 1 - i)%nat).
Proof.
  induction n; [reflexivity|]. rewrite (sumn_S_l n (fun i => f (S n - 1 - i)%nat)). cbn [sumn]. rewrite IHn, Rplus_comm. f_equal.
  - f_equal. lia.
  - apply sumn_ext. intros i Hi. f_equal. lia.
Qed.
Lemma angle_sum n (F : nat -> R) (t : R) k : (1 <= n)%nat ->
  sumn (2 * n) (fun e => F (foldI n e) * cos (t + INR (e * k) * PI / INR n)) = cos t * sumn (S n) (fun j => dmat n k j * F j).
Proof.
  intros Hn. assert (HnR : INR n <> 0) by (apply not_0_INR; lia).
  set (X := fun e => INR (e * k) * PI / INR n).
  replace (2 * n)%nat with (n + n)%nat by lia. rewrite sumn_split.
  destruct n as [|m]; [lia|]. set (n := S m) in *.
  unfold n at 1. rewrite sumn_S_l. unfold n at 5. rewrite sumn_S_l.
  change (INR (0 * k)) with 0.
  assert (E0 : foldI n 0 = 0%nat) by reflexivity.
  assert (En : foldI n (n + 0) = n) by (unfold foldI; destruct (Nat.leb_spec (n + 0) n); lia).
  rewrite E0, En.
  assert (Xn : cos (t + INR ((n + 0) * k) * PI / INR n) = cos t * cosR (k * n) n).
  { unfold cosR. replace (INR ((n + 0) * k) * PI / INR n) with (INR k * PI).
    2:{ rewrite Nat.add_0_r, mult_INR. field. auto. }
    replace (INR (k * n) * PI / INR n) with (INR k * PI) by (rewrite mult_INR; field; auto).
    rewrite cos_plus, sin_kpi. ring. }
  rewrite Xn.
  rewrite (sumn_rev m (fun i => F (foldI n (n + S i)) * cos (t + INR ((n + S i) * k) * PI / INR n))).
  rewrite (sumn_ext m (fun i => F (foldI n (n + S (m - 1 - i))) * cos (t + INR ((n + S (m - 1 - i)) * k) * PI / INR n))
     (fun i => F (S i) * cos (t - INR (S i * k) * PI / INR n))).
  2:{ intros i Hi. assert (E : foldI n (n + S (m - 1 - i)) = S i) by (unfold foldI, n; destruct (Nat.leb_spec (S m + S (m - 1 - i)) (S m)); lia).
      rewrite E. f_equal. replace (n + S (m - 1 - i))%nat with (2 * n - S i)%nat by (unfold n; lia).
      rewrite <- (cos_period (t - INR (S i * k) * PI / INR n) k). f_equal.
      rewrite !mult_INR, minus_INR, mult_INR by (unfold n; lia). change (INR 2) with 2. field. auto. }
  rewrite (sumn_ext m (fun i => F (foldI n (S i)) * cos (t + INR (S i * k) * PI / INR n)) (fun i => F (S i) * cos (t + INR (S i * k) * PI / INR n))).
  2:{ intros i Hi. assert (E : foldI n (S i) = S i) by (unfold foldI, n; destruct (Nat.leb_spec (S i) (S m)); lia). rewrite E. reflexivity. }
  rewrite (sumn_ext (S n) (fun j => dmat n k j * F j) (fun j => ew n j * (2 * cosR (k * j) n * F j))) by (intros; unfold dmat; ring).
  change (sumn (S n) (fun j => ew n j * (2 * cosR (k * j) n * F j))) with (wsum n (fun j => 2 * cosR (k * j) n * F j)).
  rewrite wsum_form by auto. rewrite Nat.mul_0_r, cosR_0. replace (n - 1)%nat with m by (unfold n; lia).
  assert (ES : sumn m (fun i => F (S i) * cos (t + INR (S i * k) * PI / INR n)) + sumn m (fun i => F (S i) * cos (t - INR (S i * k) * PI / INR n))
     = cos t * sumn m (fun i => 2 * cosR (k * S i) n * F (S i))).
  { rewrite <- sumn_plus, <- sumn_scal. apply sumn_ext. intros i Hi. rewrite cos_plus, cos_minus. unfold cosR. rewrite (Nat.mul_comm k (S i)). ring. }
  replace (t + 0 * PI / INR n) with t by (field; auto).
  rewrite !Rmult_plus_distr_l. rewrite <- ES. field.
Qed.
Lemma fourier_sum degs : Forall (fun d => (1 <= d)%nat) degs -> forall (V : list nat -> R) K t, inrange (map S degs) K \/ length K = length degs ->
  sumidx (map (fun d => 2 * d)%nat degs) (fun e => V (foldIdx degs e) * cos (t + INR (phase degs e K) * PI / INR (prodn degs))) = cos t * allOps dmat degs V K.
Proof.
  induction 1 as [|n degs Hn HD IH]; intros V K t HK.
  - assert (K = []) by (destruct HK as [HK|HK]; [inversion HK; auto|destruct K; [auto|discriminate]]). subst K. cbn. unfold prodn; simpl. replace (t + 0 * PI / 1) with t by field. ring.
  - assert (HL : length K = S (length degs)) by (destruct HK as [HK|HK]; auto; apply inrange_length in HK; rewrite map_length in HK; auto).
    destruct K as [|k K]; [discriminate|]. assert (HL' : length K = length degs) by (simpl in HL; lia). cbn [map sumidx allOps].
    assert (HnR : INR n <> 0) by (apply not_0_INR; lia).
    assert (HPR : INR (prodn degs) <> 0).
    { apply not_0_INR. clear - HD. induction HD; [unfold prodn; simpl; lia|rewrite prodn_cons; nia]. }
    rewrite (sumn_ext (2 * n) _ (fun e => allOps dmat degs (fun r => V (foldI n e :: r)) K * cos (t + INR (e * k) * PI / INR n))).
    + apply (angle_sum n (fun j => allOps dmat degs (fun r => V (j :: r)) K) t k); auto.
    + intros e He. rewrite Rmult_comm, <- IH by auto. apply sumidx_ext. intros r Hr. cbn [foldIdx phase]. f_equal. f_equal.
      rewrite prodn_cons, plus_INR, !mult_INR. field. split; auto.
Qed.
(** the coefficients M_maker computes are those of interval_approximate_nd in ChebyshevApproximator.py *)
Lemma fixDegs_id degs : Forall (fun d => (1 <= d)%nat) degs -> fixDegs degs = degs.
Proof. unfold fixDegs. induction 1; simpl; auto. rewrite IHForall. destruct (Nat.eqb_spec x 0); [lia|auto]. Qed.
Lemma fold_halve2 degs s l : forall (t : tensor R) (F : list nat -> R), shp t = s -> (forall K, inrange s K -> tget t K = F K) ->
  let t' := fold_left (fun t d => halveSlice d (nth d degs 0%nat) (halveSlice d 0 t)) l t in
  shp t' = s /\ forall K, inrange s K -> tget t' K = Rprod (map (fun d => ew (nth d degs 0%nat) (nth d K 0%nat)) l) * F K.
Proof.
  assert (HG : forall d k (t : tensor R) K, shp t = s -> inrange s K -> tget (halveSlice d k t) K = (if Nat.eqb (nth d K 0%nat) k then / 2 else 1) * tget t K).
  { intros d k t K Hs HK. unfold halveSlice. rewrite tget_tbuild by (rewrite Hs; auto). rnum. rewrite n2_R. destruct (Nat.eqb _ _); field. }
  induction l as [|d l IH]; intros t F Hs HF; simpl.
  - split; auto. intros K HK. unfold Rprod; simpl. rewrite HF by auto. ring.
  - destruct (IH (halveSlice d (nth d degs 0%nat) (halveSlice d 0 t)) (fun K => ew (nth d degs 0%nat) (nth d K 0%nat) * F K)) as [A B]; auto.
    + intros K HK. rewrite HG, HG, HF by auto. unfold ew. ring.
    + split; auto. intros K HK. rewrite B by auto. unfold Rprod; simpl. ring.
Qed.
Lemma inrange_wide degs K : Forall (fun d => (1 <= d)%nat) degs -> inrange (map S degs) K -> inrange (map (fun d => 2 * d)%nat degs) K.
Proof.
  intros HD. revert K. induction HD; intros K HK; inversion HK; subst; cbn [map]; constructor; [lia|apply IHHD; auto].
Qed.
Lemma foldIdx_inrange degs e : Forall (fun d => (1 <= d)%nat) degs -> inrange (map (fun d => 2 * d)%nat degs) e -> inrange (map S degs) (foldIdx degs e).
Proof.
  intros HD. revert e. induction HD; intros e He; inversion He; subst; cbn [foldIdx map]; constructor; [|apply IHHD; auto].
  unfold foldI. destruct (Nat.leb_spec x0 x); lia.
Qed.
Lemma foldIdx_id degs K : inrange (map S degs) K -> foldIdx degs K = K.
Proof.
  revert K. induction degs; intros K HK; inversion HK; subst; cbn [foldIdx]; auto. rewrite IHdegs by auto. f_equal.
  unfold foldI. destruct (Nat.leb_spec x a); lia.
Qed.
Lemma coeffs_fft (junk : list nat -> R) degs (vb : tensor R) K : Forall (fun d => (1 <= d)%nat) degs -> shp vb = map S degs -> inrange (map S degs) K ->
  tget (coeffsOf cosR degs (blockCopy junk vb)) K = allOps imat degs (tget vb) K.
Proof.
  intros HD Hs HK. unfold coeffsOf. rewrite tget_tbuild by auto.
  pose proof (blockCopy_shape junk degs vb Hs) as HS. rewrite HS.
  set (sc := tbuild _ _).
  assert (Hsc : forall e, inrange (map (fun d => 2 * d)%nat degs) e -> tget sc e = tget vb (foldIdx degs e) / INR (prodn degs)).
  { intros e He. unfold sc. rewrite tget_tbuild by auto. rewrite (blockCopy_get junk degs) by auto. rnum. rewrite nofnat_R. reflexivity. }
  unfold halveEdges.
  destruct (fold_halve2 degs (map (fun d => 2 * d)%nat degs) (seq 0 (length degs)) (fftnRe cosR degs sc) (allOps dmat degs (fun J => tget vb J / INR (prodn degs)))) as [_ H2].
  - reflexivity.
  - intros K' HK'. unfold fftnRe. change (shp sc) with (map (fun d => 2 * d)%nat degs). rewrite tget_tbuild by auto. rewrite nsum_map_R, sumidx_indices.
    rewrite (sumidx_ext _ _ (fun e => tget vb (foldIdx degs e) / INR (prodn degs) * cos (0 + INR (phase degs e K') * PI / INR (prodn degs)))).
    2:{ intros e He. rewrite Hsc by auto. unfold cosR. rnum. rewrite Rplus_0_l. reflexivity. }
    rewrite (fourier_sum degs HD (fun J => tget vb J / INR (prodn degs)) K' 0); [rewrite cos_0; ring|].
    right. apply inrange_length in HK'. rewrite map_length in HK'. auto.
  - rewrite H2 by (apply inrange_wide; auto). pose proof (inrange_length _ _ HK) as HL. rewrite map_length in HL.
    rewrite ewProd_seq by auto. apply ew_allOps; auto.
Qed.
Lemma fresh_is_interpolant (junk : list nat -> R) f a b degs : Forall (fun d => (1 <= d)%nat) degs ->
  freshCoeffs cosR junk f a b degs = fst (fst (intervalApproximate cosR f degs a b)).
Proof.
  intros HD. pose proof (interval_coeffs f degs a b) as H. destruct (intervalApproximate cosR f degs a b) as [[c sn] dg]. cbn [fst].
  destruct H as (_ & Hs & W & HK). unfold freshCoeffs. apply tget_ext; auto.
  - unfold coeffsOf. apply wf_tbuild. apply Forall_forall. intros x Hx. apply in_map_iff in Hx. destruct Hx as (d & <- & _). lia.
  - intros K HKr. unfold coeffsOf in HKr. cbn [shp tbuild] in HKr. rewrite coeffs_fft by auto. rewrite HK by auto. rewrite fixDegs_id by auto.
    apply allOps_ext; auto. intros J HJ. unfold freshBlock, gridValues. rewrite tget_tbuild by auto. reflexivity.
Qed.
