(** * The Macaulay matrix: its columns and rows *)
From Coq Require Import List Arith Reals Lia Lra Bool Permutation Sorted.
From Coquelicot Require Import Complex.
From Coq Require Import List.
From Verif Require Import Num Tensor RSum Cheb PolySpec PolyModel MonMultModel MonMultProofs TermModel TermProofs UtilModel OrderProofs UtilProps OneDSpec OneDProofs PartProofs DepProps PolyEval PolyArith MacaulayModel MacaulaySpec MacaulayProofs.
Import ListNotations.
Local Open Scope R_scope.

(** ** The columns *)
Definition descending (l : list (list nat)) : Prop := StronglySorted (fun u v => (list_sum v <= list_sum u)%nat) l.
Lemma NoDup_app {A} (l l' : list A) : NoDup l -> NoDup l' -> (forall x, In x l -> In x l' -> False) -> NoDup (l ++ l').
Proof.
  induction 1 as [|a l Ha Hl IH]; intros H' D; auto. cbn. constructor.
  - rewrite in_app_iff. intros [I|I]; [auto|]. apply (D a); [left|]; auto.
  - apply IH; auto. intros x I I'. apply (D x); [right|]; auto.
Qed.
Lemma SS_same (k : nat) l : (forall v : list nat, In v l -> list_sum v = k) -> descending l.
Proof. induction l as [|a l IH]; intros H; constructor; [apply IH; intros; apply H; right; auto|]. apply Forall_forall. intros v Hv. rewrite (H a), (H v); auto; [right|left]; auto. Qed.
Lemma revEq dim d : (1 <= dim)%nat -> NoDup (rev (enum leafEq dim d)) /\ (forall v, In v (rev (enum leafEq dim d)) <-> length v = dim /\ list_sum v = d).
Proof. intros H. split; [apply NoDup_rev, enum_NoDup, leafEq_sorted|]. intros v. rewrite <- in_rev. apply enumEq_In; auto. Qed.
Lemma otherMons_spec dim d : (1 <= dim)%nat -> exists l, otherMons dim d = Some l /\ NoDup l /\ descending l /\
  forall v, In v l <-> length v = dim /\ (2 <= list_sum v <= d)%nat.
Proof.
  intros Hd. induction d as [|d IH]; cbn [otherMons].
  - exists []. split; auto. split; [constructor|]. split; [constructor|]. intros v. split; [intros []|lia].
  - destruct (Nat.leb_spec (S d) 1).
    + exists []. split; auto. split; [constructor|]. split; [constructor|]. intros v. split; [intros []|lia].
    + rewrite mon_combosHighest_zeros by auto. destruct IH as (l & -> & N & S & I). eexists. split; [reflexivity|].
      destruct (revEq dim (Datatypes.S d) Hd) as [N1 I1]. split; [|split].
      * apply NoDup_app; auto. intros v Hv Hv'. apply I1 in Hv. apply I in Hv'. lia.
      * apply SS_app; auto; [apply (SS_same (Datatypes.S d)); intros v Hv; apply I1 in Hv; tauto|]. intros u v Hu Hv. apply I1 in Hu. apply I in Hv. lia.
      * intros v. rewrite in_app_iff, I1, I. lia.
Qed.
Lemma xs_desc dim : (1 <= dim)%nat -> descending (rev (enum leafLe dim 1)).
Proof.
  intros Hd. pose proof (enum_sorted leafLe leafLe_sorted dim 1) as S.
  assert (H : forall v, In v (enum leafLe dim 1) -> length v = dim /\ (list_sum v <= 1)%nat) by (intros v Hv; apply enumLe_In in Hv; auto).
  induction S as [|u l S IH F]; [constructor|]. cbn. apply SS_app.
  - apply IH. intros v Hv. apply H. right; auto.
  - constructor; constructor.
  - intros v w Hv [<-|[]]. apply in_rev in Hv. rewrite Forall_forall in F. pose proof (F v Hv) as L. destruct (H u (or_introl eq_refl)) as [L1 S1]. destruct (H v (or_intror Hv)) as [L2 S2].
    destruct (Nat.eq_dec (list_sum u) 0); [lia|]. destruct (Nat.eq_dec (list_sum v) 0) as [E|E]; [|lia]. exfalso.
    apply sum_zero in E. rewrite E in L. clear - L. revert u L. induction (length v); intros [|a u] L; cbn in L; auto. destruct L as [L|[_ L]]; [lia|eauto].
Qed.
Lemma terms_spec degree dim : (1 <= dim)%nat -> (1 <= degree)%nat -> exists terms cut, sorted_matrix_terms degree dim = Some (terms, cut) /\
  NoDup terms /\ (forall v, In v terms <-> length v = dim /\ (list_sum v <= degree)%nat) /\ descending terms /\ (cut <= length terms)%nat /\
  (cut = 0%nat <-> degree = 1%nat) /\
  ((2 <= degree)%nat -> (forall v, In v (firstn cut terms) <-> length v = dim /\ list_sum v = degree) /\
    (forall v, In v (skipn cut terms) <-> length v = dim /\ (list_sum v <= degree - 1)%nat)).
Proof.
  intros Hd HD. unfold sorted_matrix_terms. rewrite mon_combosHighest_zeros, mon_combos_zeros by auto.
  destruct (otherMons_spec dim (degree - 1) Hd) as (oth & -> & No & So & Io).
  destruct (revEq dim degree Hd) as [Nh Ih].
  assert (Nx : NoDup (rev (enum leafLe dim 1))) by (apply NoDup_rev, enum_NoDup, leafLe_sorted).
  assert (Ix : forall v, In v (rev (enum leafLe dim 1)) <-> length v = dim /\ (list_sum v <= 1)%nat) by (intros v; rewrite <- in_rev; apply enumLe_In; auto).
  destruct (Nat.eqb_spec degree 1) as [->|Hne].
  - eexists _, _. split; [reflexivity|]. split; [auto|]. split; [auto|]. split; [apply xs_desc; auto|]. split; [lia|]. split; [tauto|lia].
  - eexists _, _. split; [reflexivity|].
    assert (I2 : forall v, In v (oth ++ rev (enum leafLe dim 1)) <-> length v = dim /\ (list_sum v <= degree - 1)%nat) by (intros v; rewrite in_app_iff, Io, Ix; lia).
    assert (N2 : NoDup (oth ++ rev (enum leafLe dim 1))) by (apply NoDup_app; auto; intros v A B; apply Io in A; apply Ix in B; lia).
    split; [apply NoDup_app; auto; intros v A B; apply Ih in A; apply I2 in B; lia|].
    split; [intros v; rewrite in_app_iff, Ih, I2; lia|].
    split. { apply SS_app; [apply (SS_same degree); intros v Hv; apply Ih in Hv; tauto| |intros u v A B; apply Ih in A; apply I2 in B; lia].
      apply SS_app; [auto|apply xs_desc; auto|intros u v A B; apply Io in A; apply Ix in B; lia]. }
    split; [rewrite app_length, rev_length; lia|]. split; [|].
    + split; [|lia]. intros E. exfalso. assert (I : In (degree :: repeat 0%nat (dim - 1)) (enum leafEq dim degree)).
      { apply enumEq_In; auto. cbn. rewrite repeat_length. split; [lia|]. fold (list_sum (repeat 0%nat (dim - 1))). rewrite sum_repeat. lia. }
      destruct (enum leafEq dim degree); [destruct I|discriminate].
    + intros _. rewrite <- (rev_length (enum leafEq dim degree)). rewrite firstn_app, Nat.sub_diag, firstn_all, skipn_app, Nat.sub_diag, skipn_all. cbn [firstn skipn app]. rewrite app_nil_r. split; auto.
Qed.

(** ** Sums over the columns *)
Lemma NoDup_indices s : NoDup (indices s).
Proof.
  apply NoDup_nth with (d := []). intros i j Hi Hj E. rewrite length_indices in *.
  destruct (@indices_ravel s i Hi) as [A _]. destruct (@indices_ravel s j Hj) as [B _]. congruence.
Qed.
Lemma Rsum_filter {A} (P : A -> bool) (f : A -> R) l : (forall x, In x l -> P x = false -> f x = 0) -> Rsum (map f l) = Rsum (map f (filter P l)).
Proof.
  induction l as [|a l IH]; intros H; auto. change (Rsum (map f (a :: l))) with (f a + Rsum (map f l)). cbn [filter]. rewrite IH by (intros; apply H; auto; right; auto). destruct (P a) eqn:E; [reflexivity|]. rewrite (H a) by (auto; left; auto). ring.
Qed.
Lemma NoDup_same_perm {A} (l l' : list A) : NoDup l -> NoDup l' -> (forall x, In x l <-> In x l') -> Permutation l l'.
Proof. intros. apply NoDup_Permutation; auto. Qed.
Lemma inrange_of dim degree v : length v = dim -> (list_sum v <= degree)%nat -> inrange (repeat (degree + 1)%nat dim) v.
Proof.
  intros <- H. induction v as [|a v IH]; cbn in *; constructor; [unfold list_sum in *; lia|apply IH; unfold list_sum in *; lia].
Qed.
Definition fits (dim degree : nat) (r : tensor R) : Prop :=
  ndim r = dim /\ Forall (fun s => (s <= degree + 1)%nat) (shp r) /\ (forall idx, inrange (shp r) idx -> (degree < list_sum idx)%nat -> tget r idx = 0).
Lemma row_sum dim degree terms (r : tensor R) W : fits dim degree r -> NoDup terms -> (forall v, In v terms <-> length v = dim /\ (list_sum v <= degree)%nat) ->
  Rsum (map (fun v => tget (@pad R R_num (repeat (degree + 1)%nat dim) r) v * W v) terms) = sumidx (shp r) (fun idx => tget r idx * W idx).
Proof.
  intros (Nr & Sr & Zr) Nt It. rewrite <- sumidx_indices.
  assert (Pg : forall v, In v terms -> tget (@pad R R_num (repeat (degree + 1)%nat dim) r) v = if inrangeb (shp r) v then tget r v else 0).
  { intros v Hv. apply It in Hv. unfold pad. rewrite tget_tbuild by (apply inrange_of; tauto). reflexivity. }
  rewrite (Rsum_filter (fun v => inrangeb (shp r) v) _ terms).
  2:{ intros v Hv E. rewrite Pg, E by auto. ring. }
  rewrite (Rsum_filter (fun v => list_sum v <=? degree)%nat _ (indices (shp r))).
  2:{ intros v Hv E. apply in_indices in Hv. rewrite Zr; auto; [ring|]. destruct (Nat.leb_spec (list_sum v) degree); [discriminate|auto]. }
  rewrite (Rsum_map_ext _ (fun v => tget r v * W v) (filter _ terms)).
  - apply Rsum_map_perm. apply NoDup_same_perm; [apply NoDup_filter; auto|apply NoDup_filter, NoDup_indices|].
    intros v. rewrite !filter_In, It, in_indices, inrangeb_spec, Nat.leb_le. split; [tauto|]. intros [I L]. split; auto. split; auto. apply inrange_length in I. rewrite I. exact Nr.
  - intros v Hv. apply filter_In in Hv. destruct Hv as [Hv E]. rewrite Pg, E by auto. reflexivity.
Qed.

(** ** The rows: one for each polynomial and multiplier *)
Definition label := (mpoly R * list nat)%type.
Definition labelsOf (dim degree : nat) (p : mpoly R) : list label := map (pair p) (enum leafLe dim (degree - mpDegree p)).
Definition isMult (power : bool) (dim degree : nat) (lab : label) (r : tensor R) : Prop :=
  fits dim degree r /\ (exists idx, inrange (shp r) idx /\ tget r idx <> 0) /\
  forall f, linR f -> forall z, length z = dim -> sumidx (shp r) (fun idx => tget r idx * f (monAt power idx z)) = f (monAt power (snd lab) z * polyAt power (mpCoeff (fst lab)) z)%C.
Definition polyOK (dim degree : nat) (p : mpoly R) : Prop := (1 <= mpDegree p <= degree)%nat /\ polyOfDegree dim (mpDegree p) (mpCoeff p).
Lemma top_coeff (t : tensor R) : (exists idx, inrange (shp t) idx /\ tget t idx <> 0) ->
  exists a, inrange (shp t) a /\ tget t a <> 0 /\ forall idx, inrange (shp t) idx -> (list_sum a < list_sum idx)%nat -> tget t idx = 0.
Proof.
  intros (i0 & I0 & T0).
  assert (G : forall l : list (list nat), (exists i, In i l /\ tget t i <> 0) -> exists a, In a l /\ tget t a <> 0 /\ forall idx, In idx l -> (list_sum a < list_sum idx)%nat -> tget t idx = 0).
  { induction l as [|x l IH]; intros (i & Hi & Ti); [destruct Hi|].
    destruct (Exists_dec (fun i => tget t i <> 0) l) as [E|E]. { intros j. destruct (Req_EM_T (tget t j) 0); [right|left]; auto. }
    - apply Exists_exists in E. destruct (IH E) as (a & Ia & Ta & Ma). destruct (Req_EM_T (tget t x) 0) as [Z|Z].
      + exists a. split; [right; auto|]. split; auto. intros j [<-|Hj] L; auto.
      + destruct (le_lt_dec (list_sum x) (list_sum a)) as [L|L].
        * exists a. split; [right; auto|]. split; auto. intros j [<-|Hj] L'; [lia|auto].
        * exists x. split; [left; auto|]. split; auto. intros j [<-|Hj] L'; [lia|]. apply Ma; auto; lia.
    - assert (Zl : forall j, In j l -> tget t j = 0) by (intros j Hj; destruct (Req_EM_T (tget t j) 0); auto; exfalso; apply E; apply Exists_exists; eauto).
      destruct Hi as [<-|Hi]; [|exfalso; apply Ti; auto]. exists x. split; [left; auto|]. split; auto. intros j [<-|Hj] L'; [lia|auto]. }
  destruct (G (indices (shp t))) as (a & Ia & Ta & Ma); [exists i0; split; [apply in_indices; auto|auto]|].
  exists a. split; [apply in_indices; auto|]. split; auto. intros idx Hi L. apply Ma; auto. apply in_indices; auto.
Qed.
Lemma sumidx_one s F a : inrange s a -> (forall idx, inrange s idx -> idx <> a -> F idx = 0) -> sumidx s F = F a.
Proof.
  intros Ha H. rewrite <- sumidx_indices. apply in_indices in Ha. destruct (in_split _ _ Ha) as (l1 & l2 & E).
  pose proof (NoDup_indices s) as N. rewrite E in *. rewrite map_app, Rsum_app. cbn [map].
  assert (Z : forall l, (forall x, In x l -> In x (l1 ++ l2)) -> Rsum (map F l) = 0).
  { intros l Hl. rewrite (Rsum_map_ext F (fun _ => 0 * 0)) by (intros x Hx; rewrite H; [ring| |]; [apply in_indices; rewrite E; apply Hl in Hx; apply in_app_or in Hx; apply in_or_app; cbn; tauto|intros ->; apply NoDup_remove_2 in N; apply N; auto]).
    clear. induction l; cbn; [reflexivity|]. fold (Rsum (map (fun _ : list nat => 0 * 0) l)). rewrite IHl. ring. }
  rewrite Z by (intros; apply in_or_app; auto). change (Rsum (F a :: map F l2)) with (F a + Rsum (map F l2)). rewrite Z by (intros; apply in_or_app; auto). ring.
Qed.
Lemma isMult_of power dim degree p mon r : polyOK dim degree p -> length mon = dim -> (list_sum mon <= degree - mpDegree p)%nat -> wf r -> ndim r = dim ->
  (forall j, nth j (shp r) 0%nat = (nth j (shp (mpCoeff p)) 0 + nth j mon 0)%nat) ->
  (forall W, sumidx (shp r) (fun idx => tget r idx * W idx) = sumidx (shp (mpCoeff p)) (fun idx => tget (mpCoeff p) idx * adjOf power mon W idx)) ->
  isMult power dim degree (p, mon) r.
Proof.
  intros ((D1 & D2) & Wt & Nt & St & Zt & Et) Lm Sm Wr Nr Sr A. set (t := mpCoeff p) in *. set (dg := mpDegree p) in *. unfold ndim in Nr, Nt.
  assert (Dl : forall a, inrange (shp r) a -> tget r a = sumidx (shp r) (fun idx => tget r idx * (if list_eq_dec Nat.eq_dec idx a then 1 else 0))).
  { intros a Ia. rewrite (sumidx_one _ _ a); [|auto|intros idx _ Hne; destruct (list_eq_dec Nat.eq_dec idx a); [congruence|ring]]. destruct (list_eq_dec Nat.eq_dec a a); [ring|congruence]. }
  split; [split; [exact Nr|split]|split].
  - apply Forall_forall. intros s Hs. apply In_nth with (d := 0%nat) in Hs. destruct Hs as (j & Hj & <-). rewrite Sr.
    assert (nth j (shp t) 0 <= dg + 1)%nat by (rewrite Forall_forall in St; apply St, nth_In; lia).
    assert (nth j mon 0 <= list_sum mon)%nat. { clear. revert j. induction mon as [|m mon IH]; intros [|j]; cbn; [lia|lia|unfold list_sum; lia|]. specialize (IH j). unfold list_sum in *. lia. }
    lia.
  - intros idx Hi Hd. rewrite Dl by auto. rewrite A. rewrite (sumidx_ext _ _ (fun _ => 0)); [apply sumidx_0|]. intros i Ii.
    pose proof (inrange_length _ _ Ii) as Li. pose proof (inrange_length _ _ Hi) as Lx.
    destruct (le_lt_dec (list_sum i) dg) as [L|L]; [|rewrite Zt by auto; ring].
    rewrite (adj_low power mon dg _ dim Lm); [ring| |lia|auto]. intros j Lj Hj. destruct (list_eq_dec Nat.eq_dec j idx) as [->|]; [lia|auto].
  - destruct (top_coeff t Et) as (a & Ia & Ta & Ma). pose proof (inrange_length _ _ Ia) as La.
    destruct (adj_peak power mon a dim Lm ltac:(lia)) as (c & Hc & Pa & Pz).
    assert (Ir : inrange (shp r) (addShape a mon)).
    { unfold inrange. clear - Ia Sr Nr Nt Lm La. assert (L : length a = length (shp t)) by lia.
      assert (G : forall (l s : list nat), length l = length s -> (forall j, (j < length s)%nat -> (nth j l 0 < nth j s 0)%nat) -> Forall2 lt l s).
      { induction l as [|x l IH]; intros [|y s] Ls H; try discriminate; constructor; [apply (H 0%nat); cbn; lia|]. apply IH; [cbn in Ls; lia|]. intros j Hj. apply (H (S j)). cbn; lia. }
      apply G; [rewrite addShape_length; lia|]. intros j Hj. rewrite addShape_nth by lia. rewrite Sr. pose proof (inrange_nth _ _ j Ia ltac:(lia)). lia. }
    exists (addShape a mon). split; auto. rewrite Dl by auto. rewrite A. rewrite (sumidx_one _ _ a Ia).
    + cbv zeta in Pa. rewrite Pa. intros E. apply Rmult_integral in E. tauto.
    + intros i Ii Hne. pose proof (inrange_length _ _ Ii) as Li. destruct (le_lt_dec (list_sum i) (list_sum a)) as [L|L]; [cbv zeta in Pz; rewrite Pz by (auto; lia); ring|rewrite Ma by auto; ring].
  - intros f Hf z Lz. rewrite (A (fun idx => f (monAt power idx z))). cbn [fst snd]. fold t.
    pose proof (polyAt_lin (fun a => f (monAt power mon z * a)%C) power t z (linR_mul f _ Hf)) as Q. cbv beta in Q. rewrite Q.
    apply sumidx_ext. intros i Ii. pose proof (inrange_length _ _ Ii) as Li. rewrite adj_mon by (auto; lia). reflexivity.
Qed.
Lemma addShape_zeros idx n : length idx = n -> addShape idx (repeat 0%nat n) = idx.
Proof. intros <-. induction idx; cbn; [auto|]. rewrite IHidx. f_equal. lia. Qed.
Lemma op_zero n d W : forall idx, length idx = n -> op d 0 W idx = W idx.
Proof. intros idx L. unfold op, dist. rewrite Nat.add_0_r, Nat.sub_0_r. cbn [Nat.sub]. rewrite Nat.add_0_r, upd_nth. field. Qed.
Lemma adj_zero power n W idx : length idx = n -> adjOf power (repeat 0%nat n) W idx = W idx.
Proof.
  intros L. destruct power; cbn [adjOf]; [rewrite addShape_zeros; auto|]. generalize (length (repeat 0%nat n)) as i. intros i. revert W. induction i; intros W; cbn [opUpTo]; auto.
  rewrite (opUpTo_ext n _ i _ W); auto. intros j Lj. rewrite nth_repeat. apply (op_zero n); auto.
Qed.
Lemma enum_head dim d : (1 <= dim)%nat -> enum leafLe dim d = repeat 0%nat dim :: tl (enum leafLe dim d).
Proof.
  intros H. pose proof (enum_sorted leafLe leafLe_sorted dim d) as S.
  assert (I : In (repeat 0%nat dim) (enum leafLe dim d)) by (apply enumLe_In; auto; rewrite repeat_length, sum_repeat; lia).
  destruct (enum leafLe dim d) as [|u l]; [destruct I|]. cbn [tl]. f_equal. destruct I as [->|I]; auto. exfalso. inversion S as [|? ? _ F]; subst. rewrite Forall_forall in F. specialize (F _ I).
  clear - F. revert u F. induction dim; intros [|a u] F; cbn in F; auto. destruct F as [F|[_ F]]; [lia|eauto].
Qed.
Lemma add_polys_spec power dim degree p : (1 <= dim)%nat -> polyOK dim degree p ->
  exists rs, @add_polys R R_num true power degree p = Some rs /\ Forall2 (isMult power dim degree) (labelsOf dim degree p) rs.
Proof.
  intros Hd OK. pose proof OK as ((D1 & D2) & Wt & Nt & St & Zt & Et). unfold add_polys. rewrite Nt, mon_combos_zeros by auto. unfold labelsOf.
  assert (G : forall mons, (forall mon, In mon mons -> length mon = dim /\ (list_sum mon <= degree - mpDegree p)%nat) ->
    exists rs, arrays (map (fun mon => @mon_mult2 R R_num true (mpCoeff p) mon power) mons) = Some rs /\ Forall2 (isMult power dim degree) (map (pair p) mons) rs).
  { induction mons as [|mon mons IH]; intros H; [exists []; split; [reflexivity|constructor]|].
    destruct (H mon (or_introl eq_refl)) as [Lm Sm]. destruct (IH ltac:(intros; apply H; right; auto)) as (rs & E & F).
    destruct (mult_spec power (mpCoeff p) mon Wt ltac:(lia)) as (r & Er & Wr & Nr & Sr & A). cbn [map arrays]. rewrite Er, E. cbn [option_map].
    exists (r :: rs). split; auto. constructor; auto. apply isMult_of; auto; lia. }
  pose proof (enum_head dim (degree - mpDegree p) Hd) as Eh.
  assert (Hall : forall mon, In mon (enum leafLe dim (degree - mpDegree p)) -> length mon = dim /\ (list_sum mon <= degree - mpDegree p)%nat) by (intros mon Hm; apply enumLe_In in Hm; auto).
  rewrite Eh in Hall |- *. cbn [tl]. destruct (G (tl (enum leafLe dim (degree - mpDegree p)))) as (rs & E & F); [intros; apply Hall; right; auto|].
  rewrite E. cbn [option_map]. exists (mpCoeff p :: rs). split; auto. cbn [map]. constructor; auto.
  apply isMult_of; auto; [apply repeat_length|rewrite sum_repeat; lia|intros j; rewrite nth_repeat; lia|].
  intros W. apply sumidx_ext. intros i Hi. apply inrange_length in Hi. rewrite adj_zero; auto. unfold ndim in Nt. lia.
Qed.
Lemma add_all_spec power dim degree ps : (1 <= dim)%nat -> (forall p, In p ps -> polyOK dim degree p) ->
  exists rs, @add_all R R_num true power degree ps = Some rs /\ Forall2 (isMult power dim degree) (flat_map (labelsOf dim degree) ps) rs.
Proof.
  intros Hd. induction ps as [|p ps IH]; intros H; [exists []; split; [reflexivity|constructor]|].
  destruct (add_polys_spec power dim degree p Hd (H p (or_introl eq_refl))) as (r1 & E1 & F1).
  destruct (IH ltac:(intros; apply H; right; auto)) as (r2 & E2 & F2). exists (r1 ++ r2). cbn [add_all flat_map]. rewrite E1, E2. split; auto. apply Forall2_app; auto.
Qed.

(** what is true of a row *)
Definition rowOf (power : bool) (dim : nat) (terms : list (list nat)) (lab : label) (row : list R) : Prop :=
  length row = length terms /\
  forall z, length z = dim -> csum (length terms) (fun j => RtoC (nth j row 0%R) * monAt power (nth j terms []) z)%C = (monAt power (snd lab) z * polyAt power (mpCoeff (fst lab)) z)%C.
Lemma csum_csumL {A} (l : list A) d (f : A -> C) : csum (length l) (fun j => f (nth j l d)) = csumL (map f l).
Proof. induction l; auto. cbn [length]. rewrite csum_first. cbn [nth map csumL fold_right]. f_equal. apply IHl. Qed.
Lemma flatRow_spec power dim degree terms lab r : NoDup terms -> (forall v, In v terms <-> length v = dim /\ (list_sum v <= degree)%nat) ->
  isMult power dim degree lab r -> rowOf power dim terms lab (@flatRow R R_num degree dim terms r) /\ ~ Forall (fun v => v = 0) (@flatRow R R_num degree dim terms r).
Proof.
  intros Nt It (Fr & (a & Ia & Ta) & V). unfold flatRow. split; [split; [apply map_length|]|].
  - intros z Lz. set (g := fun v => tget (@pad R R_num (repeat (degree + 1)%nat dim) r) v).
    rewrite (csum_ext _ _ (fun j => (fun v => RtoC (g v) * monAt power v z)%C (nth j terms []))).
    2:{ intros j Hj. f_equal. f_equal. rewrite (nth_indep _ 0%R (g [])) by (rewrite map_length; auto). apply map_nth. }
    rewrite (csum_csumL terms [] (fun v => RtoC (g v) * monAt power v z)%C).
    assert (G : forall f, linR f -> f (csumL (map (fun v => RtoC (g v) * monAt power v z)%C terms)) = f (monAt power (snd lab) z * polyAt power (mpCoeff (fst lab)) z)%C).
    { intros f Hf. rewrite (linR_csumL f) by auto. rewrite <- (V f Hf z Lz). unfold g. apply (row_sum dim degree terms r (fun v => f (monAt power v z))); auto. }
    apply C_ext; apply G; [apply linR_Re|apply linR_Im].
  - intros F. rewrite Forall_map, Forall_forall in F. destruct Fr as (Nr & Sr & Zr). pose proof (inrange_length _ _ Ia) as La. unfold ndim in Nr.
    assert (Ha : In a terms). { apply It. split; [lia|]. destruct (le_lt_dec (list_sum a) degree); auto. exfalso. apply Ta. apply Zr; auto. }
    specialize (F a Ha). cbn beta in F. unfold pad in F. rewrite tget_tbuild in F by (apply It in Ha; apply inrange_of; tauto). rewrite inrangeb_true in F by auto. tauto.
Qed.
Lemma Forall2_perm {A B} (P : A -> B -> Prop) l l' : Permutation l l' -> forall a, Forall2 P a l -> exists a', Permutation a a' /\ Forall2 P a' l'.
Proof.
  induction 1 as [|x l l' H IH|x y l|l1 l2 l3 H1 IH1 H2 IH2]; intros a F.
  - inversion F; subst. exists []. split; constructor.
  - inversion F as [|u ? a0 ? Px F']; subst. destruct (IH _ F') as (a' & Pa & F2). exists (u :: a'). split; constructor; auto.
  - inversion F as [|u ? a0 ? Px F']; subst. inversion F' as [|v ? a1 ? Py F'']; subst. exists (v :: u :: a1). split; [apply perm_swap|]. constructor; auto.
  - destruct (IH1 _ F) as (a' & P1 & F1). destruct (IH2 _ F1) as (a'' & P2 & F2). exists a''. split; auto. eapply Permutation_trans; eauto.
Qed.
(** the whole matrix *)
Lemma build_spec power argsort (polys : list (mpoly R)) dim : argsort_ok argsort -> polys <> [] -> (1 <= dim)%nat ->
  let D := find_degree polys in (forall p, In p polys -> polyOK dim D p) ->
  exists rows terms cut labels, @build_macaulay R R_num true power argsort polys = Some (rows, terms, cut) /\ sorted_matrix_terms D dim = Some (terms, cut) /\
    Permutation (flat_map (labelsOf dim D) polys) labels /\ Forall2 (rowOf power dim terms) labels rows.
Proof.
  intros Ha Hne Hd D OK. destruct polys as [|p0 ps]; [congruence|]. unfold build_macaulay. cbv zeta. fold D.
  destruct (add_all_spec power dim D (p0 :: ps) Hd OK) as (rs & E & F). rewrite E.
  assert (N0 : ndim (mpCoeff p0) = dim) by (apply (OK p0); left; auto). rewrite N0. unfold create_matrix.
  assert (D1 : (1 <= D)%nat) by (destruct (OK p0 (or_introl eq_refl)) as [H _]; lia).
  destruct (terms_spec D dim Hd D1) as (terms & cut & Et & Nt & It & _). rewrite Et.
  assert (Fit : forallb (fitsIn D) rs = true).
  { apply forallb_forall. intros r Hr. unfold fitsIn. apply forallb_forall. intros s Hs. apply Nat.leb_le.
    clear - F Hr Hs. induction F as [|lab r' labs rs' M F IH]; [destruct Hr|]. destruct Hr as [->|Hr]; auto. destruct M as ((_ & H & _) & _). rewrite Forall_forall in H. auto. }
  rewrite Fit. pose proof (C98_row_swap_sorts_the_rows argsort (map (@flatRow R R_num D dim terms) rs) Ha) as H.
  assert (F' : Forall2 (fun lab row => rowOf power dim terms lab row /\ ~ Forall (fun v => v = 0) row) (flat_map (labelsOf dim D) (p0 :: ps)) (map (@flatRow R R_num D dim terms) rs)).
  { clear - F Nt It. induction F; cbn [map]; constructor; auto. apply flatRow_spec; auto. }
  destruct (row_swap argsort (map (flatRow D dim terms) rs)) as [rows|].
  - destruct H as (P & _). destruct (Forall2_perm _ _ _ (Permutation_sym P) _ F') as (labels & Pl & Fl).
    exists rows, terms, cut, labels. split; auto. split; auto. split; auto. clear - Fl. induction Fl; constructor; tauto.
  - exfalso. destruct H as (r & Hr & Z). clear - F' Hr Z. induction F' as [|? ? ? ? [_ M] F' IH]; [destruct Hr|]. destruct Hr as [->|Hr]; auto.
Qed.
