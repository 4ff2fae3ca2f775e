(** * More properties of M_maker (C88) *)
From Coq Require Import Reals List Lia Lra Arith ZArith Bool.
From Verif Require Import Num Tensor RSum Cheb PolySpec LinearModel LinearProofs CombinedModel CombinedSpec ApproxModel ApproxDct ApproxInterp ApproxPoly ApproxDegree MakerModel MakerProofs MakerRun MakerProps.
From Verif Require PolyModel PolyArith.
Import ListNotations.
Local Open Scope R_scope.

(** ** stored values *)
(** the stores after a sequence of requests; a request that raises leaves them as they were *)
Definition afterRequests {T} {NT : Num T} (cosn : nat -> nat -> T) junk f a b (requests : list (list nat)) : @store T :=
  fold_left (fun st degs => match approximate cosn junk f a b degs st with MOk (_, _, st') => st' | _ => st end) requests (mkStore [] []).
Definition answer {T} (x : mres (tensor T * T * @store T)) : mres (tensor T * T) := mbind x (fun '(c, n, _) => MOk (c, n)).
Definition keysOK {T} {NT : Num T} (f : fobj T) (st : @store T) : Prop :=
  forall k v, dget k (fftd st) = Some v -> gridOK f k /\ existsb (Nat.eqb 0) k = false.
Lemma valuesBlock_none {T} {NT : Num T} cosn (f : fobj T) a b degs m : valuesBlock cosn f degs a b m = None <-> ~ gridOK f degs.
Proof.
  split.
  - intros H G. destruct (valuesBlock_some cosn f a b degs m G) as [vb E]. congruence.
  - unfold gridOK, valuesBlock. intros H. destruct f; try (exfalso; apply H; exact I); destruct (forallb _ degs); auto; exfalso; apply H; reflexivity.
Qed.
Lemma approximate_any {T} {NT : Num T} cosn junk (f : fobj T) a b : (forall m d, cosn (2 * m)%nat (2 * d)%nat = cosn m d) ->
  forall degs st, goodStore cosn junk f a b st -> keysOK f st ->
  (gridOK f degs /\ existsb (Nat.eqb 0) degs = false /\ exists st', approximate cosn junk f a b degs st = MOk (freshCoeffs cosn junk f a b degs, freshNorm cosn junk f a b degs, st') /\
      goodStore cosn junk f a b st' /\ keysOK f st') \/
  (gridOK f degs /\ existsb (Nat.eqb 0) degs = true /\ approximate cosn junk f a b degs st = MEmptyMax) \/
  (~ gridOK f degs /\ approximate cosn junk f a b degs st = MStack).
Proof.
  intros Hc degs st HG HK.
  assert (OKcase : forall r, approximate cosn junk f a b degs st = MOk r -> gridOK f degs /\ existsb (Nat.eqb 0) degs = false /\ exists st', approximate cosn junk f a b degs st = MOk (freshCoeffs cosn junk f a b degs, freshNorm cosn junk f a b degs, st') /\
      goodStore cosn junk f a b st' /\ keysOK f st').
  { intros [[c n] st'] E. destruct (approximate_ok cosn junk Hc f a b degs st c n st' HG E) as (-> & -> & G). 
    unfold approximate in E. destruct (dget degs (fftd st)) as [[c0 n0']|] eqn:E1.
    - destruct (HK _ _ E1) as [K1 K2]. split; auto. split; auto. exists st'. unfold approximate. rewrite E1, E. split; auto. split; auto. injection E as _ _ <-. auto.
    - destruct (valuesBlock cosn f degs a b (memo st)) eqn:E2; [|discriminate]. destruct (existsb (Nat.eqb 0) degs) eqn:E3; [discriminate|].
      assert (K1 : gridOK f degs).
      { unfold gridOK. destruct f; auto; unfold valuesBlock in E2; destruct (forallb _ degs); auto; discriminate. }
      split; auto. split; auto. exists st'. unfold approximate. rewrite E1, E2, E3, E. split; auto. split; auto. injection E as _ _ <-. intros k v. cbn [fftd]. rewrite dget_dput.
      destruct (keyEqb k degs) eqn:E4; [|apply HK]. apply keyEqb_true in E4. subst. auto. }
  destruct (approximate cosn junk f a b degs st) as [r| | | | |] eqn:E; [left; apply (OKcase r); auto| | | | |]; right; unfold approximate in E; destruct (dget degs (fftd st)) as [[c0 n0']|]; try discriminate;
    destruct (valuesBlock cosn f degs a b (memo st)) eqn:E2; try discriminate; try (destruct (existsb (Nat.eqb 0) degs) eqn:E3; try discriminate).
  - left. split; auto. unfold gridOK. destruct f; auto; unfold valuesBlock in E2; destruct (forallb _ degs); auto; discriminate.
  - right. apply valuesBlock_none in E2. auto.
  - right. apply valuesBlock_none in E2. auto.
Qed.
Lemma after_good {T} {NT : Num T} cosn junk (f : fobj T) a b : (forall m d, cosn (2 * m)%nat (2 * d)%nat = cosn m d) ->
  forall requests, goodStore cosn junk f a b (afterRequests cosn junk f a b requests) /\ keysOK f (afterRequests cosn junk f a b requests).
Proof.
  intros Hc. unfold afterRequests.
  assert (G : forall l st, goodStore cosn junk f a b st -> keysOK f st ->
     let st' := fold_left (fun st degs => match approximate cosn junk f a b degs st with MOk (_, _, st') => st' | _ => st end) l st in goodStore cosn junk f a b st' /\ keysOK f st').
  { induction l as [|d l IH]; intros st HG HK; cbn [fold_left]; auto. 
    destruct (approximate_any cosn junk f a b Hc d st HG HK) as [(_ & _ & st' & E & G' & K')|[(_ & _ & E)|(_ & E)]]; rewrite E; auto. }
  intros requests. apply G; [apply good_empty|intros k v H; discriminate].
Qed.
(** Whatever was approximated before, a request gets the answer it would get first. *)
Theorem C88_stored_values_change_nothing : forall (T : Type) (NT : Num T) (cosn : nat -> nat -> T) junk f a b,
  (forall m d, cosn (2 * m)%nat (2 * d)%nat = cosn m d) ->
  forall requests degs, answer (approximate cosn junk f a b degs (afterRequests cosn junk f a b requests)) = answer (approximate cosn junk f a b degs (mkStore [] [])).
Proof.
  intros T NT cosn junk f a b Hc requests degs. destruct (after_good cosn junk f a b Hc requests) as [HG HK].
  assert (HK0 : keysOK f (@mkStore T [] [])) by (intros k v H; discriminate).
  destruct (approximate_any cosn junk f a b Hc degs _ HG HK) as [(A1 & A2 & st' & E & _)|[(A1 & A2 & E)|(A1 & E)]];
  destruct (approximate_any cosn junk f a b Hc degs _ (good_empty _ _ _ _ _) HK0) as [(B1 & B2 & st'' & F & _)|[(B1 & B2 & F)|(B1 & F)]]; rewrite E, F; try reflexivity; try contradiction; congruence.
Qed.
Print Assumptions C88_stored_values_change_nothing.
Example C88_stored_case : forall m d, cosR (2 * m) (2 * d) = cosR m d.
Proof. exact cosR_double. Qed.

(** ** the search stops at the first guess when the two approximations agree *)
Lemma gridOK_repeat {T} (f : fobj T) g n : gridOK f (repeat g n).
Proof.
  assert (X : forallb (Nat.eqb (hd 0%nat (repeat g n))) (repeat g n) = true).
  { destruct n; [reflexivity|]. cbn [repeat hd]. change (g :: repeat g n) with (repeat g (S n)). generalize (S n). intros m. induction m; cbn [repeat forallb]; auto. rewrite Nat.eqb_refl, IHm. reflexivity. }
  unfold gridOK. destruct f; auto.
Qed.
Lemma repeat_pos g n : (1 <= g)%nat -> pos (repeat g n).
Proof. intros H. apply Forall_forall. intros x Hx. apply repeat_spec in Hx. lia. Qed.
Lemma double_repeat g n : double (repeat g n) = repeat (2 * g)%nat n.
Proof. unfold double. induction n; simpl; auto. f_equal; auto. Qed.
Lemma nozero D : pos D -> existsb (Nat.eqb 0) D = false.
Proof. induction 1 as [|x l Hx Hl IH]; cbn [existsb]; auto. rewrite IH. destruct x; [lia|reflexivity]. Qed.
Lemma interpolant_ext g g' a b D N : (forall y, gridNode D y -> g (boxPoint a b y) = g' (boxPoint a b y)) -> interpolant g a b D N -> interpolant g' a b D N.
Proof. intros H (W & S & E). split; auto. split; auto. intros y Hy. rewrite E, H; auto. Qed.
Lemma gridMax_unique g a b D m m' : gridMax g a b D m -> gridMax g a b D m' -> m = m'.
Proof. intros [U (y & Hy & E)] [U' (y' & Hy' & E')]. specialize (U y' Hy'). specialize (U' y Hy). lra. Qed.
(** the state after the first attempt, on any object *)
Definition firstStore junk f a b (g n : nat) : @store R :=
  let D := repeat g n in let D2 := repeat (2 * g)%nat n in
  mkStore [(D, freshBlock cosR f a b D); (D2, freshBlock cosR f a b D2)]
          [(D, (freshCoeffs cosR junk f a b D, freshNorm cosR junk f a b D)); (D2, (freshCoeffs cosR junk f a b D2, freshNorm cosR junk f a b D2))].
Lemma first_keys g n : (1 <= g)%nat -> (1 <= n)%nat -> keyEqb (repeat (2 * g)%nat n) (repeat g n) = false.
Proof.
  intros Hg Hn. apply not_true_is_false. intros H. apply keyEqb_true in H. destruct n as [|n]; [lia|]. apply (f_equal (hd 0%nat)) in H. cbn [repeat hd] in H. lia.
Qed.
(** one request that has not been answered before *)
Lemma approximate_new junk (f : fobj R) a b D st : goodStore cosR junk f a b st -> gridOK f D -> pos D -> dget D (fftd st) = None ->
  approximate cosR junk f a b D st = MOk (freshCoeffs cosR junk f a b D, freshNorm cosR junk f a b D,
    mkStore (dput D (freshBlock cosR f a b D) (memo st)) (dput D (freshCoeffs cosR junk f a b D, freshNorm cosR junk f a b D) (fftd st))).
Proof.
  intros [Hm Hf] HG HD E. unfold approximate. rewrite E. destruct (valuesBlock_some cosR f a b D (memo st) HG) as [vb Ev]. rewrite Ev.
  apply (valuesBlock_ok cosR cosR_double f a b D (memo st) vb Hm) in Ev. subst vb. rewrite nozero by auto. reflexivity.
Qed.
Lemma firstStore_good junk f a b g n : goodStore cosR junk f a b (firstStore junk f a b g n).
Proof.
  split; intros k v; unfold firstStore; cbn [memo fftd dget]; destruct (keyEqb k (repeat g n)) eqn:E1;
    try (destruct (keyEqb k (repeat (2 * g)%nat n)) eqn:E2); intros H; try discriminate; first [apply keyEqb_true in E1; subst k|apply keyEqb_true in E2; subst k]; congruence.
Qed.
Lemma attempt_first junk (f : fobj R) a b g n : (1 <= g)%nat -> (1 <= n)%nat ->
  attempt cosR junk f a b (repeat g n) (mkStore [] []) =
  MOk (mkA (freshCoeffs cosR junk f a b (repeat g n)) (freshNorm cosR junk f a b (repeat g n)) (freshCoeffs cosR junk f a b (repeat (2 * g)%nat n))
        (get_err (freshCoeffs cosR junk f a b (repeat g n)) (freshCoeffs cosR junk f a b (repeat (2 * g)%nat n))) (repeat g n), firstStore junk f a b g n).
Proof.
  intros Hg Hn. unfold attempt. rewrite approximate_new by (auto using good_empty, gridOK_repeat, repeat_pos). cbn [mbind dput memo fftd]. rewrite double_repeat.
  rewrite approximate_new.
  - cbn [mbind dput memo fftd]. rewrite first_keys by auto. reflexivity.
  - split; intros k v; cbn [memo fftd dget]; destruct (keyEqb k (repeat g n)) eqn:E1; intros H; try discriminate; apply keyEqb_true in E1; subst k; congruence.
  - apply gridOK_repeat.
  - apply repeat_pos. lia.
  - cbn [fftd dget]. rewrite first_keys by auto. reflexivity.
Qed.
Lemma caps g n m : map (fun d => if (m <? d)%nat then m else d) (repeat g n) = repeat (Nat.min g m) n.
Proof. induction n; simpl; auto. rewrite IHn. f_equal. destruct (Nat.ltb_spec m g); lia. Qed.
Lemma repeat_lt g n m : (1 <= n)%nat -> existsb (fun d => (d <? m)%nat) (repeat g n) = (g <? m)%nat.
Proof.
  induction n as [|[|n] IH]; intros Hn; [lia| |].
  - cbn. apply orb_false_r.
  - change (repeat g (S (S n))) with (g :: repeat g (S n)). cbn [existsb]. rewrite IH by lia. apply orb_diag.
Qed.
Lemma F2_length {A B} (P : A -> B -> Prop) l m : Forall2 P l m -> length l = length m.
Proof. induction 1; simpl; auto. Qed.
Lemma map_rep {A B} (h : A -> B) x n : map h (repeat x n) = repeat (h x) n.
Proof. induction n; simpl; auto. f_equal; auto. Qed.
(** f is a function or a polynomial object *)
Definition objectIn (n : nat) (f : fobj R) : Prop := (exists g, f = Plain g) \/ polyObject n f.
Lemma object_value n f a b D N : objectIn n f -> length a = n -> length b = n -> length D = n -> interpolant (valueOf f) a b D N <-> interpolant (callAt f) a b D N.
Proof.
  intros HO Ha Hb HD. assert (E : forall y, gridNode D y -> callAt f (boxPoint a b y) = valueOf f (boxPoint a b y)).
  { intros y (j & Hj & ->). destruct HO as [(g & ->)|HO]; [reflexivity|]. apply (callAt_value n); auto.
    unfold boxPoint. rewrite map_length, !combine_length, map_length, combine_length. apply F2_length in Hj. lia. }
  split; apply interpolant_ext; intros y Hy; rewrite E; auto.
Qed.
Lemma object_max n f a b D m : objectIn n f -> length a = n -> length b = n -> length D = n -> gridMax (valueOf f) a b D m -> gridMax (callAt f) a b D m.
Proof.
  intros HO Ha Hb HD. assert (E : forall y, gridNode D y -> callAt f (boxPoint a b y) = valueOf f (boxPoint a b y)).
  { intros y (j & Hj & ->). destruct HO as [(g & ->)|HO]; [reflexivity|]. apply (callAt_value n); auto.
    unfold boxPoint. rewrite map_length, !combine_length, map_length, combine_length. apply F2_length in Hj. lia. }
  intros [U (y & Hy & Ey)]. split; [intros z Hz; rewrite E by auto; auto|exists y; split; auto; rewrite E by auto; auto].
Qed.
(** V holds the values of g at the grid with degrees D *)
Definition gridBlock (g : list R -> R) (a b : list R) (D : list nat) (V : tensor R) : Prop :=
  wf V /\ shp V = map S D /\ forall j, Forall2 (fun j d => (j <= d)%nat) j D ->
    tget V j = g (boxPoint a b (map (fun p => cos (INR (fst p) * PI / INR (snd p))) (combine j D))).
Lemma fresh_block f a b D : gridBlock (callAt f) a b D (freshBlock cosR f a b D).
Proof.
  split; [|split; [reflexivity|]].
  - apply wf_tbuild. apply Forall_forall. intros x Hx. apply in_map_iff in Hx. destruct Hx as (d & <- & _). lia.
  - intros j Hj. unfold freshBlock, gridValues. rewrite tget_tbuild; [rewrite gridPoint_box; reflexivity|].
    clear -Hj. induction Hj; cbn [map]; constructor; auto. lia.
Qed.
Theorem C88_stops_at_once_when_the_guess_is_good : forall junk f a b guess edit rel N N2 norm,
  let n := length a in (1 <= n <= 10)%nat -> length b = n -> (1 <= guess)%nat -> objectIn n f ->
  interpolant (valueOf f) a b (repeat guess n) N -> interpolant (valueOf f) a b (repeat (2 * guess)%nat n) N2 -> gridMax (valueOf f) a b (repeat guess n) norm ->
  difference N2 N < insignificant rel norm N2 N \/ (limit n edit <= guess)%nat ->
  forall fuel, exists resc vals, gridBlock (valueOf f) a b (repeat guess n) vals /\
    m_maker cosR junk (S fuel) f a b guess edit rel =
    MOk (mkM N norm N2 (difference N2 N) (repeat (Nat.min guess (limit n edit)) n) resc (Some vals)).
Proof.
  intros junk f a b guess edit rel N N2 norm n Hn Hb Hg HO HN HN2 Hnorm Hst fuel.
  assert (HN' : interpolant (callAt f) a b (repeat guess n) N) by (apply (object_value n) in HN; auto using repeat_length).
  assert (HN2' : interpolant (callAt f) a b (repeat (2 * guess)%nat n) N2) by (apply (object_value n) in HN2; auto using repeat_length).
  apply (object_max n) in Hnorm; auto using repeat_length.
  assert (EN : freshCoeffs cosR junk f a b (repeat guess n) = N) by (apply (interpolant_unique (callAt f) a b (repeat guess n)); auto using repeat_pos, fresh_interpolant).
  assert (EN2 : freshCoeffs cosR junk f a b (repeat (2 * guess)%nat n) = N2).
  { assert (P2 : pos (repeat (2 * guess)%nat n)) by (apply repeat_pos; lia). apply (interpolant_unique (callAt f) a b (repeat (2 * guess)%nat n)); auto using fresh_interpolant. }
  assert (EM : freshNorm cosR junk f a b (repeat guess n) = norm) by (apply (gridMax_unique (callAt f) a b (repeat guess n)); auto using fresh_norm, repeat_pos).
  assert (EE : @get_err R R_num N N2 = difference N2 N).
  { apply get_err_difference; [|apply (shapes_of (callAt f) a b (repeat (2 * guess)%nat n)); auto].
    rewrite (proj1 (shapes_of _ _ _ _ _ HN')), (proj1 (shapes_of _ _ _ _ _ HN2')), !repeat_length. reflexivity. }
  destruct (maxDegOf_limit n edit Hn) as (m & Em & EL). fold n in Em.
  eexists. exists (freshBlock cosR f a b (repeat guess n)). split.
  { destruct (fresh_block f a b (repeat guess n)) as (W & S & V). split; auto. split; auto. intros j Hj. rewrite V by auto. symmetry.
    destruct HO as [(g & ->)|HO]; [reflexivity|]. symmetry. apply (callAt_value n); auto.
    unfold boxPoint. rewrite map_length, !combine_length, map_length, combine_length. apply F2_length in Hj. rewrite repeat_length in Hj. rewrite repeat_length. lia. }
  unfold m_maker. fold n. rewrite Hb, Nat.eqb_refl. cbn [negb]. rewrite Em, EL. unfold find_good_approx. rewrite attempt_first by (auto; lia).
  cbn [mbind aDegs aM aM2 aNorm aErr]. rewrite caps, EN, EN2, EM, EE. cbn [goodLoop aDegs aM aM2 aNorm aErr]. rewrite repeat_lt by lia.
  assert (X : (if (Nat.min guess (limit n edit) <? limit n edit)%nat then @error_test R R_num rel N N2 norm (difference N2 N) else true) = true).
  { destruct (Nat.ltb_spec (Nat.min guess (limit n edit)) (limit n edit)); auto. destruct Hst as [Hst|Hst]; [|lia]. unfold error_test. apply Rltb_true. rewrite threshold_R. exact Hst. }
  destruct (Nat.min guess (limit n edit) <? limit n edit)%nat; [rewrite X|]; cbn [mbind aDegs aM aM2 aNorm aErr]; reflexivity.
Qed.
Print Assumptions C88_stops_at_once_when_the_guess_is_good.

(** ** polynomials *)
Definition padTo (D : list nat) (P : tensor R) : tensor R := tbuild (map S D) (coefAt P).
Lemma outside s idx : length idx = length s -> forallb (fun p => (fst p <? snd p)%nat) (combine idx s) = PolyModel.inrangeb s idx.
Proof. intros. symmetry. apply inrangeb_forallb; auto. Qed.
Lemma padTo_eval D P y : Forall2 (fun s d => (s <= S d)%nat) (shp P) D -> cheb_eval (padTo D P) y = cheb_eval P y.
Proof.
  intros HS. rewrite !cheb_eval_sumidx. cbn [shp padTo tbuild].
  rewrite (sumidx_ext _ _ (fun idx => if PolyModel.inrangeb (shp P) idx then tget P idx * basis chebT idx y else 0)).
  - apply PolyArith.sumidx_pad. clear -HS. induction HS; cbn [map]; constructor; auto.
  - intros idx Hi. unfold padTo. rewrite tget_tbuild by auto. unfold coefAt. rewrite outside.
    + destruct (PolyModel.inrangeb (shp P) idx); ring.
    + apply inrange_length in Hi. rewrite map_length in Hi. apply F2_length in HS. lia.
Qed.
Lemma padTo_wf D P : wf (padTo D P).
Proof. apply wf_tbuild. apply Forall_forall. intros x Hx. apply in_map_iff in Hx. destruct Hx as (d & <- & _). lia. Qed.
Lemma padTo_coef D P idx : Forall2 (fun s d => (s <= S d)%nat) (shp P) D -> length idx = length D -> coefAt (padTo D P) idx = coefAt P idx.
Proof.
  intros HS HL. pose proof (F2_length _ _ _ HS) as HL2. unfold coefAt at 1. cbn [shp padTo tbuild]. rewrite outside by (rewrite map_length; auto).
  destruct (PolyModel.inrangeb (map S D) idx) eqn:E.
  - apply PolyArith.inrangeb_spec in E. unfold padTo. rewrite tget_tbuild; auto.
  - unfold coefAt. rewrite outside by lia. destruct (PolyModel.inrangeb (shp P) idx) eqn:E2; auto. exfalso.
    apply PolyArith.inrangeb_spec in E2. apply not_true_iff_false in E. apply E, PolyArith.inrangeb_spec. clear -HS E2. revert idx E2. induction HS; intros idx E2; inversion E2; subst; cbn [map]; constructor; auto; [lia|apply IHHS; auto].
Qed.
Theorem C88_polynomials_are_recovered : forall junk f a b guess edit rel (P : tensor R),
  let n := length a in (1 <= n <= 10)%nat -> length b = n -> (1 <= guess)%nat -> objectIn n f -> 0 < rel ->
  ndim P = n -> Forall (fun s => (s <= S guess)%nat) (shp P) -> (forall y, in_cube n y -> valueOf f (boxPoint a b y) = cheb_eval P y) ->
  forall fuel, exists r, m_maker cosR junk (S fuel) f a b guess edit rel = MOk r /\
    (forall y, length y = n -> cheb_eval (mM r) y = cheb_eval P y) /\ mErr r = 0 /\ shp (mM r) = repeat (S guess) n.
Proof.
  intros junk f a b guess edit rel P n Hn Hb Hg HO Hr HP HS Hf fuel.
  assert (HF2 : forall m, (guess <= m)%nat -> Forall2 (fun s d => (s <= S d)%nat) (shp P) (repeat m n)).
  { intros m Hm. unfold ndim in HP. rewrite <- HP. clear -HS Hm. induction HS; cbn [length repeat]; constructor; auto. lia. }
  assert (HI : forall m, (guess <= m)%nat -> interpolant (valueOf f) a b (repeat m n) (padTo (repeat m n) P)).
  { intros m Hm. split; [apply padTo_wf|]. split; [reflexivity|]. intros y Hy. rewrite padTo_eval by auto. symmetry. apply Hf.
    apply gridNode_nodes in Hy. destruct Hy as (j & Hj & ->). pose proof (nodes_cube (repeat m n) j) as HN. rewrite repeat_length in HN. apply HN. apply inrange_length in Hj. rewrite map_length, repeat_length in Hj. auto. }
  assert (HD0 : difference (padTo (repeat (2 * guess)%nat n) P) (padTo (repeat guess n) P) = 0).
  { unfold difference. rewrite (sumidx_ext _ _ (fun _ => 0)); [apply sumidx_0|]. intros idx Hi. cbn [shp padTo tbuild] in Hi. apply inrange_length in Hi. rewrite map_length, repeat_length in Hi.
    rewrite !padTo_coef by (try apply HF2; try (rewrite repeat_length; auto); lia). rewrite Rminus_diag_eq by reflexivity. apply Rabs_R0. }
  assert (Hnorm : exists m, gridMax (valueOf f) a b (repeat guess n) m /\ 0 <= m).
  { pose proof (fresh_norm junk f a b (repeat guess n) (repeat_pos guess n Hg)) as [U (y & Hy & E)].
    assert (EV : forall y, gridNode (repeat guess n) y -> callAt f (boxPoint a b y) = valueOf f (boxPoint a b y)).
    { intros z (j & Hj & ->). destruct HO as [(g & ->)|HO]; [reflexivity|]. apply (callAt_value n); auto.
      unfold boxPoint. rewrite map_length, !combine_length, map_length, combine_length. apply F2_length in Hj. rewrite repeat_length in *. lia. }
    eexists. split; [split|].
    - intros z Hz. rewrite <- EV by auto. apply U. auto.
    - exists y. split; auto. rewrite <- EV by auto. exact E.
    - rewrite <- E. apply Rabs_pos. }
  destruct Hnorm as (m & Hm & Hm0).
  destruct (C88_stops_at_once_when_the_guess_is_good junk f a b guess edit rel (padTo (repeat guess n) P) (padTo (repeat (2 * guess)%nat n) P) m Hn Hb Hg HO) with (fuel := fuel) as (resc & vals & _ & E); auto.
  - apply HI. lia.
  - left. fold n. rewrite HD0. unfold insignificant. eapply Rlt_le_trans; [exact Hr|apply Rmax_l].
  - fold n in E. eexists. split; [exact E|]. cbn [mM mErr]. split; [|split; [exact HD0|cbn [shp padTo tbuild]; rewrite map_rep; reflexivity]].
    intros y Hy. apply padTo_eval. apply HF2. lia.
Qed.
Print Assumptions C88_polynomials_are_recovered.
Example C88_polynomial_case : objectIn 1 (Plain (fun x => nth 0 x 0)) /\ (forall y, in_cube 1 y -> valueOf (Plain (fun x => nth 0 x 0)) (boxPoint [0] [2] y) = cheb_eval (mkT [2%nat] [1; 1]) y).
Proof.
  split; [left; eauto|]. intros y [HL _]. destruct y as [|v [|]]; try discriminate. cbn [valueOf boxPoint map combine nth fst snd]. unfold cheb_eval. cbn. field.
Qed.

(** ** what the reported error means *)
(** It bounds the distance between the approximation and the one of twice the degrees, on the whole box. *)
Theorem C88_error_bounds_the_distance_of_the_two_approximations : forall g a b D r, describes g a b D r ->
  forall y, in_cube (length D) y -> Rabs (cheb_eval (mM2 r) y - cheb_eval (mM r) y) <= mErr r.
Proof.
  intros g a b D r (H1 & H2 & HE & _) y [HL HC]. rewrite HE. destruct H1 as (W1 & S1 & _). destruct H2 as (W2 & S2 & _).
  assert (HS : Forall2 (fun s d => (s <= S d)%nat) (shp (mM r)) (map (fun d => 2 * d)%nat D)) by (rewrite S1; clear; induction D; cbn [map]; constructor; auto; lia).
  rewrite <- (padTo_eval (map (fun d => 2 * d)%nat D) (mM r) y HS). rewrite !cheb_eval_sumidx. cbn [shp padTo tbuild]. rewrite <- S2.
  rewrite <- sumidx_minus. eapply Rle_trans; [apply sumidx_abs|]. unfold difference. apply sumidx_le. intros idx Hi.
  pose proof (inrange_length _ _ Hi) as HLi. rewrite S2, !map_length in HLi.
  rewrite (coefAt_in (mM2 r)) by auto.
  assert (E : tget (padTo (map (fun d => 2 * d)%nat D) (mM r)) idx = coefAt (mM r) idx) by (unfold padTo; apply tget_tbuild; rewrite <- S2; auto).
  rewrite E.
  rewrite <- Rmult_minus_distr_r, Rabs_mult. rewrite <- (Rmult_1_r (Rabs (tget (mM2 r) idx - coefAt (mM r) idx))) at 2.
  apply Rmult_le_compat_l; [apply Rabs_pos|]. apply chebasis_bound. auto.
Qed.
Print Assumptions C88_error_bounds_the_distance_of_the_two_approximations.
Example C88_distance_case : exists r, describes (fun _ => 1) [0] [2] [1%nat] r.
Proof.
  destruct (C88_returns_the_interpolant (fun _ => 0) (fun _ => 1) [0] [2] 1 (Some 1%nat) 0 ltac:(simpl; lia) eq_refl (le_n _)) as (k & r & D & _ & HL & HB & HD & _).
  exists r. destruct D as [|d [|]]; try discriminate. specialize (HB 0%nat ltac:(simpl; lia)). cbn in HB. replace d with 1%nat in HD by lia. exact HD.
Qed.
(** It does not bound the distance to the function: T_3 with first guess 1 gives the approximation x, error 0. *)
Lemma grid1 d y : gridNode [d] y -> exists j, (j <= d)%nat /\ y = [cos (INR j * PI / INR d)].
Proof. intros (j & Hj & ->). inversion Hj as [|j0 ? r ? H1 H2]; subst. inversion H2; subst. exists j0. split; auto. Qed.
Lemma cos_d1 j : (j <= 1)%nat -> cos (INR j * PI / INR 1) = 1 \/ cos (INR j * PI / INR 1) = -1.
Proof.
  intros H. destruct j as [|[|j]]; [left|right|lia].
  - replace (INR 0 * PI / INR 1) with 0 by (simpl; field). apply cos_0.
  - replace (INR 1 * PI / INR 1) with PI by (simpl; field). apply cos_PI.
Qed.
Lemma cos_d2 j : (j <= 2)%nat -> cos (INR j * PI / INR 2) = 1 \/ cos (INR j * PI / INR 2) = 0 \/ cos (INR j * PI / INR 2) = -1.
Proof.
  intros H. destruct j as [|[|[|j]]]; [left|right; left|right; right|lia].
  - replace (INR 0 * PI / INR 2) with 0 by (simpl; field). apply cos_0.
  - replace (INR 1 * PI / INR 2) with (PI / 2) by (simpl; field). apply cos_PI2.
  - replace (INR 2 * PI / INR 2) with PI by (simpl; field). apply cos_PI.
Qed.
Theorem C88_error_bounds_the_distance_to_the_function_refuted : forall junk edit rel fuel, 0 < rel ->
  exists r, m_maker cosR junk (S fuel) (Plain (fun x => 4 * nth 0 x 0 ^ 3 - 3 * nth 0 x 0)) [-1] [1] 1 edit rel = MOk r /\
    mErr r = 0 /\ (forall y, cheb_eval (mM r) [y] = y) /\ cheb_eval (mM r) [1 / 2] - (4 * (1 / 2) ^ 3 - 3 * (1 / 2)) = 3 / 2.
Proof.
  intros junk edit rel fuel Hr. set (g := fun x : list R => 4 * nth 0 x 0 ^ 3 - 3 * nth 0 x 0).
  assert (I1 : interpolant (valueOf (Plain g)) [-1] [1] [1%nat] (mkT [2%nat] [0; 1])).
  { split; [split; [reflexivity|repeat constructor]|]. split; [reflexivity|]. intros y Hy. apply grid1 in Hy. destruct Hy as (j & Hj & ->).
    unfold g, cheb_eval. cbn [valueOf boxPoint map combine nth fst snd indices shp flat_map seq app Rsum fold_right tget dat ravel_index prodn basis chebT Nat.mul Nat.add].
    destruct (cos_d1 j Hj) as [-> | ->]; cbn; lra. }
  assert (I2 : interpolant (valueOf (Plain g)) [-1] [1] [2%nat] (mkT [3%nat] [0; 1; 0])).
  { split; [split; [reflexivity|repeat constructor]|]. split; [reflexivity|]. intros y Hy. apply grid1 in Hy. destruct Hy as (j & Hj & ->).
    unfold g, cheb_eval. cbn [valueOf boxPoint map combine nth fst snd].
    destruct (cos_d2 j Hj) as [-> | [-> | ->]]; cbn; lra. }
  assert (GM : gridMax (valueOf (Plain g)) [-1] [1] [1%nat] 1).
  { split.
    - intros y Hy. apply grid1 in Hy. destruct Hy as (j & Hj & ->). unfold g. cbn [valueOf boxPoint map combine nth fst snd].
      destruct (cos_d1 j Hj) as [-> | ->]; unfold Rabs; destruct Rcase_abs; lra.
    - exists [cos (INR 0 * PI / INR 1)]. split; [exists [0%nat]; split; [repeat constructor|reflexivity]|]. replace (INR 0 * PI / INR 1) with 0 by (simpl; field). rewrite cos_0.
      unfold g. cbn [valueOf boxPoint map combine nth fst snd]. unfold Rabs; destruct Rcase_abs; lra. }
  assert (D0 : difference (mkT [3%nat] [0; 1; 0]) (mkT [2%nat] [0; 1]) = 0).
  { unfold difference, coefAt. cbn. replace (0 - 0) with 0 by ring. replace (1 - 1) with 0 by ring. rewrite Rabs_R0. ring. }
  destruct (C88_stops_at_once_when_the_guess_is_good junk (Plain g) [-1] [1] 1 edit rel _ _ 1 ltac:(simpl; lia) eq_refl (le_n _) (or_introl (ex_intro _ g eq_refl)) I1 I2 GM) with (fuel := fuel) as (resc & vals & _ & E).
  - left. rewrite D0. unfold insignificant. eapply Rlt_le_trans; [exact Hr|apply Rmax_l].
  - eexists. split; [exact E|]. cbn [mErr mM]. split; [exact D0|]. split; [intros y; unfold cheb_eval; cbn; ring|unfold cheb_eval; cbn; lra].
Qed.
Print Assumptions C88_error_bounds_the_distance_to_the_function_refuted.

(** ** the degrees it reports, for a first guess above the limit *)
Theorem C88_reported_degrees_refuted : forall junk f a b guess edit rel,
  let n := length a in (1 <= n <= 10)%nat -> length b = n -> (1 <= guess)%nat -> objectIn n f -> (limit n edit < guess)%nat ->
  forall fuel, exists r, m_maker cosR junk (S fuel) f a b guess edit rel = MOk r /\ mDegs r = repeat (limit n edit) n /\ shp (mM r) = repeat (S guess) n.
Proof.
  intros junk f a b guess edit rel n Hn Hb Hg HO Hl fuel.
  assert (P2 : pos (repeat (2 * guess)%nat n)) by (apply repeat_pos; lia). pose proof (repeat_pos guess n Hg) as P1.
  pose proof (fresh_interpolant junk f a b _ P1) as I1. pose proof (fresh_interpolant junk f a b _ P2) as I2. pose proof (fresh_norm junk f a b _ P1) as GM.
  assert (EV : forall y, gridNode (repeat guess n) y -> callAt f (boxPoint a b y) = valueOf f (boxPoint a b y)).
  { intros z (j & Hj & ->). destruct HO as [(g & ->)|HO]; [reflexivity|]. apply (callAt_value n); auto.
    unfold boxPoint. rewrite map_length, !combine_length, map_length, combine_length. apply F2_length in Hj. rewrite repeat_length in *. lia. }
  assert (GM' : gridMax (valueOf f) a b (repeat guess n) (freshNorm cosR junk f a b (repeat guess n))).
  { destruct GM as [U (y & Hy & E)]. split; [intros z Hz; rewrite <- EV by auto; auto|exists y; split; auto; rewrite <- EV by auto; auto]. }
  apply (object_value n) in I1; auto using repeat_length. apply (object_value n) in I2; auto using repeat_length.
  destruct (C88_stops_at_once_when_the_guess_is_good junk f a b guess edit rel _ _ _ Hn Hb Hg HO I1 I2 GM') with (fuel := fuel) as (resc & vals & _ & E); [right; fold n; lia|].
  eexists. split; [exact E|]. cbn [mDegs mM]. fold n. rewrite Nat.min_r by lia. split; auto. destruct I1 as (_ & -> & _). apply map_rep.
Qed.
Print Assumptions C88_reported_degrees_refuted.
Example C88_degrees_case : (limit 1 (Some 2%nat) < 3)%nat /\ repeat (S (limit 1 (Some 2%nat))) 1 <> repeat 4%nat 1.
Proof. split; [simpl; lia|discriminate]. Qed.

(** ** rejected arguments *)
Theorem C88_rejected_arguments : forall junk f a b guess edit rel fuel,
  (length a <> length b -> m_maker cosR junk fuel f a b guess edit rel = MMismatch) /\
  (length a = length b -> (length a = 0 \/ 10 < length a)%nat -> m_maker cosR junk fuel f a b guess edit rel = MBadDim) /\
  (length a = length b -> (1 <= length a <= 10)%nat -> guess = 0%nat -> m_maker cosR junk fuel f a b guess edit rel = MEmptyMax).
Proof.
  intros junk f a b guess edit rel fuel. unfold m_maker. split; [|split].
  - intros H. destruct (Nat.eqb_spec (length a) (length b)); [contradiction|reflexivity].
  - intros -> H. rewrite Nat.eqb_refl. cbn [negb]. destruct (length b) as [|n]; [reflexivity|]. destruct H as [H|H]; [lia|]. do 10 (destruct n as [|n]; [lia|]). reflexivity.
  - intros -> H ->. rewrite Nat.eqb_refl. cbn [negb]. destruct (maxDegOf_limit (length b) edit H) as (m & -> & _).
    unfold find_good_approx, attempt, approximate. cbn [fftd memo dget]. destruct (valuesBlock_some cosR f a b (repeat 0%nat (length b)) [] (gridOK_repeat f 0 (length b))) as [vb ->].
    destruct (length b) as [|n]; [lia|]. reflexivity.
Qed.
Print Assumptions C88_rejected_arguments.
