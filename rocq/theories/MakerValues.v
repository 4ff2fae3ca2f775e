(** * M_maker: the stored values, and polynomial objects in several variables (C88) *)
From Coq Require Import Reals List Lia Lra Arith ZArith Bool.
From Verif Require Import Num Tensor RSum Cheb PolySpec LinearModel LinearProofs CombinedModel CombinedSpec ApproxModel ApproxDct ApproxInterp ApproxPoly ApproxDegree MakerModel MakerProofs MakerRun MakerProps MakerMore.
From Verif Require PolyModel PolyArith.
Import ListNotations.
Local Open Scope R_scope.

Section Keys.
  Variables (junk : list nat -> R) (f : fobj R) (a b : list R).
  Notation fc := (freshCoeffs cosR junk f a b).
  Notation fn := (freshNorm cosR junk f a b).
  Notation fb := (freshBlock cosR f a b).
  (** the stores after the degrees [ks] have been approximated, in this order *)
  Definition storeOf (ks : list key) : @store R := mkStore (map (fun k => (k, fb k)) ks) (map (fun k => (k, (fc k, fn k))) ks).
  Lemma dget_map {V} (F : key -> V) k ks : (In k ks -> dget k (map (fun k => (k, F k)) ks) = Some (F k)) /\ (~ In k ks -> dget k (map (fun k => (k, F k)) ks) = None).
  Proof.
    induction ks as [|x ks [I1 I2]]; cbn [map dget In]; [split; [contradiction|reflexivity]|]. destruct (keyEqb k x) eqn:E.
    - apply keyEqb_true in E. subst x. split; [auto|intros H; exfalso; apply H; auto].
    - assert (N : x <> k) by (intros ->; rewrite (proj2 (keyEqb_true k k) eq_refl) in E; discriminate). split; [intros [H|H]; [contradiction|auto]|intros H; apply I2; tauto].
  Qed.
  Lemma dput_map {V} (F : key -> V) k ks : ~ In k ks -> dput k (F k) (map (fun k => (k, F k)) ks) = map (fun k => (k, F k)) (ks ++ [k]).
  Proof.
    induction ks as [|x ks IH]; cbn [map dput In app]; auto. intros H. destruct (keyEqb k x) eqn:E.
    - apply keyEqb_true in E. subst x. exfalso. apply H. auto.
    - f_equal. apply IH. tauto.
  Qed.
  Lemma storeOf_good ks : goodStore cosR junk f a b (storeOf ks).
  Proof.
    split; intros k v; cbn [storeOf memo fftd]; intros H;
      (destruct (List.in_dec (list_eq_dec Nat.eq_dec) k ks) as [I|I];
       [rewrite (proj1 (dget_map _ k ks) I) in H|rewrite (proj2 (dget_map _ k ks) I) in H]; congruence).
  Qed.
  Lemma approx_old D ks : In D ks -> approximate cosR junk f a b D (storeOf ks) = MOk (fc D, fn D, storeOf ks).
  Proof. intros H. unfold approximate. cbn [storeOf fftd]. rewrite (proj1 (dget_map (fun k => (fc k, fn k)) D ks) H). reflexivity. Qed.
  Lemma approx_new D ks : gridOK f D -> pos D -> ~ In D ks -> approximate cosR junk f a b D (storeOf ks) = MOk (fc D, fn D, storeOf (ks ++ [D])).
  Proof.
    intros HG HP H. rewrite approximate_new; auto using storeOf_good; [|exact (proj2 (dget_map (fun k => (fc k, fn k)) D ks) H)].
    unfold storeOf. cbn [memo fftd]. rewrite (dput_map fb), (dput_map (fun k => (fc k, fn k))) by auto. reflexivity.
  Qed.
  Lemma approx_stack D ks : ~ gridOK f D -> ~ In D ks -> approximate cosR junk f a b D (storeOf ks) = MStack.
  Proof.
    intros HG H. apply (valuesBlock_none cosR f a b D (memo (storeOf ks))) in HG. unfold approximate.
    replace (dget D (fftd (storeOf ks))) with (@None (tensor R * R)) by (symmetry; exact (proj2 (dget_map (fun k => (fc k, fn k)) D ks) H)). rewrite HG. reflexivity.
  Qed.
  Definition apprF (D : list nat) : @approx R := mkA (fc D) (fn D) (fc (double D)) (get_err (fc D) (fc (double D))) D.
  Lemma first_of g n : (1 <= g)%nat -> (1 <= n)%nat -> attempt cosR junk f a b (repeat g n) (mkStore [] []) = MOk (apprF (repeat g n), storeOf [repeat g n; repeat (2 * g)%nat n]).
  Proof. intros Hg Hn. rewrite attempt_first by auto. unfold apprF. rewrite double_repeat. reflexivity. Qed.
  Lemma gridOK_one d : gridOK f [d].
  Proof. exact (gridOK_repeat f d 1). Qed.
  Lemma pos_one d : (1 <= d)%nat -> pos [d].
  Proof. auto. Qed.

  (** one variable *)
  Lemma loop_one rel m : length a = 1%nat -> forall fuel d pre r, (1 <= d)%nat -> ((forall k, In k pre -> exists x, k = [x] /\ (x < d)%nat) \/ (m <= d)%nat) ->
    goodLoop cosR junk fuel f a b rel m (apprF [d]) (storeOf (pre ++ [[d]; [(2 * d)%nat]])) = MOk r ->
    exists d' pre', (1 <= d')%nat /\ r = (apprF [d'], storeOf (pre' ++ [[d']; [(2 * d')%nat]])).
  Proof.
    intros Ha. induction fuel as [|fuel IH]; intros d pre r Hd HI H; [discriminate|]. cbn [goodLoop] in H. change (aDegs (apprF [d])) with [d] in H.
    destruct (existsb (fun d0 => (d0 <? m)%nat) [d]) eqn:E1; [|injection H as <-; exists d, pre; auto].
    destruct (error_test rel (aM (apprF [d])) (aM2 (apprF [d])) (aNorm (apprF [d])) (aErr (apprF [d]))) eqn:E2; [injection H as <-; exists d, pre; auto|].
    rewrite Ha in H. cbn [seq] in H. cbn [dimsToExpand] in H. change (aDegs (apprF [d])) with [d] in H. cbn [nth] in H.
    cbn [existsb] in E1. rewrite orb_false_r in E1. apply Nat.ltb_lt in E1. rewrite (proj2 (Nat.leb_gt m d)) in H by auto.
    unfold double in H at 1. cbn [map upd] in H. rewrite approx_old in H by (apply in_or_app; right; left; auto). cbn [mbind] in H.
    set (c := ngtb _ _) in H. destruct c; [|injection H as <-; exists d, pre; auto]. unfold expand in H. cbn [fold_left nth upd] in H.
    assert (NEW : forall x ks, (1 <= x)%nat -> ~ In [x] ks -> approximate cosR junk f a b [x] (storeOf ks) = MOk (fc [x], fn [x], storeOf (ks ++ [[x]]))) by (intros; apply approx_new; auto using gridOK_one).
    destruct HI as [HI|HI]; [|lia].
    destruct (Nat.ltb_spec (2 * d) m) as [L|L].
    - unfold attempt in H. rewrite approx_old in H by (apply in_or_app; right; right; left; auto). cbn [mbind double map] in H.
      rewrite NEW in H; [|lia|].
      + cbn [mbind] in H. rewrite <- app_assoc in H. change ([[d]; [(2 * d)%nat]] ++ [[(2 * (2 * d))%nat]]) with ([[d]] ++ [[(2 * d)%nat]; [(2 * (2 * d))%nat]]) in H. rewrite app_assoc in H.
        apply (IH (2 * d)%nat (pre ++ [[d]]) r) in H; auto; [lia|]. left. intros k Hk. apply in_app_or in Hk. destruct Hk as [Hk|[<-|[]]]; [destruct (HI k Hk) as (x & -> & Hx); exists x; split; auto; lia|exists d; split; auto; lia].
      + intros Hk. apply in_app_or in Hk. destruct Hk as [Hk|[Hk|[Hk|[]]]]; [apply HI in Hk; destruct Hk as (x & Hk & Hx)| |]; injection Hk; lia.
    - destruct (Nat.eq_dec m (2 * d)%nat) as [->|NE].
      + unfold attempt in H. rewrite approx_old in H by (apply in_or_app; right; right; left; auto). cbn [mbind double map] in H.
        rewrite NEW in H; [|lia|].
        * cbn [mbind] in H. rewrite <- app_assoc in H. change ([[d]; [(2 * d)%nat]] ++ [[(2 * (2 * d))%nat]]) with ([[d]] ++ [[(2 * d)%nat]; [(2 * (2 * d))%nat]]) in H. rewrite app_assoc in H.
          apply (IH (2 * d)%nat (pre ++ [[d]]) r) in H; auto; lia.
        * intros Hk. apply in_app_or in Hk. destruct Hk as [Hk|[Hk|[Hk|[]]]]; [apply HI in Hk; destruct Hk as (x & Hk & Hx)| |]; injection Hk; lia.
      + unfold attempt in H. rewrite NEW in H; [|lia|].
        2:{ intros Hk. apply in_app_or in Hk. destruct Hk as [Hk|[Hk|[Hk|[]]]]; [apply HI in Hk; destruct Hk as (x & Hk & Hx)| |]; injection Hk; lia. }
        cbn [mbind double map] in H. rewrite NEW in H; [|lia|].
        2:{ intros Hk. apply in_app_or in Hk. destruct Hk as [Hk|[Hk|[]]]; [apply in_app_or in Hk; destruct Hk as [Hk|[Hk|[Hk|[]]]]; [apply HI in Hk; destruct Hk as (x & Hk & Hx)| |]|]; injection Hk; lia. }
        cbn [mbind] in H. rewrite <- (app_assoc (pre ++ [[d]; [(2 * d)%nat]]) [[m]]) in H. cbn [app] in H.
        apply (IH m (pre ++ [[d]; [(2 * d)%nat]]) r) in H; auto; lia.
  Qed.
End Keys.

(** In one variable the stored values are those of the approximation. *)
Theorem C88_stored_values_in_one_variable : forall junk f a b guess edit rel fuel r, length a = 1%nat -> objectIn 1 f -> (1 <= guess)%nat ->
  m_maker cosR junk fuel f a b guess edit rel = MOk r ->
  exists d vals, mValues r = Some vals /\ gridBlock (valueOf f) a b [d] vals /\ interpolant (valueOf f) a b [d] (mM r).
Proof.
  intros junk f a b guess edit rel fuel r Ha HO Hg H.
  assert (FIN : forall d pre, (1 <= d)%nat -> exists vals, nth_error (map snd (memo (storeOf junk f a b (pre ++ [[d]; [(2 * d)%nat]])))) (length (map snd (memo (storeOf junk f a b (pre ++ [[d]; [(2 * d)%nat]])))) - 2) = Some vals /\
     gridBlock (valueOf f) a b [d] vals).
  { intros d pre Hd. exists (freshBlock cosR f a b [d]). split.
    - cbn [storeOf memo]. rewrite map_map. cbn [snd]. rewrite map_app, nth_error_app2; rewrite app_length, !map_length; cbn [length map]; [|lia].
      replace (length pre + 2 - 2 - length pre)%nat with 0%nat by lia. reflexivity.
    - destruct (fresh_block f a b [d]) as (W & S & V). split; auto. split; auto. intros j Hj. rewrite V by auto.
      destruct HO as [(g & ->)|HO]; [reflexivity|]. apply (callAt_value 1); auto.
      unfold boxPoint. rewrite map_length, !combine_length, map_length, combine_length. apply F2_length in Hj. simpl in *.
      unfold m_maker in H. destruct (Nat.eqb_spec (length a) (length b)); [|discriminate]. lia. }
  unfold m_maker in H. destruct (Nat.eqb_spec (length a) (length b)) as [Eb|]; [|discriminate]. cbn [negb] in H.
  destruct (maxDegOf (length a)) as [m0|]; [|discriminate]. set (m := match edit with Some e => e | None => m0 end) in *.
  unfold find_good_approx in H. rewrite Ha in H. rewrite first_of in H by lia. cbn [mbind repeat] in H.
  assert (DONE : forall A st, (exists d pre deg, A = mkA (aM (apprF junk f a b [d])) (aNorm (apprF junk f a b [d])) (aM2 (apprF junk f a b [d])) (aErr (apprF junk f a b [d])) deg /\ st = storeOf junk f a b (pre ++ [[d]; [(2 * d)%nat]]) /\ (1 <= d)%nat) ->
    let resc := if @neqb R R_num (aNorm A) (@n0 R R_num) then None else Some (tbuild (shp (aM A)) (fun idx => ndiv (tget (aM A) idx) (aNorm A))) in
    forall r, MOk (mkM (aM A) (aNorm A) (aM2 A) (aErr A) (aDegs A) resc (nth_error (map snd (memo st)) (length (map snd (memo st)) - 2))) = MOk r ->
    exists d vals, mValues r = Some vals /\ gridBlock (valueOf f) a b [d] vals /\ interpolant (valueOf f) a b [d] (mM r)).
  { intros A st (d & pre & deg & -> & -> & Hd) resc r0 Hr0. assert (Hr : forall x y : @maker R, MOk x = MOk y -> x = y) by congruence. apply Hr in Hr0. subst r0. clear Hr. destruct (FIN d pre Hd) as (vals & E1 & E2). exists d, vals. cbn [mValues mM aM]. split; auto. split; auto.
    apply (object_value 1 f a b [d] _ HO Ha ltac:(lia) eq_refl), fresh_interpolant. auto. }
  change (aDegs (apprF junk f a b [guess])) with [guess] in H. cbn [map] in H.
  destruct (Nat.ltb_spec m guess) as [L|L].
  - destruct fuel as [|fuel]; [discriminate|]. cbn [goodLoop aDegs existsb] in H. rewrite (Nat.ltb_irrefl m) in H. cbn [orb mbind] in H.
    eapply DONE; [|exact H]. exists guess, [], [m]. auto.
  - change (mkA (aM (apprF junk f a b [guess])) (aNorm (apprF junk f a b [guess])) (aM2 (apprF junk f a b [guess])) (aErr (apprF junk f a b [guess])) [guess]) with (apprF junk f a b [guess]) in H.
    destruct (goodLoop cosR junk fuel f a b rel m (apprF junk f a b [guess]) (storeOf junk f a b [[guess]; [(2 * guess)%nat]])) as [[A st]| | | | |] eqn:E; try discriminate.
    cbn [mbind] in H.
    apply (loop_one junk f a b rel m Ha fuel guess []) in E; auto; [|left; intros k []]. destruct E as (d' & pre' & Hd' & E). injection E as -> ->.
    eapply DONE; [|exact H]. exists d', pre', [d']. split; [reflexivity|]. split; [reflexivity|lia].
Qed.
Print Assumptions C88_stored_values_in_one_variable.
Example C88_one_variable_case : exists fuel r, m_maker cosR (fun _ => 0) fuel (Plain (fun x => exp (nth 0 x 0))) [0] [1] 2 None (/ 10 ^ 6) = MOk r.
Proof.
  destruct (C88_returns_the_interpolant (fun _ => 0) (fun x => exp (nth 0 x 0)) [0] [1] 2 None (/ 10 ^ 6) ltac:(simpl; lia) eq_refl ltac:(lia)) as (k & r & D & HF & _).
  exists (S k), r. apply HF. lia.
Qed.

(** In two variables they can belong to other degrees: (T_2(x)+T_2(y))/3, first guess 1, tolerance 1. *)
Lemma grid2 d e y : gridNode [d; e] y -> exists j k, (j <= d)%nat /\ (k <= e)%nat /\ y = [cos (INR j * PI / INR d); cos (INR k * PI / INR e)].
Proof.
  intros (j & Hj & ->). inversion Hj as [|j0 ? r ? H1 H2]; subst. inversion H2 as [|k0 ? r' ? H3 H4]; subst. inversion H4; subst. exists j0, k0. auto.
Qed.
Definition saddle (x : list R) : R := (2 * nth 0 x 0 ^ 2 - 1) / 3 + (2 * nth 1 x 0 ^ 2 - 1) / 3.
Lemma saddle_11 : interpolant saddle [-1; -1] [1; 1] [1; 1]%nat (mkT [2; 2]%nat [2 / 3; 0; 0; 0]).
Proof.
  split; [split; [reflexivity|repeat constructor]|]. split; [reflexivity|]. intros y Hy. apply grid2 in Hy. destruct Hy as (j & k & Hj & Hk & ->).
  unfold saddle, cheb_eval. cbn [boxPoint map combine nth fst snd]. destruct (cos_d1 j Hj) as [-> | ->]; destruct (cos_d1 k Hk) as [-> | ->]; cbn; lra.
Qed.
Lemma saddle_12 : interpolant saddle [-1; -1] [1; 1] [1; 2]%nat (mkT [2; 3]%nat [1 / 3; 0; 1 / 3; 0; 0; 0]).
Proof.
  split; [split; [reflexivity|repeat constructor]|]. split; [reflexivity|]. intros y Hy. apply grid2 in Hy. destruct Hy as (j & k & Hj & Hk & ->).
  unfold saddle, cheb_eval. cbn [boxPoint map combine nth fst snd]. destruct (cos_d1 j Hj) as [-> | ->]; destruct (cos_d2 k Hk) as [-> | [-> | ->]]; cbn; lra.
Qed.
Lemma saddle_21 : interpolant saddle [-1; -1] [1; 1] [2; 1]%nat (mkT [3; 2]%nat [1 / 3; 0; 0; 0; 1 / 3; 0]).
Proof.
  split; [split; [reflexivity|repeat constructor]|]. split; [reflexivity|]. intros y Hy. apply grid2 in Hy. destruct Hy as (j & k & Hj & Hk & ->).
  unfold saddle, cheb_eval. cbn [boxPoint map combine nth fst snd]. destruct (cos_d2 j Hj) as [-> | [-> | ->]]; destruct (cos_d1 k Hk) as [-> | ->]; cbn; lra.
Qed.
Lemma saddle_22 : interpolant saddle [-1; -1] [1; 1] [2; 2]%nat (mkT [3; 3]%nat [0; 0; 1 / 3; 0; 0; 0; 1 / 3; 0; 0]).
Proof.
  split; [split; [reflexivity|repeat constructor]|]. split; [reflexivity|]. intros y Hy. apply grid2 in Hy. destruct Hy as (j & k & Hj & Hk & ->).
  unfold saddle, cheb_eval. cbn [boxPoint map combine nth fst snd]. destruct (cos_d2 j Hj) as [-> | [-> | ->]]; destruct (cos_d2 k Hk) as [-> | [-> | ->]]; cbn; lra.
Qed.
Lemma saddle_norm m : gridMax saddle [-1; -1] [1; 1] [1; 1]%nat m -> m = 2 / 3.
Proof.
  intros [_ (y & Hy & <-)]. apply grid2 in Hy. destruct Hy as (j & k & Hj & Hk & ->). unfold saddle. cbn [boxPoint map combine nth fst snd].
  destruct (cos_d1 j Hj) as [-> | ->]; destruct (cos_d1 k Hk) as [-> | ->]; unfold Rabs; destruct Rcase_abs; lra.
Qed.
Lemma fresh_eq junk g a b D N : pos D -> interpolant g a b D N -> freshCoeffs cosR junk (Plain g) a b D = N.
Proof. intros HD H. apply (interpolant_unique g a b D); auto. apply (fresh_interpolant junk (Plain g)); auto. Qed.
Theorem C88_stored_values_in_two_variables_refuted : forall junk fuel, exists r v,
  m_maker cosR junk (S fuel) (Plain saddle) [-1; -1] [1; 1] 1 None 1 = MOk r /\ mValues r = Some v /\ shp (mM r) = [2; 2]%nat /\ shp v = [2; 3]%nat.
Proof.
  intros junk fuel. set (f := Plain saddle). set (a := [-1; -1]). set (b := [1; 1]).
  assert (P11 : pos [1; 1]%nat) by (repeat constructor). assert (P12 : pos [1; 2]%nat) by (repeat constructor). assert (P21 : pos [2; 1]%nat) by (repeat constructor). assert (P22 : pos [2; 2]%nat) by (repeat constructor).
  pose proof (fresh_eq junk saddle a b _ _ P11 saddle_11) as E11. pose proof (fresh_eq junk saddle a b _ _ P12 saddle_12) as E12.
  pose proof (fresh_eq junk saddle a b _ _ P21 saddle_21) as E21. pose proof (fresh_eq junk saddle a b _ _ P22 saddle_22) as E22.
  pose proof (saddle_norm _ (fresh_norm junk (Plain saddle) a b _ P11)) as EN. fold f in E11, E12, E21, E22, EN.
  unfold m_maker. change (length a) with 2%nat. change (length b) with 2%nat. cbn [Nat.eqb negb maxDegOf].
  change (repeat 1%nat 2) with [1; 1]%nat. unfold find_good_approx.
  pose proof (first_of junk f a b 1 2 (le_n _) ltac:(lia)) as E. cbn [repeat Nat.mul Nat.add] in E. rewrite E. cbn [mbind]. clear E.
  assert (A : apprF junk f a b [1; 1]%nat = mkA (mkT [2; 2]%nat [2 / 3; 0; 0; 0]) (2 / 3) (mkT [3; 3]%nat [0; 0; 1 / 3; 0; 0; 0; 1 / 3; 0; 0])
        (difference (mkT [3; 3]%nat [0; 0; 1 / 3; 0; 0; 0; 1 / 3; 0; 0]) (mkT [2; 2]%nat [2 / 3; 0; 0; 0])) [1; 1]%nat).
  { unfold apprF. change (double [1; 1]%nat) with [2; 2]%nat. rewrite E11, E22, EN. f_equal. apply get_err_difference; [reflexivity|repeat constructor]. }
  assert (HE : difference (mkT [3; 3]%nat [0; 0; 1 / 3; 0; 0; 0; 1 / 3; 0; 0]) (mkT [2; 2]%nat [2 / 3; 0; 0; 0]) = 4 / 3).
  { unfold difference, coefAt. cbn. rewrite !Rminus_0_r, Rabs_R0. replace (0 - 2 / 3) with (- (2 / 3)) by ring. rewrite Rabs_Ropp, !Rabs_pos_eq by lra. lra. }
  rewrite HE in A. rewrite A. cbn [aM aNorm aM2 aErr aDegs].
  assert (M512 : exists q, (2 ^ 9)%nat = S (S q)) by (exists (2 ^ 9 - 2)%nat; reflexivity). destruct M512 as (q & ->).
  cbn [map Nat.ltb Nat.leb goodLoop aDegs existsb orb].
  assert (T : error_test 1 (mkT [2; 2]%nat [2 / 3; 0; 0; 0]) (mkT [3; 3]%nat [0; 0; 1 / 3; 0; 0; 0; 1 / 3; 0; 0]) (2 / 3) (4 / 3) = false).
  { unfold error_test. apply Rltb_false. rewrite threshold_R. unfold insignificant. apply Rmax_lub; [lra|]. cbn [shp prodn fold_right Nat.mul Nat.add Nat.sub]. simpl. lra. }
  cbn [aM aM2 aNorm aErr]. rewrite T. change (length a) with 2%nat. cbn [seq dimsToExpand aDegs nth Nat.leb double map Nat.mul Nat.add upd].
  rewrite approx_new by (try exact I; auto; cbn; intros [H|[H|[]]]; discriminate). cbn [mbind].
  cbn [app]. rewrite approx_new by (try exact I; auto; cbn; intros [H|[H|[H|[]]]]; discriminate). cbn [mbind aM2 aNorm app].
  rewrite E12, E21.
  assert (TG : forall N, length (shp N) = 2%nat -> difference (mkT [3; 3]%nat [0; 0; 1 / 3; 0; 0; 0; 1 / 3; 0; 0]) N = 2 / 3 ->
     ngtb (get_err N (mkT [3; 3]%nat [0; 0; 1 / 3; 0; 0; 0; 1 / 3; 0; 0])) (threshold 1 N (mkT [3; 3]%nat [0; 0; 1 / 3; 0; 0; 0; 1 / 3; 0; 0]) (2 / 3)) = false).
  { intros N HN HD. unfold ngtb. apply Rltb_false. rewrite threshold_R, get_err_difference, HD by (auto; repeat constructor). unfold insignificant. pose proof (Rmax_l 1 (10 * INR (prodn (shp (mkT [3; 3]%nat [0; 0; 1 / 3; 0; 0; 0; 1 / 3; 0; 0])) - prodn (shp N)) * / 2 ^ 52 * (2 / 3))). lra. }
  rewrite !TG.
  - cbn [mbind]. eexists. exists (freshBlock cosR f a b [1; 2]%nat). split; [reflexivity|]. cbn [mValues mM aM]. split; [reflexivity|]. split; reflexivity.
  - reflexivity.
  - unfold difference, coefAt. cbn. rewrite !Rminus_0_r, !Rabs_R0. replace (0 - 1 / 3) with (- (1 / 3)) by ring. replace (1 / 3 - 1 / 3) with 0 by ring. rewrite ?Rabs_Ropp, ?Rabs_R0, !Rabs_pos_eq by lra. lra.
  - reflexivity.
  - unfold difference, coefAt. cbn. rewrite !Rminus_0_r, !Rabs_R0. replace (0 - 1 / 3) with (- (1 / 3)) by ring. replace (1 / 3 - 1 / 3) with 0 by ring. rewrite ?Rabs_Ropp, ?Rabs_R0, !Rabs_pos_eq by lra. lra.
Qed.
Print Assumptions C88_stored_values_in_two_variables_refuted.

(** ** polynomial objects in several variables *)
(** A MultiCheb or MultiPower of two or more variables whose first two approximations differ raises an exception. *)
Theorem C88_polynomial_object_in_several_variables_refuted : forall junk f a b guess edit rel N N2 norm,
  let n := length a in (2 <= n <= 10)%nat -> length b = n -> (1 <= guess < limit n edit)%nat -> objectIn n f -> (forall g, f <> Plain g) ->
  interpolant (valueOf f) a b (repeat guess n) N -> interpolant (valueOf f) a b (repeat (2 * guess)%nat n) N2 -> gridMax (valueOf f) a b (repeat guess n) norm ->
  insignificant rel norm N2 N <= difference N2 N ->
  forall fuel, m_maker cosR junk (S fuel) f a b guess edit rel = MStack.
Proof.
  intros junk f a b guess edit rel N N2 norm n Hn Hb Hg HO HF I1 I2 IN HD fuel.
  assert (P2 : pos (repeat (2 * guess)%nat n)) by (apply repeat_pos; lia). assert (P1 : pos (repeat guess n)) by (apply repeat_pos; lia).
  assert (EC : freshCoeffs cosR junk f a b (repeat guess n) = N).
  { apply (interpolant_unique (valueOf f) a b (repeat guess n)); auto. apply (object_value n); auto using repeat_length. apply fresh_interpolant; auto. }
  assert (EC2 : freshCoeffs cosR junk f a b (repeat (2 * guess)%nat n) = N2).
  { apply (interpolant_unique (valueOf f) a b (repeat (2 * guess)%nat n)); auto. apply (object_value n); auto using repeat_length. apply fresh_interpolant; auto. }
  assert (EM : freshNorm cosR junk f a b (repeat guess n) = norm).
  { apply (gridMax_unique (callAt f) a b (repeat guess n)); [apply fresh_norm; auto|]. apply (object_max n); auto using repeat_length. }
  unfold m_maker. fold n. rewrite Hb, Nat.eqb_refl. cbn [negb]. destruct (maxDegOf_limit n edit ltac:(lia)) as (m & -> & ->).
  unfold find_good_approx. rewrite first_of by lia. cbn [mbind]. change (aDegs (apprF junk f a b (repeat guess n))) with (repeat guess n). rewrite caps, Nat.min_l by lia.
  cbn [goodLoop aDegs aM aM2 aNorm aErr]. rewrite repeat_lt by lia. rewrite (proj2 (Nat.ltb_lt guess _)) by lia.
  assert (T : error_test rel (aM (apprF junk f a b (repeat guess n))) (aM2 (apprF junk f a b (repeat guess n))) (aNorm (apprF junk f a b (repeat guess n))) (aErr (apprF junk f a b (repeat guess n))) = false).
  { unfold apprF. cbn [aM aM2 aNorm aErr]. rewrite double_repeat, EC, EC2, EM. unfold error_test. apply Rltb_false. rewrite threshold_R, get_err_difference; auto.
    - rewrite (proj1 (shapes_of _ _ _ _ _ I1)), (proj1 (shapes_of _ _ _ _ _ I2)), !repeat_length. reflexivity.
    - apply (shapes_of _ _ _ _ _ I2). }
  cbn [apprF aM aM2 aNorm aErr] in *. rewrite T. fold n. destruct n as [|[|k]] eqn:En; [lia|lia|]. cbn [seq dimsToExpand aDegs nth repeat].
  rewrite (proj2 (Nat.leb_gt _ guess)) by lia.
  change (upd (double (guess :: guess :: repeat guess k)) 0 guess) with (guess :: (2 * guess)%nat :: double (repeat guess k)). rewrite approx_stack; [reflexivity| |].
  - unfold gridOK. destruct HO as [(g & HO)|(t & _ & _ & [HO|HO])]; rewrite HO in *; [exfalso; apply (HF g); auto| |];
      cbn [hd forallb]; rewrite (proj2 (Nat.eqb_neq guess (2 * guess)%nat)) by lia; rewrite andb_false_r; discriminate.
  - cbn. intros [H|[H|[]]]; injection H; lia.
Qed.
Print Assumptions C88_polynomial_object_in_several_variables_refuted.

Lemma twoStep : interpolant (valueOf (MCheb (mkT [3; 1]%nat [0; 0; 1]))) [-1; -1] [1; 1] [1; 1]%nat (mkT [2; 2]%nat [1; 0; 0; 0]).
Proof.
  split; [split; [reflexivity|repeat constructor]|]. split; [reflexivity|]. intros y Hy. apply grid2 in Hy. destruct Hy as (j & k & Hj & Hk & ->).
  unfold cheb_eval. cbn [valueOf boxPoint map combine nth fst snd]. unfold cheb_eval. destruct (cos_d1 j Hj) as [-> | ->]; destruct (cos_d1 k Hk) as [-> | ->]; cbn; lra.
Qed.
(** the polynomial T_2(x) of two variables, first guess 1, tolerance 1/10 *)
Example C88_polynomial_object_case : let f := MCheb (mkT [3; 1]%nat [0; 0; 1]) in
  objectIn 2 f /\ exists N N2, interpolant (valueOf f) [-1; -1] [1; 1] [1; 1]%nat N /\ interpolant (valueOf f) [-1; -1] [1; 1] [2; 2]%nat N2 /\
    gridMax (valueOf f) [-1; -1] [1; 1] [1; 1]%nat 1 /\ insignificant (1 / 10) 1 N2 N <= difference N2 N.
Proof.
  cbn zeta. split; [right; exists (mkT [3; 1]%nat [0; 0; 1]); split; [split; [reflexivity|repeat constructor]|auto]|].
  exists (mkT [2; 2]%nat [1; 0; 0; 0]), (mkT [3; 3]%nat [0; 0; 0; 0; 0; 0; 1; 0; 0]). split; [exact twoStep|]. split; [|split].
  - split; [split; [reflexivity|repeat constructor]|]. split; [reflexivity|]. intros y Hy. apply grid2 in Hy. destruct Hy as (j & k & Hj & Hk & ->).
    cbn [valueOf boxPoint map combine nth fst snd]. unfold cheb_eval. destruct (cos_d2 j Hj) as [-> | [-> | ->]]; destruct (cos_d2 k Hk) as [-> | [-> | ->]]; cbn; lra.
  - assert (V : forall y, gridNode [1; 1]%nat y -> Rabs (valueOf (MCheb (mkT [3; 1]%nat [0; 0; 1])) (boxPoint [-1; -1] [1; 1] y)) = 1).
    { intros y Hy. destruct twoStep as (_ & _ & E). rewrite <- E by auto. unfold cheb_eval. apply grid2 in Hy. destruct Hy as (j & k & Hj & Hk & ->). cbn. unfold Rabs. destruct Rcase_abs; lra. }
    split; [intros y Hy; rewrite V by auto; lra|]. exists [cos (INR 0 * PI / INR 1); cos (INR 0 * PI / INR 1)].
    assert (G : gridNode [1; 1]%nat [cos (INR 0 * PI / INR 1); cos (INR 0 * PI / INR 1)]) by (exists [0; 0]%nat; split; [repeat constructor|reflexivity]). split; [exact G|apply V; exact G].
  - assert (D : difference (mkT [3; 3]%nat [0; 0; 0; 0; 0; 0; 1; 0; 0]) (mkT [2; 2]%nat [1; 0; 0; 0]) = 2).
    { unfold difference, coefAt. cbn. rewrite !Rminus_0_r, Rabs_R0. replace (0 - 1) with (- (1)) by ring. rewrite Rabs_Ropp, !Rabs_pos_eq by lra. lra. }
    rewrite D. unfold insignificant. apply Rmax_lub; [lra|]. cbn [shp prodn fold_right Nat.mul Nat.add Nat.sub]. simpl. lra.
Qed.
