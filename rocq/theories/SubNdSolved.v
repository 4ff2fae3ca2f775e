(** * What a solved box means in the solver in several variables of subdivision.py *)
From Coq Require Import Reals List Lia Lra Arith Bool Permutation.
From Coquelicot Require Import Complex.
From Coq Require Import List.
From Verif Require Import Num RSum Tensor Cheb PolySpec CombinedModel CombinedSpec LinearProofs ApproxModel ApproxDct ApproxInterp ApproxDegree MakerModel MakerProofs MakerRun MakerProps MakerMore.
From Verif Require Import SubApproxModel SubApproxProofs SubApproxProps SubApproxMore TrackerModel TrimcModel TrimcProofs TrimcProps.
From Verif Require ApproxError LinAlgModel LinAlgSpec LinAlgProofs LinAlgProps SubcheckModel SubcheckCover SubcheckProps MsModel SubNdModel.
Import SubNdModel.
From Verif Require Import SubNdSpec SubNdProofs SubNdLinear SubNdSolvedSpec.
Import ListNotations.
Local Open Scope R_scope.

(** ** one approximation *)
Definition approxOf (n : nat) (a b : list R) (g : nat) (f : fobj R) (M : tensor R) (m e : R) : Prop :=
  interpolant (callAt f) a b (repeat g n) M /\ gridMax (callAt f) a b (repeat (2 * g)%nat n) m /\
  (forall y, gridNode (repeat (2 * g)%nat n) y -> Rabs (callAt f (boxPoint a b y) - cheb_eval M y) <= e) /\
  (forall P, ndim P = n -> Forall (fun s => (s <= 2 * g + 1)%nat) (shp P) -> (forall y, in_cube n y -> callAt f (boxPoint a b y) = cheb_eval P y) ->
         forall y, in_cube n y -> Rabs (callAt f (boxPoint a b y) - cheb_eval M y) <= e).
Lemma node_cube n g y : gridNode (repeat g n) y -> in_cube n y.
Proof.
  intros Hz. apply gridNode_nodes in Hz. destruct Hz as (j & Hj & ->). pose proof (nodes_cube (repeat g n) j) as HN. rewrite repeat_length in HN. apply HN. apply inrange_length in Hj. rewrite map_length, repeat_length in Hj. auto.
Qed.
Lemma full_ok junk n f a b deg gd at_ rt B st : (1 <= n)%nat -> length a = n -> workSide st n B ->
  let g := match gd with None => deg | Some g => g end in (1 <= g)%nat -> (4 * g <= B)%nat ->
  exists coeff m e st' M, full_cheb_approximate cosR junk f a b deg at_ rt gd st = Some ((coeff, m, e), st') /\ workSide st' n B /\ (coeff = None \/ coeff = Some M) /\ approxOf n a b g f M m e.
Proof.
  intros Hn La HW g Hg HB.
  destruct (nd_ok junk f a b g n B st Hn Hg La HW ltac:(left; lia)) as (M & m1 & st1 & E1 & H1 & _ & HW1).
  destruct (Nat.leb_spec (2 * g) B) as [_|]; [|lia].
  destruct (nd_ok junk f a b (g * 2) n B st1 Hn ltac:(lia) La HW1 ltac:(left; lia)) as (M2 & m2 & st2 & E2 & H2 & G2 & HW2).
  destruct (Nat.leb_spec (2 * (g * 2)) B) as [_|]; [|lia].
  rewrite (Nat.mul_comm g 2) in H2, G2. pose proof H1 as (W1 & S1 & V1). pose proof H2 as (W2 & S2 & V2).
  assert (SM2 : shp M2 = map S (map (fun d => 2 * d)%nat (repeat g n))) by (rewrite S2, !map_repeat_; reflexivity).
  assert (DE : get_err M M2 = difference M2 M).
  { apply get_err_difference; [rewrite S1, S2, !map_length, !repeat_length; reflexivity|]. rewrite S2. apply Forall_forall. intros x Hx. apply in_map_iff in Hx. destruct Hx as (k & <- & _). lia. }
  assert (D12 : forall y, in_cube n y -> Rabs (cheb_eval M2 y - cheb_eval M y) <= difference M2 M) by (intros y Hy; apply (two_series M M2 (repeat g n)); auto; rewrite repeat_length; auto).
  exists (if ngtb (get_err M M2) (at_ + rt * m2) then None else Some M), m2, (difference M2 M), st2, M.
  split; [unfold full_cheb_approximate; fold g; rewrite E1, E2, DE; reflexivity|]. split; [auto|]. split; [destruct (ngtb _ _); auto|]. split; [auto|]. split; [auto|]. split.
  - intros y Hy. rewrite <- V2 by auto. apply D12. apply (node_cube n (2 * g)); auto.
  - intros P HP HS Hf y Hy.
    assert (HF2 : Forall2 (fun s d => (s <= S d)%nat) (shp P) (repeat (2 * g)%nat n)).
    { unfold ndim in HP. rewrite <- HP. clear -HS. induction HS; cbn [length repeat]; constructor; auto. lia. }
    assert (HI2 : interpolant (callAt f) a b (repeat (2 * g)%nat n) (padTo (repeat (2 * g)%nat n) P)).
    { split; [apply padTo_wf|]. split; [reflexivity|]. intros z Hz. rewrite padTo_eval by auto. symmetry. apply Hf. apply (node_cube n (2 * g)); auto. }
    assert (EM : M2 = padTo (repeat (2 * g)%nat n) P) by (apply (interpolant_unique (callAt f) a b (repeat (2 * g)%nat n)); auto; apply repeat_pos; lia).
    rewrite Hf by auto. rewrite <- (padTo_eval (repeat (2 * g)%nat n) P y HF2). rewrite <- EM. apply D12. auto.
Qed.

(** ** all functions *)
Definition degOf (deg : nat) (g : option nat) : nat := match g with None => deg | Some g => g end.
Section Lists.
  Variables (n : nat) (a b : list R) (deg : nat).
  Fixpoint allApprox (funcs : list (fobj R)) (gs : list (option nat)) (cs : list (tensor R)) (ns es : list R) : Prop :=
    match funcs, gs, cs, ns, es with
    | [], [], [], [], [] => True
    | f :: funcs, g :: gs, c :: cs, m :: ns, e :: es => approxOf n a b (degOf deg g) f c m e /\ (2 <= degOf deg g <= deg)%nat /\ allApprox funcs gs cs ns es
    | _, _, _, _, _ => False
    end.
  Variables (at_ rt : R).
  Fixpoint allTrim (funcs : list (fobj R)) (gs : list (option nat)) (cs : list (tensor R)) (ns es : list R) : Prop :=
    match funcs, gs, cs, ns, es with
    | [], [], [], [], [] => True
    | f :: funcs, g :: gs, c :: cs, m :: ns, e :: es =>
        (exists M e0, approxOf n a b (degOf deg g) f M m e0 /\ trimmedTo n M e0 (at_ + rt * m) c e) /\ (2 <= degOf deg g <= deg)%nat /\ allTrim funcs gs cs ns es
    | _, _, _, _, _ => False
    end.
  Hypothesis Hn : (2 <= n)%nat.
  Lemma approx_square g f M m e : (2 <= g)%nat -> approxOf n a b g f M m e -> squareArray n M.
  Proof. intros Hg ((W & S1 & _) & _). split; [auto|]. exists (S g). split; [lia|]. rewrite S1. apply map_repeat_. Qed.
  Lemma trim_all : forall funcs gs cs ns es cs' es', allApprox funcs gs cs ns es -> trim_coeffs cs at_ rt ns es = Some (cs', true, es') -> allTrim funcs gs cs' ns es'.
  Proof.
    induction funcs as [|f fs IH]; intros [|g gs] [|c cs] [|m ns] [|e es] cs' es' HA E; cbn [allApprox] in HA; try contradiction; cbn [trim_coeffs] in E.
    - injection E as <- <-. exact I.
    - destruct HA as (HA & Hg & HR). destruct (one_array n c e (at_ + rt * m) Hn (approx_square _ f c m e (proj1 Hg) HA)) as (c1 & g1 & e1 & E1 & H1). rnum. rewrite E1 in E.
      destruct (trim_coeffs cs at_ rt ns es) as [[[cs2 g2] es2]|] eqn:E2; [|discriminate]. injection E as <- EG <-. apply andb_true_iff in EG. destruct EG as (-> & ->).
      cbn [allTrim]. split; [exists c, e; auto|]. split; [auto|]. eapply IH; eauto.
  Qed.
  Lemma trim_sides : forall funcs gs cs ns es, allTrim funcs gs cs ns es -> Forall (fun c => (2 <= side c)%nat) cs.
  Proof.
    induction funcs as [|f fs IH]; intros [|g gs] [|c cs] [|m ns] [|e es] HA; cbn [allTrim] in HA; try contradiction; constructor.
    - destruct HA as ((M & e0 & _ & HT) & _). destruct (tt_side _ _ _ _ _ _ HT) as (k & Hk & S1). unfold side. rewrite S1. destruct n; [lia|]. cbn [repeat nth]. lia.
    - destruct HA as (_ & _ & HA). eapply IH; eauto.
  Qed.
End Lists.
Lemma near_one n tol rel a b f P m e at_ rt M e0 : (2 <= n)%nat -> approxOf n a b 2 f M m e0 -> trimmedTo n M e0 (at_ + rt * m) P e -> side P = 2%nat -> e <= tol + rel * m -> nearly n tol rel a b f P.
Proof.
  intros Hn (HI & HG & H1 & H2) HT HS He. pose proof HI as (W & S1 & _). rewrite map_repeat_ in S1.
  destruct (tt_side _ _ _ _ _ _ HT) as (k & Hk & SP). pose proof (side_repeat M 3 n ltac:(lia) S1) as SM. pose proof (side_repeat P k n ltac:(lia) SP) as SPk.
  unfold side in HS. unfold sideOf in SPk. rewrite SPk in HS. subst k. fold (sideOf P) in SPk.
  assert (V : forall y, in_cube n y -> Rabs (cheb_eval P y - cheb_eval M y) <= e - e0 + Rabs (topCoeff M)).
  { intros y Hy. pose proof (tt_value _ _ _ _ _ _ HT y Hy) as HV. rewrite SM, SPk in HV. exact HV. }
  assert (T : forall u v w x, Rabs (u - v) <= e0 -> Rabs (w - v) <= e - e0 + x -> Rabs (u - w) <= e + x).
  { intros u v w x A B. replace (u - w) with ((u - v) + (v - w)) by ring. eapply Rle_trans; [apply Rabs_triang|]. rewrite (Rabs_minus_sym v w). lra. }
  split; [auto|]. split.
  - intros idx Hr Hl. destruct (tt_high _ _ _ _ _ _ HT idx Hr ltac:(rewrite SPk; auto)) as [|(Q & _)]; [auto|]. rewrite SM, SPk in Q. discriminate.
  - exists M, m. split; [auto|]. split; [exact HG|]. cbv zeta. split.
    + intros y Hy. eapply Rle_trans; [apply (T _ (cheb_eval M y) _ (Rabs (topCoeff M)))|lra]; [apply H1; exact Hy|apply V; apply (node_cube n 4); auto].
    + intros Q HQ HF Hf y Hy. eapply Rle_trans; [apply (T _ (cheb_eval M y) _ (Rabs (topCoeff M)))|lra]; [apply (H2 Q); auto|apply V; auto].
Qed.
Lemma near_all n tol rel a b at_ rt trust : (2 <= n)%nat -> forall funcs gs cs ns es, allTrim n a b 2 at_ rt funcs gs cs ns es -> forallb (fun c => (side c =? 2)%nat) cs = true ->
  existsb (fun p => if Rgt_dec (fst p) (tol + rel * snd p) then true else false) (combine (floorErrors trust es) ns) = false -> Forall2 (nearly n tol rel a b) funcs cs.
Proof.
  intros Hn. induction funcs as [|f fs IH]; intros [|g gs] [|c cs] [|m ns] [|e es] HA HS HE; cbn [allTrim] in HA; try contradiction; constructor.
  - destruct HA as ((M & e0 & HA & HT) & Hg & _). cbn [forallb] in HS. apply andb_true_iff in HS. destruct HS as (HS & _). apply Nat.eqb_eq in HS. replace (degOf 2 g) with 2%nat in HA by lia.
    eapply near_one; eauto. unfold floorErrors in HE. destruct trust; cbn [map combine existsb fst snd] in HE; apply orb_false_iff in HE; destruct HE as (HE & _); destruct (Rgt_dec _ _) as [|HG] in HE; try discriminate; [lra|]. pose proof (Rmax_l e macheps). lra.
  - destruct HA as (_ & _ & HA). cbn [forallb] in HS. apply andb_true_iff in HS. destruct HS as (_ & HS). eapply IH; eauto. unfold floorErrors in *. destruct trust; cbn [map combine existsb] in HE; apply orb_false_iff in HE; apply HE.
Qed.

(** ** the loop and the tolerances *)
Section Steps.
  Variables (X : tools) (tols : tolset) (n B : nat).
  Hypothesis Hn : (2 <= n)%nat.
  Lemma loop_ok a b deg tol : length a = n -> (4 * deg <= B)%nat -> forall funcs gs num st failed cs ns es w, length gs = length funcs -> Forall (fun g => (2 <= degOf deg g <= deg)%nat) gs -> workSide st n B ->
    approxLoop X tols funcs gs a b deg tol num st = Some (failed, cs, ns, es, w) -> workSide w n B /\ (failed = None -> allApprox n a b deg funcs gs cs ns es).
  Proof.
    intros La HB. induction funcs as [|f fs IH]; intros [|g gs] num st failed cs ns es w HL HG HW E; try discriminate; cbn [approxLoop] in E.
    - injection E as <- <- <- <- <-. split; [auto|]. intros _. exact I.
    - pose proof (Forall_inv HG) as Hg. pose proof (Forall_inv_tail HG) as HG'. cbv beta in Hg. injection HL as HL.
      destruct (full_ok (tJunk X) n f a b deg g tol (rel_approx_tol tols) B st ltac:(lia) La HW ltac:(fold (degOf deg g); lia) ltac:(fold (degOf deg g); lia)) as (coeff & m & e & st' & M & E1 & HW1 & HC & HA). rewrite E1 in E.
      destruct HC as [->| ->]; [injection E as <- <- <- <- <-; split; [auto|discriminate]|].
      destruct (approxLoop X tols fs gs a b deg tol (S num) st') as [[[[[fl cs1] ns1] es1] w1]|] eqn:E2; [|discriminate]. injection E as <- <- <- <- <-.
      destruct (IH gs (S num) st' _ _ _ _ _ HL HG' HW1 E2) as (H1 & H2). split; [auto|]. intros Hf. cbn [allApprox]. split; [exact HA|]. auto.
  Qed.
  Definition okTols (s : search) : Prop := workSide (work s) n B /\ target_tol0 tols <= target_tol s /\ (check_eval_error tols = false -> target_tol s = target_tol0 tols).
  Lemma eval_ok a b numSpots : length a = n -> length b = n -> length (tPoint X n) = n -> (12 <= B)%nat -> forall funcs tol st t w, workSide st n B -> evalTol X funcs numSpots a b n tol st = Some (t, w) -> workSide w n B /\ tol <= t.
  Proof.
    intros La Lb LP HB. induction funcs as [|f fs IH]; intros tol st t w HW E; cbn [evalTol] in E; [injection E as <- <-; split; [auto|lra]|].
    destruct (get_abs_approx_tol X f 3 a b n st) as [[t1 w1]|] eqn:E1; [|discriminate].
    assert (HW1 : workSide w1 n B).
    { unfold get_abs_approx_tol in E1. set (x := SubcheckModel.mapBounds _ a b _) in E1.
      assert (Lx : length x = n) by (unfold x, SubcheckModel.mapBounds; rewrite map_length, !combine_length; lia).
      destruct (nd_ok (tJunk X) f (map (fun v => v - 1 / 10 ^ 14) x) (map (fun v => v + 1 / 10 ^ 14) x) (2 * 3) n B st ltac:(lia) ltac:(lia) ltac:(rewrite map_length; auto) HW ltac:(left; lia)) as (N & m & st' & E2 & _ & _ & HW2).
      rewrite E2 in E1. injection E1 as _ <-. destruct (Nat.leb_spec (2 * (2 * 3)) B); [exact HW2|lia]. }
    destruct (IH _ _ _ _ HW1 E) as (H1 & H2). split; [auto|]. eapply Rle_trans; [apply Rmax_l|exact H2].
  Qed.
  Hypothesis Hchk : check_eval_error tols = true -> length (tPoint X n) = n /\ (12 <= B)%nat.
  Lemma update_ok funcs a b deg level ut s s' : length a = n -> length b = n -> okTols s -> updateTols X tols funcs a b deg level ut s = Some s' -> okTols s'.
  Proof.
    intros La Lb (HW & HT & HC) E. unfold updateTols in E. destruct (check_eval_error tols) eqn:CE; [|injection E as <-; repeat split; auto]. destruct (Hchk eq_refl) as (LP & HB). rewrite La in E.
    set (start := if ut then _ else _) in E.
    assert (G : forall t w, (if (level mod check_eval_freq tols =? 0)%nat then evalTol X funcs (INR ((deg * 2) ^ n) - INR (deg ^ n)) a b n start (work s) else Some (start, work s)) = Some (t, w) -> workSide w n B /\ start <= t).
    { intros t w E'. destruct (level mod check_eval_freq tols =? 0)%nat; [exact (eval_ok a b _ La Lb LP HB funcs start (work s) t w HW E')|injection E' as <- <-; split; [auto|lra]]. }
    destruct (if (level mod _ =? 0)%nat then _ else _) as [[t w]|]; [|discriminate]. destruct (G t w eq_refl) as (G1 & G2). injection E as <-. unfold start in G2. unfold okTols. destruct ut; cbn [work target_tol]; split; auto; split; auto; congruence.
  Qed.
End Steps.

(** ** the search *)
Section Search.
  Variables (X : tools) (tols : tolset) (target_deg ML : nat) (methods : list SubcheckModel.reduction) (trust : bool) (n B : nat).
  Hypothesis Hn : (2 <= n)%nat.
  Hypothesis Hchk : check_eval_error tols = true -> length (tPoint X n) = n /\ (12 <= B)%nat.
  Hypothesis Hmin : 0 <= min_good_zeros_tol tols.
  Definition leafMeans (funcs : list (fobj R)) (l : leaf) : Prop :=
    (why l = BaseCase -> exists tol, target_tol0 tols <= tol /\ (check_eval_error tols = false -> tol = target_tol0 tols) /\ solvedBox n funcs tol (rel_approx_tol tols) l) /\
    (takesLeadTerm X = false -> why l <> Macaulay).
  Definition meaning (Q : leaf -> Prop) (s s' : search) : Prop := exists leaves,
    length (SubcheckModel.mask (idata s')) = (2 ^ n)%nat /\ SubcheckModel.polishing (idata s') = false /\ results s' = results s ++ map stored leaves /\
    tracked s' = fold_left step (map callOf leaves) (tracked s) /\ Forall Q leaves /\ okTols tols n B s'.
  Lemma leafMeans_perm funcs funcs' l : Permutation funcs funcs' -> leafMeans funcs' l -> leafMeans funcs l.
  Proof. intros HP (H1 & H2). split; [|auto]. intros Hw. destruct (H1 Hw) as (tol & T1 & T2 & order & polys & O1 & O2). exists tol. split; [auto|]. split; [auto|]. exists order, polys. split; [eapply Permutation_trans; eauto|auto]. Qed.
  Lemma meaning_imp (Q Q' : leaf -> Prop) s s' : (forall l, Q l -> Q' l) -> meaning Q s s' -> meaning Q' s s'.
  Proof. intros H (ls & A & B1 & C & D & E & F). exists ls. split; [auto|]. split; [auto|]. split; [auto|]. split; [auto|]. split; [eapply Forall_impl; eauto|auto]. Qed.
  Lemma each_means (Q : leaf -> Prop) (step : list R -> list R -> search -> ending search) : (forall a b s s', box n a b -> length (SubcheckModel.mask (idata s)) = (2 ^ n)%nat -> SubcheckModel.polishing (idata s) = false -> okTols tols n B s ->
      step a b s = Finished s' -> meaning Q s s') ->
    forall l s s', Forall (fun u => box n (fst u) (snd u)) l -> length (SubcheckModel.mask (idata s)) = (2 ^ n)%nat -> SubcheckModel.polishing (idata s) = false -> okTols tols n B s -> each step l s = Finished s' -> meaning Q s s'.
  Proof.
    intros HS. induction l as [|[u v] l IH]; intros s s' HB HM HP HO E; cbn [each] in E.
    - injection E as <-. exists []. cbn [map List.app fold_left]. rewrite app_nil_r. split; [auto|]. split; [auto|]. split; [auto|]. split; [auto|]. split; [constructor|auto].
    - destruct (step u v s) as [s1| |] eqn:E1; try discriminate. inversion HB as [|? ? B1 B2]; subst.
      destruct (HS u v s s1 B1 HM HP HO E1) as (l1 & M1 & P1 & R1 & T1 & F1 & O1).
      destruct (IH s1 s' B2 M1 P1 O1 E) as (l2 & M2 & P2 & R2 & T2 & F2 & O2).
      exists (l1 ++ l2). split; [auto|]. split; [auto|]. split; [rewrite R2, R1, map_app, app_assoc; reflexivity|]. split; [rewrite map_app, fold_left_app, <- T1; auto|]. split; [apply Forall_app; auto|auto].
  Qed.
  Lemma sub_work a b polys errors ck s l s' : subintervals X methods a b polys errors ck s = Some (l, s') -> okTols tols n B s -> okTols tols n B s'.
  Proof. unfold subintervals. destruct (SubcheckModel.get_subintervals _ _ _ _ _ _ _ _ _ _) as [[l0 d]| |]; try discriminate. intros E H. injection E as <- <-. exact H. Qed.
  Lemma sub_means (Q : leaf -> Prop) (step : list R -> list R -> search -> ending search) a b polys errors ck s l s1 s' : box n a b -> length (SubcheckModel.mask (idata s)) = (2 ^ n)%nat -> SubcheckModel.polishing (idata s) = false -> okTols tols n B s ->
    Forall (fun P : tensor R => ndim P = n) polys -> (length errors = length polys \/ length polys <> n) -> subintervals X methods a b polys errors ck s = Some (l, s1) ->
    (forall a b s s', box n a b -> length (SubcheckModel.mask (idata s)) = (2 ^ n)%nat -> SubcheckModel.polishing (idata s) = false -> okTols tols n B s -> step a b s = Finished s' -> meaning Q s s') ->
    each step l s1 = Finished s' -> meaning Q s s'.
  Proof.
    intros HB HM HP HO HF HL E HS EE. destruct (subs_ok X methods n Hn a b polys errors ck s l s1 HB HM HP HF HL E) as (M1 & P1 & R1 & T1 & F1 & _).
    destruct (each_means Q step HS l s1 s') as (ls & A & B1 & C & D & F & G); auto.
    { eapply Forall_impl; [|exact F1]. intros u Hu. apply Hu. }
    { eapply sub_work; eauto. }
    exists ls. rewrite <- R1, <- T1. auto 10.
  Qed.
  Lemma addRoots_means (Q : leaf -> Prop) (r : reason) zs lo hi s : length (SubcheckModel.mask (idata s)) = (2 ^ n)%nat -> SubcheckModel.polishing (idata s) = false -> okTols tols n B s -> r <> TooDeep -> Q (mkLeaf r lo hi zs) ->
    meaning Q s (addRoots zs lo hi r (trackInterval r lo hi s)).
  Proof.
    intros HM HP HO HR HQ. exists [mkLeaf r lo hi zs]. unfold addRoots, trackInterval. cbn [idata SubcheckModel.mask SubcheckModel.polishing results tracked work]. rewrite HP. cbn [map stored why low high fold_left].
    split; [auto|]. split; [auto|]. split; [reflexivity|]. split; [unfold callOf; cbn [why points low high]; destruct r; [congruence|reflexivity|reflexivity]|]. split; [constructor; [exact HQ|constructor]|exact HO].
  Qed.
  Lemma box_inside a b y i : box n a b -> length y = n -> (i < n)%nat -> Rabs (nth i y 0) <= 1 / (1 + 1 / 10 ^ 9) -> nth i a 0 <= nth i (boxPoint (bufferLow a b) (bufferHigh a b) y) 0 <= nth i b 0.
  Proof.
    intros HB Ly Hi HY. pose proof HB as (La & Lb & LT). specialize (LT i Hi). destruct (buffer_len a b ltac:(congruence)) as (L1 & L2). rewrite (box_nth _ _ _ _ n) by (auto; congruence).
    destruct (buffer_nth a b i ltac:(congruence) ltac:(lia)) as (-> & ->). rewrite bump_val. set (v := nth i y 0) in *. set (p := nth i a 0) in *. set (q := nth i b 0) in *.
    assert (E : 1 / (1 + 1 / 10 ^ 9) = 1000000000 / 1000000001) by (replace (10 ^ 9) with 1000000000 by ring; lra). rewrite E in HY.
    assert (-(1000000000 / 1000000001) <= v <= 1000000000 / 1000000001) by (revert HY; unfold Rabs; destruct (Rcase_abs v); lra).
    assert ((q - p) * - (1000000000 / 1000000001) <= (q - p) * v <= (q - p) * (1000000000 / 1000000001)) by (split; apply Rmult_le_compat_l; lra). lra.
  Qed.
  Lemma base_solved funcs a b coeffs tol rel gz zero : box n a b -> length funcs = n -> Forall2 (nearly n tol rel (bufferLow a b) (bufferHigh a b)) funcs coeffs -> 0 <= gz ->
    (match @LinAlgModel.solve_linear R R_num coeffs with LinAlgModel.Root x => zero = [map RtoC x] | LinAlgModel.NoRoots => zero = [] | _ => False end) ->
    solvedBox n funcs tol rel (mkLeaf BaseCase (bufferLow a b) (bufferHigh a b) (zeros_in_interval (transformAll (bufferLow a b) (bufferHigh a b) (good_zeros_nd zero gz gz)) a b n)).
  Proof.
    intros HB LF HN HG HZ. exists funcs, coeffs. split; [apply Permutation_refl|]. cbn [low high points]. split; [exact HN|].
    assert (LS : LinAlgProps.linearSystem n coeffs).
    { split; [lia|]. split; [rewrite <- (ApproxError.Forall2_length_eq _ _ _ HN); auto|]. intros t Ht. destruct (Forall2_in_r _ _ _ _ HN Ht) as (f & _ & S1 & S2 & _). unfold ndim. rewrite S1, repeat_length. split; [auto|]. split; [apply ge2; lia|auto]. }
    pose proof (buffer_box n a b HB) as HBB.
    destruct (LinAlgModel.solve_linear coeffs) as [x| | |] eqn:E; try contradiction; subst zero.
    - right. apply (LinAlgProps.C81_root_is_the_only_zero n coeffs x LS) in E. destruct E as (E1 & E2). pose proof E1 as (Lx & _). exists x. split; [auto|]. split; [auto|].
      set (z := boxPoint (bufferLow a b) (bufferHigh a b) x). pose proof HBB as (L1 & L2 & _). assert (Lz : length z = n) by (apply box_len; auto).
      destruct (lin_points n a b z gz HB Lz HG) as (P1 & P2 & _). assert (TZ : SubcheckProps.toCube (bufferLow a b) (bufferHigh a b) z = x) by (apply (toCube_box n); auto). rewrite TZ in P1, P2. split; [exact P1|].
      intros HY. apply P2. split; [auto|]. intros i Hi. apply box_inside; auto.
    - left. split; [apply (proj1 (LinAlgProps.C81_empty_means_no_zero n coeffs LS)); auto|]. clear. unfold transformAll, zeros_in_interval, good_zeros_nd. cbn [filter map]. induction (seq 0 n) as [|i l IH]; auto.
  Qed.
  Lemma solved_ok : forall fuel funcs a b deg gd level ut s s', length funcs = n -> (2 <= deg)%nat -> (4 * deg <= B)%nat ->
    match gd with Some g => length g = n /\ Forall (fun g => (2 <= degOf deg g <= deg)%nat) g | None => True end -> box n a b ->
    length (SubcheckModel.mask (idata s)) = (2 ^ n)%nat -> SubcheckModel.polishing (idata s) = false -> okTols tols n B s ->
    subdivision_solve_nd X tols target_deg ML methods trust fuel funcs a b deg gd level ut s = Finished s' -> meaning (leafMeans funcs) s s'.
  Proof.
    induction fuel as [|fuel IH]; intros funcs a b deg gd level ut s s' HF Hd HB4 HG HB HM HP HO E; cbn [subdivision_solve_nd] in E; [discriminate|]. pose proof HB as (La & Lb & LT).
    destruct (Nat.leb_spec ML level) as [HLv|HLv].
    - injection E as <-. exists [mkLeaf TooDeep a b [map (fun p => (fst p + snd p) / 2) (combine a b)]]. unfold trackInterval. cbn [idata SubcheckModel.mask SubcheckModel.polishing results tracked work]. rewrite HP. cbn [map stored why low high fold_left].
      split; [auto|]. split; [auto|]. split; [reflexivity|]. split; [reflexivity|]. split; [|exact HO]. constructor; [|constructor]. split; cbn [why]; [discriminate|intros _; discriminate].
    - destruct (updateTols X tols funcs a b deg level ut s) as [s0|] eqn:E0; [|discriminate]. destruct (update_keeps X tols funcs a b deg level ut s s0 E0) as (I0 & R0 & T0).
      pose proof (update_ok X tols n B Hn Hchk funcs a b deg level ut s s0 La Lb HO E0) as HO0.
      assert (BACK : forall P st, meaning P s0 st -> meaning P s st) by (intros P st (ls & Q); rewrite R0, T0 in Q; exists ls; exact Q).
      set (gs := match gd with Some g => g | None => _ end) in E. assert (LG : length gs = length funcs) by (unfold gs; destruct gd; [destruct HG; congruence|apply repeat_length]).
      assert (GB : Forall (fun g => (2 <= degOf deg g <= deg)%nat) gs).
      { unfold gs. destruct gd; [apply HG|]. apply Forall_forall. intros g Hg. apply repeat_spec in Hg. subst g. cbn [degOf]. lia. }
      destruct (approxLoop X tols funcs gs _ _ deg _ 0 (work s0)) as [[[[[failed cs] ns] es] w]|] eqn:EA; [|discriminate].
      destruct (buffer_len a b ltac:(congruence)) as (BL1 & BL2). rewrite La in BL1, BL2. destruct HO0 as (HW0 & HT0).
      destruct (loop_ok X tols n B Hn _ _ deg _ BL1 HB4 funcs gs 0%nat (work s0) failed cs ns es w LG GB HW0 EA) as (HW1 & HAll).
      destruct (loop_shape _ _ _ _ _ _ _ _ _ _ _ _ _ _ _ LG EA) as (SH & CNT). rewrite BL1 in SH.
      set (s1 := mkSearch w (idata s0) (results s0) (tracked s0) (abs_approx_tol s0) (target_tol s0)) in E.
      apply BACK. assert (BACK1 : forall P st, meaning P s1 st -> meaning P s0 st) by (intros P st H; exact H). apply BACK1. clear BACK BACK1.
      assert (M1 : length (SubcheckModel.mask (idata s1)) = (2 ^ n)%nat) by (cbn [s1 idata]; rewrite I0; auto). assert (P1 : SubcheckModel.polishing (idata s1) = false) by (cbn [s1 idata]; rewrite I0; auto).
      assert (O1 : okTols tols n B s1) by (split; [exact HW1|exact HT0]).
      clearbody s1. destruct failed as [num|].
      + destruct (subintervals X methods a b cs _ false s1) as [[l s2]|] eqn:ES; [|discriminate].
        eapply sub_means; [exact HB|exact M1|exact P1|exact O1|exact SH| |exact ES| |exact E]; [right; lia|].
        intros a' b' t t' B' M' P' O' E'. assert (PM : Permutation funcs (reorder funcs num)).
        { unfold reorder. destruct (nth_error funcs num) as [f|] eqn:EN; [|apply Permutation_refl]. destruct (nth_error_split _ _ EN) as (l1 & l2 & -> & <-). rewrite firstn_app, Nat.sub_diag, firstn_all. cbn [firstn]. rewrite app_nil_r.
          replace (S (length l1)) with (length l1 + 1)%nat by lia. rewrite skipn_app. rewrite skipn_all2 by lia. replace (length l1 + 1 - length l1)%nat with 1%nat by lia. cbn [skipn List.app]. apply Permutation_app_head. apply Permutation_cons_append. }
        eapply meaning_imp; [intros lf; apply (leafMeans_perm funcs (reorder funcs num)); exact PM|].
        eapply IH; [| | | |exact B'|exact M'|exact P'|exact O'|exact E']; [rewrite <- (Permutation_length PM); auto|auto|auto|exact I].
      + specialize (HAll eq_refl). destruct CNT as (C1 & C2 & C3). destruct (trim_coeffs cs _ _ ns es) as [[[coeffs good] es']|] eqn:ET; [|discriminate].
        destruct (trim_shape n _ _ cs ns es coeffs good es' ltac:(congruence) ltac:(congruence) ET SH) as (SH' & C1' & C3').
        set (errs := floorErrors trust es') in E. assert (LE : length errs = length coeffs) by (unfold errs, floorErrors; destruct trust; rewrite ?map_length; congruence).
        set (gs' := if good then _ else gs) in E.
        assert (LG' : length gs' = n) by (unfold gs'; destruct good; [rewrite map_length|]; congruence).
        assert (GB' : Forall (fun g => (2 <= degOf deg g <= deg)%nat) gs').
        { unfold gs'. destruct good; [|auto]. pose proof (trim_all n _ _ deg _ _ Hn _ _ _ _ _ _ _ HAll ET) as TA. apply (trim_sides n _ _ deg _ _ Hn) in TA. apply Forall_forall. intros g Hg. apply in_map_iff in Hg. destruct Hg as (c & <- & Hc).
          rewrite Forall_forall in TA. specialize (TA c Hc). cbn [degOf]. lia. }
        set (gz := Rmax _ _) in E. assert (GZ : 0 <= gz) by (unfold gz; eapply Rle_trans; [exact Hmin|apply Rmax_l]).
        set (sub := match subintervals X methods a b coeffs errs true s1 with Some _ => _ | None => _ end) in E.
        assert (SUB : sub = Finished s' -> meaning (leafMeans funcs) s1 s').
        { unfold sub. destruct (subintervals X methods a b coeffs errs true s1) as [[l s2]|] eqn:ES; [|discriminate]. intros E'.
          eapply sub_means; [exact HB|exact M1|exact P1|exact O1|exact SH'| |exact ES| |exact E']; [left; auto|].
          intros a' b' t t' B' M' P' O' E''. eapply IH; [exact HF|exact Hd|exact HB4| |exact B'|exact M'|exact P'|exact O'|exact E'']. split; [exact LG'|exact GB']. }
        clearbody sub. rewrite La in E. destruct (existsb _ coeffs || negb good) eqn:EG; [auto|]. apply orb_false_iff in EG. destruct EG as (_ & EG). apply negb_false_iff in EG. subst good.
        pose proof (trim_all n _ _ deg _ _ Hn _ _ _ _ _ _ _ HAll ET) as TA.
        destruct (existsb _ (combine errs ns)) eqn:EE; [auto|]. destruct (forallb _ coeffs) eqn:EF.
        * destruct (Nat.eqb_spec deg 2) as [D|D]; cbn [negb] in E.
          -- subst deg. pose proof (near_all n (target_tol s1) (rel_approx_tol tols) _ _ _ _ trust Hn _ _ _ _ _ TA EF EE) as NA.
             assert (BS : forall zero, (match @LinAlgModel.solve_linear R R_num coeffs with LinAlgModel.Root x => zero = [map RtoC x] | LinAlgModel.NoRoots => zero = [] | _ => False end) ->
               meaning (leafMeans funcs) s1 (addRoots (zeros_in_interval (transformAll (bufferLow a b) (bufferHigh a b) (good_zeros_nd zero gz gz)) a b n) (bufferLow a b) (bufferHigh a b) BaseCase (trackInterval BaseCase (bufferLow a b) (bufferHigh a b) s1))).
             { intros zero HZ. apply addRoots_means; [exact M1|exact P1|exact O1|discriminate|]. split; [|intros _; discriminate]. intros _. exists (target_tol s1). split; [apply O1|]. split; [apply O1|]. apply (base_solved funcs a b coeffs); auto. }
             destruct (LinAlgModel.solve_linear coeffs) as [x| | |] eqn:SL; try discriminate; injection E as <-; [apply (BS [map RtoC x] eq_refl)|apply (BS [] eq_refl)].
          -- apply (IH funcs (bufferLow a b) (bufferHigh a b) 2%nat (Some gs') level true s1 s'); [exact HF|lia|lia| |apply buffer_box; exact HB|exact M1|exact P1|exact O1|exact E]. split; [exact LG'|]. unfold gs'. apply Forall_forall. intros g Hg. apply in_map_iff in Hg. destruct Hg as (c & <- & Hc).
             rewrite forallb_forall in EF. specialize (EF c Hc). apply Nat.eqb_eq in EF. rewrite EF. cbn [degOf]. lia.
        * destruct (takesLeadTerm X) eqn:TL; [|discriminate]. destruct (tMult X _) as [[|z zs]| | | |]; try discriminate; auto. injection E as <-. apply addRoots_means; auto; [discriminate|]. split; cbn [why]; [discriminate|congruence].
  Qed.
End Search.
