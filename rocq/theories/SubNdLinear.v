(** * Linear systems in the solver in several variables of subdivision.py *)
From Coq Require Import Reals List Lia Lra Arith Bool.
From Coquelicot Require Import Complex.
From Coq Require Import List.
From Verif Require Import Num RSum Tensor Cheb PolySpec CombinedModel CombinedSpec LinearProofs ApproxModel ApproxDct ApproxInterp ApproxDegree MakerModel MakerProofs MakerRun MakerProps MakerMore.
From Verif Require Import SubApproxModel SubApproxProofs SubApproxProps SubApproxMore TrackerModel TrimcModel TrimcProofs.
From Verif Require ApproxError LinAlgModel LinAlgSpec LinAlgProofs LinAlgProps SubcheckModel SubcheckCover SubcheckProps MsModel SubNdModel.
Import SubNdModel.
From Verif Require Import SubNdSpec SubNdProofs.
Import ListNotations.
Local Open Scope R_scope.
Notation isLinear := LinAlgSpec.isLinear.
Notation unitIdx := LinAlgModel.unitIdx.
Notation box := SubcheckProps.box.

Lemma box_nth a b y i n : length a = n -> length b = n -> length y = n -> (i < n)%nat -> nth i (boxPoint a b y) 0 = ((nth i b 0 - nth i a 0) * nth i y 0 + (nth i b 0 + nth i a 0)) / 2.
Proof.
  unfold boxPoint. revert a b y i. induction n as [|n IH]; intros [|a0 a] [|b0 b] [|y0 y] i La Lb Ly Hi; try discriminate; try lia. cbn [combine map fst snd]. destruct i as [|i]; cbn [nth]; [reflexivity|]. apply IH; auto; lia.
Qed.
Lemma box_len a b y n : length a = n -> length b = n -> length y = n -> length (boxPoint a b y) = n.
Proof. intros. unfold boxPoint. rewrite map_length, !combine_length. lia. Qed.

(** ** the series of a linear function *)
Definition linT (n s : nat) (c : R) (w : nat -> R) : tensor R :=
  tbuild (repeat s n) (fun idx => if (list_sum idx =? 0)%nat then c else if (list_sum idx =? 1)%nat then sumn n (fun i => w i * INR (nth i idx 0%nat)) else 0).
Lemma lsum_zero n : list_sum (repeat 0%nat n) = 0%nat.
Proof. induction n; auto. Qed.
Lemma nth_unit n : forall d k, (d < n)%nat -> nth k (unitIdx n d) 0%nat = if Nat.eqb k d then 1%nat else 0%nat.
Proof.
  unfold LinAlgModel.unitIdx. induction n as [|n IH]; intros d k Hd; [lia|]. destruct d as [|d]; cbn [repeat upd].
  - destruct k as [|k]; cbn [nth Nat.eqb]; auto. clear. revert k. induction n as [|n IH]; intros [|k]; cbn [repeat nth]; auto.
  - destruct k as [|k]; cbn [nth Nat.eqb]; auto. apply IH. lia.
Qed.
Lemma ge2 s n : (2 <= s)%nat -> Forall (fun k => (2 <= k)%nat) (repeat s n).
Proof. intros H. apply Forall_forall. intros k Hk. apply repeat_spec in Hk. lia. Qed.
Lemma linT_linear n s c w : isLinear (linT n s c w).
Proof. intros idx Hi H2. unfold linT in *. cbn [shp tbuild] in Hi. rewrite tget_tbuild by auto. destruct (Nat.eqb_spec (list_sum idx) 0), (Nat.eqb_spec (list_sum idx) 1); try lia; reflexivity. Qed.
Lemma linT_eval n s c w y : (2 <= s)%nat -> length y = n -> cheb_eval (linT n s c w) y = c + sumn n (fun i => w i * nth i y 0).
Proof.
  intros Hs Hy. assert (ND : ndim (linT n s c w) = n) by (unfold ndim, linT; cbn [shp tbuild]; apply repeat_length).
  rewrite LinAlgProofs.cheb_linear; [| |apply linT_linear|congruence].
  2: { unfold linT. cbn [shp tbuild]. apply ge2; auto. }
  rewrite ND. f_equal.
  - unfold linT. rewrite tget_tbuild; [rewrite lsum_zero; reflexivity|]. pose proof (LinAlgProofs.zero_inrange (repeat s n) (ge2 s n Hs)) as H. rewrite repeat_length in H. exact H.
  - apply sumn_ext. intros d Hd. f_equal. unfold linT. rewrite tget_tbuild.
    + rewrite LinAlgProofs.lsum_unit by auto. cbn [Nat.eqb]. rewrite (sumn_single n d); auto; [rewrite nth_unit, Nat.eqb_refl by auto; cbn [INR]; ring|].
      intros i Hi Hne. rewrite nth_unit by auto. destruct (Nat.eqb_spec i d); [congruence|cbn [INR]; ring].
    + pose proof (LinAlgProofs.unit_inrange (repeat s n) (ge2 s n Hs) d) as H. rewrite repeat_length in H. exact H.
Qed.
Lemma affine_box n f c w a b y : affine n f c w -> length a = n -> length b = n -> length y = n ->
  callAt f (boxPoint a b y) = (c + sumn n (fun i => w i * ((nth i b 0 + nth i a 0) / 2))) + sumn n (fun i => (w i * ((nth i b 0 - nth i a 0) / 2)) * nth i y 0).
Proof.
  intros HA La Lb Ly. rewrite HA by (apply box_len; auto). rewrite Rplus_assoc. f_equal. rewrite <- sumn_plus. apply sumn_ext. intros i Hi. rewrite (box_nth a b y i n) by auto. field.
Qed.
(** the array M holds the function f on the box [a, b] *)
Definition holds (n s : nat) (a b : list R) (f : fobj R) (M : tensor R) : Prop :=
  shp M = repeat s n /\ isLinear M /\ forall y, length y = n -> cheb_eval M y = callAt f (boxPoint a b y).
Lemma lin_holds n s f c w a b : (2 <= s)%nat -> affine n f c w -> length a = n -> length b = n ->
  holds n s a b f (linT n s (c + sumn n (fun i => w i * ((nth i b 0 + nth i a 0) / 2))) (fun i => w i * ((nth i b 0 - nth i a 0) / 2))).
Proof. intros Hs HA La Lb. split; [reflexivity|]. split; [apply linT_linear|]. intros y Hy. rewrite linT_eval by auto. symmetry. apply affine_box; auto. Qed.
Lemma lin_nd junk n f c w a b deg B st : (1 <= n)%nat -> (1 <= deg)%nat -> affine n f c w -> length a = n -> length b = n -> workSide st n B -> (2 * deg <= B)%nat ->
  exists m st', interval_approximate_nd cosR junk f a b deg st =
    Some (linT n (S deg) (c + sumn n (fun i => w i * ((nth i b 0 + nth i a 0) / 2))) (fun i => w i * ((nth i b 0 - nth i a 0) / 2)), m, st') /\ 0 <= m /\ workSide st' n B.
Proof.
  intros Hn Hd HA La Lb HW HB. destruct (nd_ok junk f a b deg n B st Hn Hd La HW ltac:(left; auto)) as (N & m & st' & E & HI & (HG & y & Hy & Em) & HW').
  exists m, st'. split; [|split; [rewrite <- Em; apply Rabs_pos|]].
  2: { destruct (Nat.leb_spec (2 * deg) B); [auto|lia]. }
  rewrite E. do 3 f_equal. apply (interpolant_unique (callAt f) a b (repeat deg n)); auto; [apply repeat_pos; auto|].
  destruct (lin_holds n (S deg) f c w a b ltac:(lia) HA La Lb) as (S1 & _ & V). split; [apply wf_tbuild; apply Forall_forall; intros k Hk; apply repeat_spec in Hk; lia|]. split; [rewrite map_repeat_; exact S1|].
  intros z Hz. apply V. destruct Hz as (j & Hj & ->). apply ApproxError.Forall2_length_eq in Hj. rewrite repeat_length in Hj. rewrite map_length, combine_length, repeat_length. lia.
Qed.
Lemma lin_difference n g c w : (1 <= g)%nat -> difference (linT n (S (2 * g)) c w) (linT n (S g) c w) = 0.
Proof.
  intros Hg. unfold difference. rewrite (sumidx_ext _ _ (fun _ => 0)); [apply sumidx_0|]. intros idx Hi. rewrite coefAt_in by auto.
  unfold coefAt. unfold linT in *. cbn [shp tbuild] in *. rewrite tget_tbuild by auto. destruct (forallb (fun p => (fst p <? snd p)%nat) (combine idx (repeat (S g) n))) eqn:E.
  - rewrite tget_tbuild; [rewrite Rminus_diag_eq by reflexivity; apply Rabs_R0|]. apply inrange_length in Hi. rewrite repeat_length in Hi. rewrite forallb_forall in E. subst n. clear c w. induction idx as [|x idx IH]; cbn [length repeat]; constructor.
    + specialize (E (x, S g) (or_introl eq_refl)). cbn [fst snd] in E. apply Nat.ltb_lt in E. lia.
    + apply IH. intros p Hp. apply E. right. exact Hp.
  - assert (H2 : (2 <= list_sum idx)%nat).
    { apply inrange_length in Hi. rewrite repeat_length in Hi. subst n. clear c w. revert E. induction idx as [|x idx IH]; cbn [length repeat combine forallb fst snd]; [discriminate|]. rewrite LinAlgProofs.lsum_cons. destruct (Nat.ltb_spec x (S g)); cbn [andb]; [intros E; specialize (IH E); lia|lia]. }
    destruct (Nat.eqb_spec (list_sum idx) 0), (Nat.eqb_spec (list_sum idx) 1); try lia. rewrite Rminus_0_r. apply Rabs_R0.
Qed.
Lemma lin_full junk n f c w a b deg gd tol rel B st : (1 <= n)%nat -> affine n f c w -> length a = n -> length b = n -> workSide st n B ->
  let g := match gd with None => deg | Some g => g end in (1 <= g)%nat -> (4 * g <= B)%nat -> 0 <= tol -> 0 <= rel ->
  exists M m st', full_cheb_approximate cosR junk f a b deg tol rel gd st = Some ((Some M, m, 0), st') /\ holds n (S g) a b f M /\ 0 <= m /\ workSide st' n B.
Proof.
  intros Hn HA La Lb HW g Hg HB Ht Hr. unfold full_cheb_approximate. fold g.
  destruct (lin_nd junk n f c w a b g B st Hn Hg HA La Lb HW ltac:(lia)) as (m1 & st1 & E1 & _ & HW1). rewrite E1.
  destruct (lin_nd junk n f c w a b (g * 2) B st1 Hn ltac:(lia) HA La Lb HW1 ltac:(lia)) as (m2 & st2 & E2 & Hm & HW2). rewrite E2.
  set (c' := c + _). set (w' := fun i : nat => w i * ((nth i b 0 - nth i a 0) / 2)).
  assert (ER : @get_err R R_num (linT n (S g) c' w') (linT n (S (g * 2)) c' w') = 0).
  { rewrite get_err_difference; [rewrite Nat.mul_comm; apply lin_difference; auto|cbn [shp linT tbuild]; rewrite !repeat_length; reflexivity|]. cbn [shp linT tbuild]. apply Forall_forall. intros x Hx. apply repeat_spec in Hx. lia. }
  rewrite ER. unfold ngtb. rnum. assert (HT : Rltb (tol + rel * m2) 0 = false) by (apply Rltb_false; pose proof (Rmult_le_pos rel m2 Hr Hm); lra). rewrite HT.
  do 3 eexists. split; [reflexivity|]. split; [apply lin_holds; auto; lia|]. auto.
Qed.
Lemma lin_loop X tols n a b deg tol B : (1 <= n)%nat -> length a = n -> length b = n -> (2 <= deg)%nat -> 0 <= tol -> 0 <= rel_approx_tol tols ->
  forall funcs gs num st, Forall (isAffine n) funcs -> length gs = length funcs -> Forall (fun g => let g := match g with None => deg | Some g => g end in (2 <= g)%nat /\ (4 * g <= B)%nat) gs -> workSide st n B ->
  exists cs ns st', approxLoop X tols funcs gs a b deg tol num st = Some (None, cs, ns, repeat 0 (length funcs), st') /\
    Forall2 (fun f M => exists s, (3 <= s)%nat /\ holds n s a b f M) funcs cs /\ length ns = length funcs /\ Forall (fun m => 0 <= m) ns /\ workSide st' n B.
Proof.
  intros Hn La Lb Hd Ht Hr. induction funcs as [|f fs IH]; intros [|g gs] num st HA HL HG HW; try discriminate; cbn [approxLoop length repeat].
  - exists [], [], st. repeat split; auto.
  - inversion HA as [|? ? (c & w & Hf) HA']; subst. inversion HG as [|? ? Hg HG']; subst. injection HL as HL. cbv zeta in Hg.
    destruct (lin_full (tJunk X) _ f c w a b deg g tol (rel_approx_tol tols) B st Hn Hf eq_refl Lb HW ltac:(lia) ltac:(lia) Ht Hr) as (M & m & st1 & E & HM & Hm & HW1). rewrite E.
    destruct (IH gs (S num) st1 HA' HL HG' HW1) as (cs & ns & st2 & E2 & H1 & H2 & H3 & H4). rewrite E2. exists (M :: cs), (m :: ns), st2. split; [reflexivity|]. split; [|split; [cbn [length]; congruence|split; [constructor; auto|auto]]].
    constructor; auto. eexists. split; [|exact HM]. lia.
Qed.
Lemma absum_zero (M : tensor R) (P : list nat -> bool) : (forall idx, inrange (shp M) idx -> P idx = true -> tget M idx = 0) -> absum M P = 0.
Proof.
  intros H. unfold absum. assert (G : forall l, (forall i, In i l -> inrange (shp M) i) -> Rsum (map (fun idx => if P idx then Rabs (tget M idx) else 0) l) = 0).
  { induction l as [|i l IH]; intros Hl; [reflexivity|]. cbn [map]. unfold Rsum in *. cbn [fold_right]. rewrite IH by (intros; apply Hl; right; auto). destruct (P i) eqn:E; [rewrite H by (auto; apply Hl; left; auto); rewrite Rabs_R0|]; ring. }
  apply G. intros i Hi. apply in_indices; auto.
Qed.
Lemma lin_trimOne n s a b f M allowed : (2 <= n)%nat -> (3 <= s)%nat -> holds n s a b f M -> 0 <= allowed ->
  exists M', trimOne M 0 allowed = Some (M', true, 0) /\ holds n 2 a b f M'.
Proof.
  intros Hn Hs (SH & LN & V) Ha. destruct (trimOne_spec n s M Hn Hs SH 0 allowed) as (M' & good & e' & E & H).
  assert (Z : forall k, (1 <= k)%nat -> absum M (dropped n s k) = 0) by (intros k Hk; apply absum_zero; intros idx Hi Hd; apply LN; auto; unfold dropped in Hd; apply andb_prop in Hd; destruct Hd as (Hd & _); apply Nat.ltb_lt in Hd; lia).
  destruct good.
  2: { exfalso. destruct H as (_ & He & Hlt). unfold cutError in He. rewrite Z in He by lia. lra. }
  destruct H as (k & Hk & F1 & F2 & F3 & F4 & F5). unfold cutError in F3. rewrite Z in F3 by lia. rewrite Rplus_0_r in F3. subst e'.
  assert (k = 1%nat) as ->.
  { destruct F5 as [|F5]; auto. destruct (Nat.eq_dec k 1); auto. exfalso. rewrite absum_zero in F5; [lra|]. intros idx Hi Hd. apply Nat.eqb_eq in Hd. apply LN; auto. lia. }
  exists M'. split; [exact E|]. cbn [Nat.add] in *.
  assert (LO : forall idx, inrange (repeat 2 n)%nat idx -> (list_sum idx <= 1)%nat -> tget M' idx = tget M idx).
  { intros idx Hi Hl. rewrite F2 by auto. unfold dropped. destruct (Nat.ltb_spec 1 (list_sum idx)); [lia|reflexivity]. }
  assert (LN' : isLinear M').
  { intros idx Hi Hl. rewrite F1 in Hi. rewrite F2 by auto. unfold dropped. destruct (Nat.ltb_spec 1 (list_sum idx)); [|lia]. destruct (isCorner n s idx); cbn [negb andb]; [|reflexivity].
    apply LN; auto. rewrite SH. revert Hi. clear -Hs. revert idx. induction n as [|n IH]; intros idx Hi; inversion Hi; subst; cbn [repeat]; constructor; [lia|apply IH; auto]. }
  split; [auto|]. split; [auto|]. intros y Hy. rewrite <- V by auto.
  assert (ND : ndim M' = n) by (unfold ndim; rewrite F1; apply repeat_length). assert (ND0 : ndim M = n) by (unfold ndim; rewrite SH; apply repeat_length).
  rewrite !LinAlgProofs.cheb_linear; auto; try congruence; [|rewrite SH; apply ge2; lia|rewrite F1; apply ge2; lia].
  rewrite ND, ND0. f_equal.
  - apply LO; [pose proof (LinAlgProofs.zero_inrange (repeat 2 n)%nat (ge2 2 n ltac:(lia))) as H; rewrite repeat_length in H; exact H|]. rewrite lsum_zero. lia.
  - apply sumn_ext. intros d Hd. f_equal. apply LO; [pose proof (LinAlgProofs.unit_inrange (repeat 2 n)%nat (ge2 2 n ltac:(lia)) d) as H; rewrite repeat_length in H; exact H|]. rewrite LinAlgProofs.lsum_unit by auto. lia.
Qed.
Lemma lin_trim n a b abs rel : (2 <= n)%nat -> 0 <= abs -> 0 <= rel -> forall funcs cs ns,
  Forall2 (fun f M => exists s, (3 <= s)%nat /\ holds n s a b f M) funcs cs -> length ns = length funcs -> Forall (fun m => 0 <= m) ns ->
  exists cs', trim_coeffs cs abs rel ns (repeat 0 (length funcs)) = Some (cs', true, repeat 0 (length funcs)) /\ Forall2 (holds n 2 a b) funcs cs'.
Proof.
  intros Hn Ha Hr. induction funcs as [|f fs IH]; intros cs ns HF HL HN; inversion HF as [|? M ? cs0 (s & Hs & HM) HF']; subst; [destruct ns; [|discriminate]; exists []; auto|].
  destruct ns as [|m ns]; [discriminate|]. inversion HN as [|? ? Hm HN']; subst. injection HL as HL. cbn [length repeat trim_coeffs]. rnum.
  destruct (lin_trimOne n s a b f M (abs + rel * m) Hn Hs HM) as (M' & E & HM'); [pose proof (Rmult_le_pos rel m Hr Hm); lra|]. rewrite E.
  destruct (IH cs0 ns HF' HL HN') as (cs' & E' & H'). rewrite E'. exists (M' :: cs'). split; [reflexivity|]. constructor; auto.
Qed.

(** ** the tolerance from sampling *)
Lemma lin_abs_tol X n f a b B st : (1 <= n)%nat -> isAffine n f -> length a = n -> length b = n -> length (tPoint X n) = n -> workSide st n B -> (12 <= B)%nat ->
  exists st', get_abs_approx_tol X f 3 a b n st = Some (0, st') /\ workSide st' n B.
Proof.
  intros Hn (c & w & HA) La Lb LP HW HB. unfold get_abs_approx_tol. set (x := SubcheckModel.mapBounds _ a b _).
  assert (Lx : length x = n) by (unfold x, SubcheckModel.mapBounds; rewrite map_length, !combine_length; lia).
  destruct (lin_nd (tJunk X) n f c w (map (fun v => v - 1 / 10 ^ 14) x) (map (fun v => v + 1 / 10 ^ 14) x) (2 * 3) B st Hn ltac:(lia) HA ltac:(rewrite map_length; auto) ltac:(rewrite map_length; auto) HW ltac:(lia)) as (m & st' & E & _ & HW').
  rewrite E. set (L := linT n _ _ _). exists st'. split; [|exact HW']. do 2 f_equal.
  assert (Z : @tsumabs R R_num (tbuild (shp L) (fun idx => if forallb (fun i => (i <? 3)%nat) idx then 0 else tget L idx)) = 0).
  { unfold tsumabs, nsumabs. rewrite nsum_R. cbn [dat tbuild]. rewrite map_map. rnum. 
    assert (G : forall l, (forall i, In i l -> inrange (shp L) i) -> fold_right Rplus 0 (map (fun idx => Rabs (if forallb (fun i => (i <? 3)%nat) idx then 0 else tget L idx)) l) = 0).
    { induction l as [|i l IH]; intros Hl; [reflexivity|]. cbn [map fold_right]. rewrite IH by (intros; apply Hl; right; auto). destruct (forallb _ i) eqn:EF; [rewrite Rabs_R0; ring|].
      assert (tget L i = 0) as ->; [|rewrite Rabs_R0; ring]. apply linT_linear; [apply Hl; left; auto|]. clear -EF. induction i as [|v i IH]; [discriminate|]. cbn [forallb] in EF. rewrite LinAlgProofs.lsum_cons. destruct (Nat.ltb_spec v 3); cbn [andb] in EF; [specialize (IH EF); lia|lia]. }
    apply G. intros i Hi. apply in_indices; auto. }
  rewrite Z. unfold Rdiv. ring.
Qed.
Lemma lin_evalTol X n a b B numSpots tol : (1 <= n)%nat -> length a = n -> length b = n -> length (tPoint X n) = n -> (12 <= B)%nat -> 0 <= tol ->
  forall funcs st, Forall (isAffine n) funcs -> workSide st n B -> exists st', evalTol X funcs numSpots a b n tol st = Some (tol, st') /\ workSide st' n B.
Proof.
  intros Hn La Lb LP HB Ht. induction funcs as [|f fs IH]; intros st HA HW; cbn [evalTol]; [exists st; auto|]. inversion HA; subst.
  destruct (lin_abs_tol X (length a) f a b B st) as (st' & E & HW'); auto. rewrite E. rewrite Rmult_0_r, Rmax_left by auto. apply IH; auto.
Qed.
Definition freshTols (tols : tolset) (s : search) : Prop := abs_approx_tol s = abs_approx_tol0 tols /\ target_tol s = target_tol0 tols.
Lemma lin_update X tols n funcs a b deg level ut s B : (1 <= n)%nat -> length a = n -> length b = n -> (check_eval_error tols = true -> length (tPoint X n) = n /\ (12 <= B)%nat) ->
  0 <= abs_approx_tol0 tols -> 0 <= target_tol0 tols -> Forall (isAffine n) funcs -> freshTols tols s -> workSide (work s) n B ->
  exists s', updateTols X tols funcs a b deg level ut s = Some s' /\ freshTols tols s' /\ workSide (work s') n B /\ idata s' = idata s /\ results s' = results s /\ tracked s' = tracked s.
Proof.
  intros Hn La Lb HC HA0 HT0 HF (F1 & F2) HW. unfold updateTols. destruct (check_eval_error tols); [|exists s; repeat split; auto]. destruct (HC eq_refl) as (LP & HB). rewrite La.
  set (start := if ut then _ else _). assert (HS : 0 <= start) by (unfold start; destruct ut; auto).
  assert (EV : exists st, (if (level mod check_eval_freq tols =? 0)%nat then evalTol X funcs (INR ((deg * 2) ^ n) - INR (deg ^ n)) a b n start (work s) else Some (start, work s)) = Some (start, st) /\ workSide st n B).
  { destruct (level mod check_eval_freq tols =? 0)%nat; [apply lin_evalTol; auto|exists (work s); auto]. }
  destruct EV as (st & E & HW'). rewrite E. eexists. split; [reflexivity|]. unfold start, freshTols. destruct ut; cbn [abs_approx_tol target_tol work idata results tracked]; auto 10.
Qed.

(** ** the solution *)
Lemma list_nth_ext n (u v : list R) : length u = n -> length v = n -> (forall i, (i < n)%nat -> nth i u 0 = nth i v 0) -> u = v.
Proof. intros Lu Lv H. apply (nth_ext u v 0 0); [congruence|]. intros i Hi. apply H. lia. Qed.
Lemma toCube_nth n : forall a b x i, length a = n -> length b = n -> length x = n -> (i < n)%nat -> nth i (SubcheckProps.toCube a b x) 0 = (2 * nth i x 0 - nth i a 0 - nth i b 0) / (nth i b 0 - nth i a 0).
Proof. induction n as [|n IH]; intros [|a0 a] [|b0 b] [|x0 x] i La Lb Lx Hi; try discriminate; try lia. cbn [SubcheckProps.toCube]. destruct i; cbn [nth]; [reflexivity|]. apply IH; auto; lia. Qed.
Lemma toCube_len n : forall a b x, length a = n -> length b = n -> length x = n -> length (SubcheckProps.toCube a b x) = n.
Proof. induction n as [|n IH]; intros [|a0 a] [|b0 b] [|x0 x] La Lb Lx; try discriminate; cbn [SubcheckProps.toCube length]; auto. Qed.
Lemma box_toCube n a b z : box n a b -> length z = n -> boxPoint a b (SubcheckProps.toCube a b z) = z.
Proof.
  intros (La & Lb & LT) Lz. pose proof (toCube_len n a b z La Lb Lz) as LC. apply (list_nth_ext n); auto; [apply box_len; auto|]. intros i Hi. rewrite (box_nth a b _ i n) by auto. rewrite (toCube_nth n) by auto. specialize (LT i Hi). field. lra.
Qed.
Lemma toCube_box n a b y : box n a b -> length y = n -> SubcheckProps.toCube a b (boxPoint a b y) = y.
Proof.
  intros (La & Lb & LT) Ly. pose proof (box_len a b y n La Lb Ly) as LC. apply (list_nth_ext n); auto; [apply toCube_len; auto|]. intros i Hi. rewrite (toCube_nth n) by auto. rewrite (box_nth a b _ i n) by auto. specialize (LT i Hi). field. lra.
Qed.
Lemma transform_box n a b x : length a = n -> length b = n -> length x = n -> @SubcheckModel.mapBounds R (@SubcheckModel.transform1 R R_num) a b x = boxPoint a b x.
Proof.
  intros La Lb Lx. apply (list_nth_ext n); [unfold SubcheckModel.mapBounds; rewrite map_length, !combine_length; lia|apply box_len; auto|]. intros i Hi. rewrite (box_nth a b x i n) by auto.
  revert a b x i La Lb Lx Hi. unfold SubcheckModel.mapBounds. induction n as [|m IH]; intros [|a0 a] [|b0 b] [|x0 x] i La Lb Lx Hi; try discriminate; try lia. cbn [combine map fst snd]. destruct i as [|i]; cbn [nth]; [|apply IH; auto; lia].
  unfold SubcheckModel.transform1. rnum. rewrite n2_R. reflexivity.
Qed.
Lemma Forall2_in_l {A B} (P : A -> B -> Prop) l m x : Forall2 P l m -> In x l -> exists y, In y m /\ P x y.
Proof. induction 1; [intros []|]. intros [<-|H1]; [eexists; split; [left; reflexivity|auto]|]. destruct (IHForall2 H1) as (y' & ? & ?). exists y'. split; [right|]; auto. Qed.
Lemma Forall2_in_r {A B} (P : A -> B -> Prop) l m y : Forall2 P l m -> In y m -> exists x, In x l /\ P x y.
Proof. induction 1; [intros []|]. intros [<-|H1]; [eexists; split; [left; reflexivity|auto]|]. destruct (IHForall2 H1) as (y' & ? & ?). exists y'. split; [right|]; auto. Qed.
Lemma lin_solution n a b funcs cs z : (1 <= n)%nat -> length funcs = n -> box n a b -> Forall2 (holds n 2 a b) funcs cs -> onlyZero n funcs z ->
  @LinAlgModel.solve_linear R R_num cs = LinAlgModel.Root (SubcheckProps.toCube a b z).
Proof.
  intros Hn LF HB HF (Lz & Z0 & ZU). pose proof HB as (La & Lb & LT).
  apply (LinAlgProps.C81_root_is_the_only_zero n).
  - split; [auto|]. split; [rewrite <- (ApproxError.Forall2_length_eq _ _ _ HF); auto|]. intros t Ht. destruct (Forall2_in_r _ _ _ _ HF Ht) as (f & Hf & S1 & S2 & _). unfold ndim. rewrite S1, repeat_length. split; [auto|]. split; [apply ge2; lia|auto].
  - split.
    + split; [apply toCube_len; auto|]. intros t Ht. destruct (Forall2_in_r _ _ _ _ HF Ht) as (f & Hf & _ & _ & V). rewrite V by (apply toCube_len; auto). rewrite (box_toCube n) by auto. auto.
    + intros y (Ly & Hy). rewrite <- (ZU (boxPoint a b y)); [symmetry; apply (toCube_box n); auto|apply box_len; auto|]. intros f Hf. destruct (Forall2_in_l _ _ _ _ HF Hf) as (t & Ht & _ & _ & V). rewrite <- V by auto. auto.
Qed.

Section Pass.
  Variables (X : tools) (tols : tolset) (target_deg ML : nat) (methods : list SubcheckModel.reduction) (trust : bool) (n B : nat).
  Hypothesis Hn : (2 <= n)%nat.
  Hypothesis Htd : (1 <= target_deg)%nat.
  Hypothesis Habs : 0 <= abs_approx_tol0 tols.
  Hypothesis Htar : 0 <= target_tol0 tols /\ (trust = false -> macheps <= target_tol0 tols).
  Hypothesis Hrel : 0 <= rel_approx_tol tols.
  Hypothesis Hmin : 0 <= min_good_zeros_tol tols.
  Hypothesis Hchk : check_eval_error tols = true -> length (tPoint X n) = n /\ (12 <= B)%nat.
  Hypothesis HB8 : (8 <= B)%nat.
  Definition same (s s1 : search) : Prop := freshTols tols s1 /\ workSide (work s1) n B /\ idata s1 = idata s /\ results s1 = results s /\ tracked s1 = tracked s.
  Lemma sides a b funcs cs (P : tensor R -> Prop) : (forall c, shp c = repeat 2%nat n -> P c) -> Forall2 (holds n 2 a b) funcs cs -> forall c, In c cs -> P c.
  Proof. intros H HF c Hc. destruct (Forall2_in_r _ _ _ _ HF Hc) as (f & _ & S1 & _). auto. Qed.
  Lemma side2 c : shp c = repeat 2%nat n -> side c = 2%nat.
  Proof. intros H. unfold side. rewrite H. destruct n; [lia|reflexivity]. Qed.
  Lemma lin_pass fuel funcs a b deg gd level ut s z : (level < ML)%nat -> length funcs = n -> Forall (isAffine n) funcs -> box n a b -> freshTols tols s -> workSide (work s) n B -> onlyZero n funcs z ->
    (2 <= deg)%nat -> match gd with None => (4 * deg <= B)%nat | Some g => g = repeat (Some 2%nat) n end ->
    let low := bufferLow a b in let high := bufferHigh a b in
    exists s1 gz, same s s1 /\ 0 <= gz /\
      subdivision_solve_nd X tols target_deg ML methods trust (S fuel) funcs a b deg gd level ut s =
        if (deg =? 2)%nat then Finished (addRoots (zeros_in_interval (transformAll low high (good_zeros_nd [map RtoC (SubcheckProps.toCube low high z)] gz gz)) a b n) low high BaseCase (trackInterval BaseCase low high s1))
        else subdivision_solve_nd X tols target_deg ML methods trust fuel funcs low high 2 (Some (repeat (Some 2%nat) n)) level true s1.
  Proof.
    intros HL LF HA HB HT HW HZ Hd HG low high. pose proof HB as (La & Lb & LT). destruct (buffer_box n a b HB) as (L1 & L2 & L3). fold low in L1, L3. fold high in L2, L3.
    cbn [subdivision_solve_nd]. destruct (Nat.leb_spec ML level); [lia|].
    destruct (lin_update X tols n funcs a b deg level ut s B ltac:(lia) La Lb Hchk Habs (proj1 Htar) HA HT HW) as (s0 & E0 & T0 & W0 & I0 & R0 & K0). rewrite E0. fold low. fold high.
    set (gs := match gd with Some g => g | None => _ end). set (tol := if ut then _ else _). destruct T0 as (T1 & T2).
    destruct (lin_loop X tols n low high deg tol B ltac:(lia) L1 L2 Hd ltac:(unfold tol; destruct ut; [rewrite T2|rewrite T1]; tauto) Hrel funcs gs 0%nat (work s0) HA) as (cs & ns & st & E & F2 & LN & NN & HW1); auto.
    { unfold gs. destruct gd; [subst l|]; rewrite repeat_length; congruence. }
    { unfold gs. apply Forall_forall. intros g Hg. destruct gd as [l|]; [subst l|]; apply repeat_spec in Hg; subst g; cbv zeta; lia. }
    rewrite E. cbn [abs_approx_tol target_tol]. rewrite T1. destruct (lin_trim n low high (abs_approx_tol0 tols) (rel_approx_tol tols) Hn Habs Hrel funcs cs ns F2 LN NN) as (cs' & E' & F3). rewrite E'.
    set (errs := floorErrors trust _). set (s1 := mkSearch st _ _ _ _ _). exists s1. set (gz := Rmax _ _). exists gz.
    assert (GZ : 0 <= gz) by (unfold gz; eapply Rle_trans; [exact Hmin|apply Rmax_l]). split; [unfold same, s1, freshTols; cbn; rewrite <- T1; auto 10|]. split; [exact GZ|].
    assert (X1 : existsb (fun c => (target_deg + 1 <? side c)%nat) cs' = false).
    { apply not_true_iff_false. intros H1. apply existsb_exists in H1. destruct H1 as (c & Hc & H1). apply Nat.ltb_lt in H1. rewrite (side2 c) in H1; [lia|]. revert c Hc H1. intros c Hc _. apply (sides low high funcs cs' (fun c => shp c = repeat 2%nat n)); auto. }
    rewrite X1. cbn [negb orb].
    assert (EV : forall e, In e errs -> e <= target_tol0 tols).
    { intros e He. unfold errs, floorErrors in He. destruct trust.
      - apply repeat_spec in He. subst e. tauto.
      - apply in_map_iff in He. destruct He as (v & <- & Hv). apply repeat_spec in Hv. subst v. apply Rmax_lub; [tauto|apply Htar; auto]. }
    assert (X2 : existsb (fun p => if Rgt_dec (fst p) (target_tol s0 + rel_approx_tol tols * snd p) then true else false) (combine errs ns) = false).
    { apply not_true_iff_false. intros H1. apply existsb_exists in H1. destruct H1 as ([e m] & Hc & H1). cbn [fst snd] in H1. destruct (Rgt_dec e (target_tol s0 + rel_approx_tol tols * m)) as [H2|]; [|discriminate].
      pose proof (EV e (in_combine_l _ _ _ _ Hc)). rewrite Forall_forall in NN. pose proof (Rmult_le_pos _ _ Hrel (NN m (in_combine_r _ _ _ _ Hc))). rewrite T2 in H2. lra. }
    rewrite X2.
    assert (X3 : forallb (fun c => (side c =? 2)%nat) cs' = true).
    { apply forallb_forall. intros c Hc. apply Nat.eqb_eq. apply side2. apply (sides low high funcs cs' (fun c => shp c = repeat 2%nat n)); auto. }
    rewrite X3. destruct (Nat.eqb_spec deg 2) as [D|D]; cbn [negb].
    - assert (SL : @LinAlgModel.solve_linear R R_num cs' = LinAlgModel.Root (SubcheckProps.toCube low high z)) by (apply (lin_solution n low high funcs); [lia|auto|split; [auto|split; auto]|auto|auto]). rewrite SL, La. reflexivity.
    - f_equal. f_equal. assert (LC : length cs' = n) by (rewrite <- (ApproxError.Forall2_length_eq _ _ _ F3); auto). rewrite <- LC.
      assert (G : forall c, In c cs' -> side c = 2%nat) by (intros c Hc; apply side2; apply (sides low high funcs cs' (fun c => shp c = repeat 2%nat n)); auto). clear - G Hd. induction cs' as [|c cs' IH]; [reflexivity|]. cbn [map length repeat]. rewrite G by (left; auto). rewrite Nat.min_l by lia. f_equal. apply IH. intros; apply G; right; auto.
  Qed.
End Pass.
(** ** the points of the solved box *)
Lemma zeros_one z a b dim : zeros_in_interval [z] a b dim = [] \/ zeros_in_interval [z] a b dim = [z].
Proof.
  unfold zeros_in_interval. assert (F : forall (f : list R -> bool) l, l = [] \/ l = [z] -> filter f l = [] \/ filter f l = [z]) by (intros f l [->| ->]; cbn [filter]; [auto|destruct (f z); auto]).
  assert (G : forall l zs, zs = [] \/ zs = [z] -> let r := fold_left (fun zs i => filter (fun z => if Rle_dec (nth i z 0 - nth i b 0) (1 / 10 ^ 9) then true else false)
                          (filter (fun z => if Rge_dec (nth i z 0 - nth i a 0) (- (1 / 10 ^ 9)) then true else false) zs)) l zs in r = [] \/ r = [z]); [|apply G; auto].
  induction l as [|i l IH]; intros zs Hz; [exact Hz|]. cbn [fold_left]. apply IH. apply F, F, Hz.
Qed.
Lemma zeros_keep z a b dim : (forall i, (i < dim)%nat -> nth i a 0 <= nth i z 0 <= nth i b 0) -> zeros_in_interval [z] a b dim = [z].
Proof.
  assert (T : 1 / 10 ^ 9 > 0) by (replace (10 ^ 9) with 1000000000 by ring; lra).
  unfold zeros_in_interval. induction dim as [|d IH]; intros H; [reflexivity|]. rewrite seq_S, fold_left_app. cbn [fold_left Nat.add]. rewrite IH by (intros; apply H; lia). specialize (H d ltac:(lia)).
  cbn [filter]. destruct (Rge_dec (nth d z 0 - nth d a 0) (- (1 / 10 ^ 9))); [|lra]. cbn [filter]. destruct (Rle_dec (nth d z 0 - nth d b 0) (1 / 10 ^ 9)); [reflexivity|lra].
Qed.
Lemma lin_points n a b z gz : box n a b -> length z = n -> 0 <= gz -> let low := bufferLow a b in let high := bufferHigh a b in
  let zs := zeros_in_interval (transformAll low high (good_zeros_nd [map RtoC (SubcheckProps.toCube low high z)] gz gz)) a b n in
  (zs = [] \/ zs = [z]) /\ (inBox n a b z -> zs = [z]) /\ (zs = [z] -> forall i, (i < n)%nat -> within 0 (1 / 10 ^ 9) a b i (nth i z 0)).
Proof.
  intros HB Lz HG low high zs. pose proof HB as (La & Lb & LT). destruct (buffer_box n a b HB) as (L1 & L2 & L3). fold low in L1, L3. fold high in L2, L3. pose proof (toCube_len n low high z L1 L2 Lz) as LC.
  assert (TR : transformAll low high [map Re (map RtoC (SubcheckProps.toCube low high z))] = [z]).
  { unfold transformAll. cbn [map]. f_equal. rewrite map_map. rewrite (map_ext _ (fun x => x)) by reflexivity. rewrite map_id. rewrite (transform_box n) by auto. apply (box_toCube n); [split; auto|auto]. }
  assert (GZ : good_zeros_nd [map RtoC (SubcheckProps.toCube low high z)] gz gz = [] \/ good_zeros_nd [map RtoC (SubcheckProps.toCube low high z)] gz gz = [map Re (map RtoC (SubcheckProps.toCube low high z))]).
  { unfold good_zeros_nd. cbn [filter]. destruct (_ && _); auto. }
  split; [|split].
  - unfold zs. destruct GZ as [->| ->]; [|rewrite TR; apply zeros_one]. left. clear. unfold transformAll, zeros_in_interval. cbn [map]. induction (seq 0 n) as [|i l IH]; auto.
  - intros (_ & HI). assert (GG : good_zeros_nd [map RtoC (SubcheckProps.toCube low high z)] gz gz = [map Re (map RtoC (SubcheckProps.toCube low high z))]).
    { unfold good_zeros_nd. cbn [filter]. assert (B1 : forallb (fun v => if Rle_dec (Rabs (Im v)) gz then true else false) (map RtoC (SubcheckProps.toCube low high z)) = true).
      { apply forallb_forall. intros v Hv. apply in_map_iff in Hv. destruct Hv as (r & <- & _). cbn [Im RtoC snd]. rewrite Rabs_R0. destruct (Rle_dec 0 gz); [reflexivity|lra]. }
      assert (B2 : forallb (fun v => if Rle_dec (Rabs (Re v)) (1 + gz) then true else false) (map RtoC (SubcheckProps.toCube low high z)) = true).
      { apply forallb_forall. intros v Hv. apply in_map_iff in Hv. destruct Hv as (r & <- & Hr). cbn [Re RtoC fst]. apply (In_nth _ _ 0) in Hr. destruct Hr as (i & Hi & <-). rewrite LC in Hi. rewrite (toCube_nth n) by auto.
        specialize (HI i Hi). specialize (L3 i Hi). destruct (buffer_nth a b i ltac:(congruence) ltac:(lia)) as (EL & EH). fold low in EL. fold high in EH. specialize (LT i Hi). pose proof bump_val as BV.
        assert (nth i low 0 <= nth i z 0 <= nth i high 0) by (rewrite EL, EH, BV; lra).
        destruct (Rle_dec _ (1 + gz)) as [|H1]; [reflexivity|]. exfalso. apply H1. apply Rle_trans with 1; [|lra]. apply Rabs_le. split; apply (Rmult_le_reg_r (nth i high 0 - nth i low 0)); try lra; unfold Rdiv; rewrite Rmult_assoc, Rinv_l by lra; lra. }
      rewrite B1, B2. reflexivity. }
    unfold zs. rewrite GG, TR. apply zeros_keep. auto.
  - intros HZ i Hi. assert (IN : In z zs) by (rewrite HZ; left; auto). apply zeros_in in IN. destruct IN as (_ & IN). specialize (IN i Hi). unfold within. rewrite Rmult_0_l. lra.
Qed.
(** the tracker with one list of at most one point *)
Lemma keep_one z zs low high : zs = [] \/ zs = [z] -> let t := keep_possible_duplicates (add_roots (@init R reason) zs low high BaseCase) in roots t = zs /\ potential_roots t = [].
Proof.
  intros [->| ->]; cbv zeta; [repeat split; reflexivity|]. unfold add_roots. cbn [fold_left]. unfold add_one. destruct (rootInBox z low high) eqn:E; cbn; [repeat split|]. rewrite E. cbn. repeat split.
Qed.
(** A search for a system of affine functions with one common zero. *)
Lemma lin_core X tols target_deg ML methods trust n B fuel funcs a b deg z s : (2 <= n)%nat -> (1 <= target_deg)%nat -> 0 <= abs_approx_tol0 tols ->
  (0 <= target_tol0 tols /\ (trust = false -> macheps <= target_tol0 tols)) -> 0 <= rel_approx_tol tols -> 0 <= min_good_zeros_tol tols ->
  (check_eval_error tols = true -> length (tPoint X n) = n /\ (12 <= B)%nat) -> (1 <= ML)%nat -> length funcs = n -> Forall (isAffine n) funcs -> box n a b ->
  freshTols tols s -> workSide (work s) n B -> onlyZero n funcs z -> (2 <= deg)%nat -> (4 * deg <= B)%nat ->
  exists s1 zs low high, subdivision_solve_nd X tols target_deg ML methods trust (S (S fuel)) funcs a b deg None 0 false s = Finished s1 /\
    tracked s1 = add_roots (tracked s) zs low high BaseCase /\ (zs = [] \/ zs = [z]) /\ (inBox n a b z -> zs = [z]) /\
    (zs = [z] -> forall i, (i < n)%nat -> within (5 / 10 ^ 10) (1 / 10 ^ 9) a b i (nth i z 0)).
Proof.
  intros Hn Htd Habs Htar Hrel Hmin Hchk HML LF HA HB HT HW HZ Hd HB4. pose proof HZ as (Lz & _). pose proof HB as (La & Lb & LT). assert (E10 : 10 ^ 9 = 1000000000) by ring. assert (E11 : 10 ^ 10 = 10000000000) by ring.
  destruct (lin_pass X tols target_deg ML methods trust n B Hn Htd Habs Htar Hrel Hmin Hchk ltac:(lia) (S fuel) funcs a b deg None 0 false s z HML LF HA HB HT HW HZ Hd HB4) as (s1 & gz & (HT1 & HW1 & I1 & R1 & K1) & HG & E).
  destruct (buffer_box n a b HB) as (L1 & L2 & L3). set (low := bufferLow a b) in *. set (high := bufferHigh a b) in *. destruct (Nat.eqb_spec deg 2) as [H2|H2].
  - destruct (lin_points n a b z gz HB Lz HG) as (P1 & P2 & P3). eexists. eexists. exists low, high. split; [exact E|]. split; [cbn [addRoots tracked trackInterval]; rewrite K1; reflexivity|]. split; [exact P1|]. split; [exact P2|]. intros Hz i Hi. specialize (P3 Hz i Hi). specialize (LT i Hi). unfold within in *. rewrite E10, E11 in *. lra.
  - assert (HB' : box n low high) by (split; [auto|split; auto]).
    destruct (lin_pass X tols target_deg ML methods trust n B Hn Htd Habs Htar Hrel Hmin Hchk ltac:(lia) fuel funcs low high 2 (Some (repeat (Some 2%nat) n)) 0 true s1 z HML LF HA HB' HT1 HW1 HZ (le_n 2) eq_refl) as (s2 & gz2 & (HT2 & HW2 & I2 & R2 & K2) & HG2 & E2).
    cbn [Nat.eqb] in E2. destruct (lin_points n low high z gz2 HB' Lz HG2) as (P1 & P2 & P3). eexists. eexists. eexists. eexists. split; [rewrite E; exact E2|]. split; [cbn [addRoots tracked trackInterval]; rewrite K2, K1; reflexivity|]. split; [exact P1|].
    assert (EN : forall i, (i < n)%nat -> nth i low 0 = nth i a 0 - (nth i b 0 - nth i a 0) * (5 / 10 ^ 10) /\ nth i high 0 = nth i b 0 + (nth i b 0 - nth i a 0) * (5 / 10 ^ 10)).
    { intros i Hi. destruct (buffer_nth a b i ltac:(congruence) ltac:(lia)) as (EL & EH). fold low in EL. fold high in EH. pose proof bump_val as BV. rewrite EL, EH, BV. rewrite E11. lra. }
    split.
    + intros (_ & HI). apply P2. split; [auto|]. intros i Hi. specialize (HI i Hi). specialize (LT i Hi). destruct (EN i Hi) as (-> & ->). rewrite E11. lra.
    + intros Hz i Hi. specialize (P3 Hz i Hi). specialize (LT i Hi). unfold within in *. destruct (EN i Hi) as (EL & EH). rewrite EL, EH in P3. rewrite E10, E11 in *. lra.
Qed.
