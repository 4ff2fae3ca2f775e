(** * The approximator on polynomials of low degree (over R) *)
From Coq Require Import Reals List Lia Lra Arith ZArith Bool.
From Verif Require Import Num Tensor RSum Cheb PolySpec IntervalModel IntervalProofs LinearModel LinearProofs SolverModel CombinedModel CombinedSpec
  ApproxModel ApproxDct ApproxInterp ApproxError ApproxDegree ApproxTerm ApproxCall ApproxExactSpec.
From Verif Require PolyModel PolyArith CombinedProofs MacaulayBuild.
Import ListNotations.
Local Open Scope R_scope.

Lemma Rsum_filter {A} (p : A -> bool) F l : Rsum (map F (filter p l)) = Rsum (map (fun x => if p x then F x else 0) l).
Proof. induction l as [|x l IH]; [reflexivity|]. cbn [filter map]. destruct (p x); cbn [map]; unfold Rsum in *; cbn [fold_right]; rewrite IH; ring. Qed.
Lemma sliceSum_sumidx P d k : sliceSum P d k = sumidx (shp P) (fun L => if Nat.eqb (nth d L 0%nat) k then Rabs (tget P L) else 0).
Proof. unfold sliceSum. rewrite Rsum_filter. apply sumidx_indices. Qed.

(** ** sums over one slice *)
Lemma sumidx_slice s : forall t G d k, Forall2 Peano.le s t -> (d < length s)%nat -> (k < nth d t 0)%nat ->
  sumidx (upd t d 1%nat) (fun idx => if PolyModel.inrangeb s (upd idx d k) then G (upd idx d k) else 0) = sumidx s (fun L => if Nat.eqb (nth d L 0%nat) k then G L else 0).
Proof.
  induction s as [|n s IH]; intros t G d k H Hd Hk; [simpl in Hd; lia|]. inversion H as [|? m ? t' Hn Hs]; subst.
  destruct d as [|d]; cbn [upd nth] in *.
  - cbn [sumidx]. cbn [sumn]. rewrite (sumidx_ext t' _ (fun r => (if (k <? n)%nat then 1 else 0) * (if PolyModel.inrangeb s r then G (k :: r) else 0))).
    2:{ intros r Hr. cbn [upd PolyModel.inrangeb]. destruct (k <? n)%nat; cbn [andb]; ring. }
    rewrite sumidx_scal, (PolyArith.sumidx_pad s t' (fun r => G (k :: r))) by auto.
    rewrite (sumn_ext n _ (fun i => if Nat.eqb i k then sumidx s (fun r => G (k :: r)) else 0)).
    2:{ intros i Hi. cbn [nth]. destruct (Nat.eqb_spec i k) as [->|]; [reflexivity|apply sumidx_0]. }
    destruct (Nat.ltb_spec k n) as [Hkn|Hkn].
    + rewrite (sumn_single n k); [rewrite Nat.eqb_refl; ring|auto|]. intros i Hi Hne; destruct (Nat.eqb_spec i k); [contradiction|reflexivity].
    + rewrite (sumn_ext n _ (fun _ => 0)), sumn_0; [ring|]. intros i Hi. destruct (Nat.eqb_spec i k); [lia|reflexivity].
  - cbn [sumidx]. simpl in Hd. rewrite (sumn_ext m _ (fun i => if (i <? n)%nat then sumidx s (fun r => if Nat.eqb (nth d r 0%nat) k then G (i :: r) else 0) else 0)).
    2:{ intros i Hi. rewrite <- (IH t' (fun r => G (i :: r)) d k) by (auto; lia). destruct (i <? n)%nat eqn:E.
        - apply sumidx_ext. intros r Hr. cbn [upd PolyModel.inrangeb]. rewrite E. reflexivity.
        - transitivity (sumidx (upd t' d 1%nat) (fun _ => 0)); [|apply sumidx_0]. apply sumidx_ext. intros r Hr. cbn [upd PolyModel.inrangeb]. rewrite E. reflexivity. }
    pose proof (PolyArith.sumidx_pad [n] [m] (fun l => sumidx s (fun r => if Nat.eqb (nth d r 0%nat) k then G (nth 0 l 0%nat :: r) else 0))) as Q.
    cbn [sumidx nth PolyModel.inrangeb] in Q. specialize (Q ltac:(constructor; auto)). etransitivity; [|exact Q]. apply sumn_ext. intros i Hi. rewrite andb_true_r. reflexivity.
Qed.

Lemma deltaL_id degs : Forall (fun n => (1 <= n)%nat) degs -> forall K L, length K = length degs -> Forall2 Peano.le L degs ->
  deltaL degs K L = if list_eq_dec Nat.eq_dec L K then 1 else 0.
Proof.
  induction 1 as [|n degs Hn Hd IH]; intros K L HK HL; inversion HL as [|l ? L' ? Hl HL']; subst; destruct K as [|k K]; simpl in HK; try lia.
  - cbn. destruct (list_eq_dec Nat.eq_dec [] []); [reflexivity|contradiction].
  - cbn [deltaL]. rewrite alias_small by lia. rewrite (IH K L') by (auto; lia).
    destruct (list_eq_dec Nat.eq_dec (l :: L') (k :: K)) as [E|E]; destruct (Nat.eqb_spec k l) as [E1|E1]; destruct (list_eq_dec Nat.eq_dec L' K) as [E2|E2]; try ring; exfalso.
    + injection E. intros. auto.
    + injection E. intros. auto.
    + injection E. intros. auto.
    + apply E. congruence.
Qed.

Lemma Forall2_nth_le s : forall t, length s = length t -> (forall d, (d < length t)%nat -> (nth d s 0 <= nth d t 0)%nat) -> Forall2 Peano.le s t.
Proof.
  induction s as [|x s IH]; intros [|y t] LP SP; simpl in LP; try lia; constructor.
  - apply (SP 0%nat). simpl. lia.
  - apply IH; [lia|]. intros d Hd. apply (SP (S d)). simpl. lia.
Qed.

Lemma nth_fix l : forall d, (d < length l)%nat -> nth d (fixDegs l) 0%nat = if Nat.eqb (nth d l 0%nat) 0 then 1%nat else nth d l 0%nat.
Proof. unfold fixDegs. induction l as [|x l IH]; intros [|d] Hd; simpl in Hd; try lia; cbn [map nth]; [reflexivity|]. apply IH. lia. Qed.
Lemma nth_optmap {A} (F : option A -> nat) l : forall d, (d < length l)%nat -> nth d (map F l) 0%nat = F (nth d l None).
Proof. induction l as [|x l IH]; intros [|d] Hd; simpl in Hd; try lia; cbn [map nth]; [reflexivity|]. apply IH. lia. Qed.
Lemma nth_seqmap {A} (F : nat -> option A) n d : (d < n)%nat -> nth d (map F (seq 0 n)) None = F d.
Proof. intros Hd. rewrite (nth_indep _ None (F 0%nat)) by (rewrite map_length, seq_length; lia). rewrite map_nth, seq_nth by lia. reflexivity. Qed.

Section Exact.
  Variables (f : fobj R) (a b : list R) (P : tensor R) (rel : R).
  Let n := length a.
  Hypothesis Hab : length b = length a.
  Hypothesis HL : lowDegree n P.
  Hypothesis Hf : forall y, in_cube n y -> callAt f (boxPoint a b y) = cheb_eval P y.
  Hypothesis Hrel : 0 <= rel.
  Hypothesis HS : significant n rel P.
  Lemma HP : ndim P = n.
  Proof. apply HL. Qed.
  Let coefs (degs : list nat) : tensor R := fst (fst (intervalApproximate cosR f degs a b)).
  (** the grid is fine enough in every variable but cur *)
  Definition fine (degs : list nat) : Prop := length degs = n /\ forall d, (d < n)%nat -> (degreeIn P d <= nth d degs 0)%nat.

  Lemma size_pos d : (d < n)%nat -> (1 <= nth d (shp P) 0 <= 6)%nat.
  Proof.
    intros Hd. destruct HL as (_ & N & F). rewrite Forall_forall in F. unfold ndim in N. assert (Hd' : (d < length (shp P))%nat) by (rewrite N; exact Hd). specialize (F (nth d (shp P) 0%nat) (nth_In (shp P) 0%nat Hd')).
    destruct (n <=? 5)%nat; lia.
  Qed.
  Lemma fine_le degs : fine degs -> Forall2 Peano.le (shp P) (map S degs).
  Proof.
    intros [Hl Hd]. assert (SP : forall d, (d < n)%nat -> (nth d (shp P) 0 <= nth d (map S degs) 0)%nat).
    { intros d Hdn. specialize (Hd d Hdn). unfold degreeIn in Hd. rewrite nth_map_S by lia. pose proof (size_pos d Hdn). lia. }
    assert (LP : length (shp P) = length (map S degs)) by (rewrite map_length; exact (eq_trans HP (eq_sym Hl))).
    apply Forall2_nth_le; auto. intros d Hd'. rewrite map_length, Hl in Hd'. auto.
  Qed.
  Lemma inrange_le s t L : Forall2 Peano.le s t -> inrange s L -> inrange t L.
  Proof. intros H. revert L. induction H; intros L HI; inversion HI; subst; constructor; [lia|apply IHForall2; auto]. Qed.
  Lemma fix_ge degs L : inrange (map S degs) L -> Forall2 Peano.le L (fixDegs degs).
  Proof.
    unfold fixDegs. revert L. induction degs as [|d degs IH]; intros L H; inversion H; subst; constructor; [|apply IH; auto].
    destruct (Nat.eqb_spec d 0); lia.
  Qed.
  Lemma coefs_exact degs K : fine degs -> inrange (map S degs) K -> tget (coefs degs) K = coefOr0 P K.
  Proof.
    intros HF HK. pose proof (fine_le degs HF) as LE. destruct HF as [Hl _]. unfold coefs.
    rewrite (coefs_get f a b P); auto using HP.
    rewrite (sumidx_ext _ _ (fun L => if list_eq_dec Nat.eq_dec L K then tget P L else 0)).
    2:{ intros L HLr. rewrite deltaL_id; auto using fixDegs_pos.
        - destruct (list_eq_dec Nat.eq_dec L K); ring.
        - apply inrange_length in HK. rewrite map_length in HK. rewrite fixDegs_length. auto.
        - apply fix_ge. eapply inrange_le; eauto. }
    unfold coefOr0. destruct (PolyModel.inrangeb (shp P) K) eqn:E.
    - apply inrangeb_iff in E. rewrite (MacaulayBuild.sumidx_one _ _ K E).
      + destruct (list_eq_dec Nat.eq_dec K K); [reflexivity|contradiction].
      + intros idx _ Hne. destruct (list_eq_dec Nat.eq_dec idx K); [contradiction|reflexivity].
    - transitivity (sumidx (shp P) (fun _ => 0)); [|apply sumidx_0]. apply sumidx_ext. intros L HLr. destruct (list_eq_dec Nat.eq_dec L K) as [->|]; [|reflexivity].
      apply inrangeb_iff in HLr. congruence.
  Qed.
  Lemma eval_exact degs y : fine degs -> in_cube n y -> cheb_eval (coefs degs) y = cheb_eval P y.
  Proof.
    intros HF Hy. rewrite !cheb_eval_sumidx. unfold coefs at 1. rewrite coefs_shp.
    rewrite (sumidx_ext _ _ (fun K => if PolyModel.inrangeb (shp P) K then tget P K * basis chebT K y else 0)).
    2:{ intros K HK. rewrite coefs_exact by auto. unfold coefOr0. destruct (PolyModel.inrangeb (shp P) K); ring. }
    apply PolyArith.sumidx_pad. apply fine_le; auto.
  Qed.
  Lemma chunk_exact degs cur k : fine degs -> (cur < n)%nat -> (k <= nth cur degs 0)%nat ->
    nth k (coeffChunk cur (coefs degs)) 0 = sliceSum P cur k / INR (prodn (upd (map S degs) cur 1%nat)).
  Proof.
    intros HF Hc Hk. assert (Hl : length degs = n) by apply HF. unfold coeffChunk.
    change (shp (coefs degs)) with (map S degs).
    match goal with |- nth k (map ?F _) 0 = _ => rewrite (nth_indep (map F (seq 0 (nth cur (map S degs) 0%nat))) 0 (F 0%nat)) by (rewrite map_length, seq_length, nth_map_S; lia);
      rewrite (map_nth F), seq_nth by (rewrite nth_map_S; lia) end.
    rewrite Nat.add_0_l, nsum_map_R, nofnat_R. rnum. f_equal. rewrite sumidx_indices, sliceSum_sumidx.
    rewrite <- (sumidx_slice (shp P) (map S degs) (fun L => Rabs (tget P L)) cur k).
    - apply sumidx_ext. intros idx HI. rewrite coefs_exact; auto.
      + unfold coefOr0. destruct (PolyModel.inrangeb _ _); [reflexivity|apply Rabs_R0].
      + pose proof (inrange_upd _ _ cur k (nth cur (map S degs) 0%nat) HI ltac:(rewrite nth_map_S; lia)) as U. rewrite upd_upd, upd_nth in U. exact U.
    - apply fine_le; auto.
    - pose proof HP as HP'; unfold ndim in HP'. lia.
    - rewrite nth_map_S; lia.
  Qed.
  Lemma prod_bound l cur : (cur < length l)%nat -> (forall d, (d < length l)%nat -> d <> cur -> (1 <= nth d l 0 <= 6)%nat) ->
    1 <= INR (prodn (upd l cur 1%nat)) <= 6 ^ (length l - 1).
  Proof.
    assert (A : forall l, (forall d, (d < length l)%nat -> (1 <= nth d l 0 <= 6)%nat) -> 1 <= INR (prodn l) <= 6 ^ length l).
    { clear. induction l as [|x l IH]; intros H; [unfold prodn; cbn; lra|]. rewrite prodn_cons, mult_INR. cbn [length pow].
      assert (H1 : 1 <= INR x <= 6). { pose proof (H 0%nat ltac:(simpl; lia)) as [Q1 Q2]. cbn [nth] in Q1, Q2. apply le_INR in Q1, Q2. rewrite (INR_IZR_INZ 6) in Q2. cbn in Q1, Q2. lra. }
      assert (H2 : 1 <= INR (prodn l) <= 6 ^ length l) by (apply IH; intros d Hd; apply (H (S d)); simpl; lia).
      split; [nra|]. apply Rmult_le_compat; lra. }
    revert cur. induction l as [|x l IH]; intros cur Hc H; [simpl in Hc; lia|]. destruct cur as [|cur]; cbn [upd length]; rewrite prodn_cons, mult_INR.
    - replace (S (length l) - 1)%nat with (length l) by lia. rewrite Rmult_1_l. apply A. intros d Hd. apply (H (S d)); simpl; lia.
    - simpl in Hc. assert (H1 : 1 <= INR x <= 6). { pose proof (H 0%nat ltac:(simpl; lia) ltac:(lia)) as [Q1 Q2]. cbn [nth] in Q1, Q2. apply le_INR in Q1, Q2. rewrite (INR_IZR_INZ 6) in Q2. cbn in Q1, Q2. lra. }
      assert (H2 : 1 <= INR (prodn (upd l cur 1%nat)) <= 6 ^ (length l - 1)) by (apply IH; [lia|]; intros d Hd Hne; apply (H (S d)); simpl; lia).
      replace (S (length l) - 1)%nat with (S (length l - 1)) by lia. cbn [pow]. split; [nra|]. apply Rmult_le_compat; lra.
  Qed.
  Lemma sup_bound degs : length degs = n -> maxAbs (dat (gridValues cosR f degs a b)) <= sumabs P.
  Proof.
    intros Hd. set (l := dat (gridValues cosR f degs a b)).
    assert (HB : forall v, In v l -> Rabs v <= sumabs P).
    { intros v Hv. unfold l, gridValues in Hv. cbn [dat tbuild] in Hv. apply in_map_iff in Hv. destruct Hv as (J & <- & HJ). apply in_indices in HJ.
      rewrite gridPoint_box. assert (C : in_cube n (nodes degs J)) by (rewrite <- Hd; apply nodes_cube; apply inrange_length in HJ; rewrite map_length in HJ; auto).
      rewrite Hf by auto. apply cheb_eval_bound. apply C. }
    destruct l as [|x l']; [|].
    - unfold maxAbs. cbn. rewrite sumabs_sumidx. apply sumidx_nonneg. intros. apply Rabs_pos.
    - apply Rnot_lt_le. intros Q. set (m := maxAbs (x :: l')) in *. pose proof (proj2 (maxAbs_lt (x :: l') m ltac:(discriminate))) as W. fold m in W. apply (Rlt_irrefl m). apply W.
      intros v Hv. specialize (HB v Hv). lra.
  Qed.

  (** ** one variable *)
  Definition goodDeg (cur x : nat) : Prop := (degreeIn P cur <= x <= Nat.max 1 (degreeIn P cur))%nat.
  Lemma final_exactly degs cur tol : fine degs -> (cur < n)%nat -> (17 <= nth cur degs 0)%nat ->
    (forall d, (d < n)%nat -> d <> cur -> (S (nth d degs 0) <= 6)%nat) -> tol <= rel * sumabs P ->
    exists x r, getFinalDegree rootR (coeffChunk cur (coefs degs)) tol = (x, / 2251799813685248, Some r) /\ 1 < r /\ goodDeg cur x.
  Proof.
    intros HF Hc H17 H6 Htol. assert (Hl : length degs = n) by apply HF.
    pose proof (prod_bound (map S degs) cur ltac:(rewrite map_length; lia)) as PB. rewrite map_length, Hl in PB.
    assert (PB' : 1 <= INR (prodn (upd (map S degs) cur 1%nat)) <= 6 ^ (n - 1)). { apply PB. intros d Hd Hne. rewrite nth_map_S by lia. specialize (H6 d Hd Hne). lia. }
    clear PB. set (N := INR (prodn (upd (map S degs) cur 1%nat))) in *.
    pose proof (chunk_exact degs cur) as CE. fold N in CE. pose proof (size_pos cur Hc) as SZ.
    set (c := coeffChunk cur (coefs degs)) in *.
    assert (Lc : length c = S (nth cur degs 0%nat)) by (unfold c; rewrite coeffChunk_length; change (shp (coefs degs)) with (map S degs); rewrite nth_map_S; lia).
    assert (Nc : c <> []) by (intros Q; rewrite Q in Lc; discriminate).
    set (t := degreeIn P cur) in *. assert (Ht : (t <= 5)%nat) by (unfold t, degreeIn; lia).
    assert (PS : forall k, 0 <= sliceSum P cur k). { intros k. rewrite sliceSum_sumidx. apply sumidx_nonneg. intros L _. destruct (_ =? _); [apply Rabs_pos|lra]. }
    assert (Z : forall k, (t < k < length c)%nat -> nth k c 0 = 0).
    { intros k Hk. rewrite CE by (auto; lia). assert (E : sliceSum P cur k = 0); [|rewrite E; unfold Rdiv; ring].
      rewrite sliceSum_sumidx. transitivity (sumidx (shp P) (fun _ => 0)); [|apply sumidx_0]. apply sumidx_ext. intros L HLr. pose proof (inrange_nth _ _ cur HLr ltac:(pose proof HP as HP'; unfold ndim in HP'; lia)) as Q.
      destruct (Nat.eqb_spec (nth cur L 0%nat) k); [|reflexivity]. unfold t, degreeIn in Hk. lia. }
    destruct (HS cur Hc) as [T1 T2]. fold t in T1, T2.
    assert (Ct : nth t c 0 = sliceSum P cur t / N) by (apply CE; auto; lia).
    assert (P6 : 0 < 6 ^ (n - 1)) by (apply pow_lt; lra).
    assert (C1 : / 2251799813685248 < nth t c 0).
    { rewrite Ct. apply (Rmult_lt_reg_r N); [lra|]. replace (sliceSum P cur t / N * N) with (sliceSum P cur t) by (field; lra).
      eapply Rle_lt_trans; [|exact T1]. rewrite Rmult_comm. apply Rmult_le_compat_r; [left; apply Rinv_0_lt_compat; lra|lra]. }
    assert (SA : 0 <= rel * sumabs P) by (apply Rmult_le_pos; auto; rewrite sumabs_sumidx; apply sumidx_nonneg; intros; apply Rabs_pos).
    assert (C2 : (1 <= t)%nat -> tol <= nth t c 0).
    { intros Q. specialize (T2 Q). rewrite Ct. eapply Rle_trans; [exact Htol|]. apply (Rmult_le_reg_r N); [lra|]. replace (sliceSum P cur t / N * N) with (sliceSum P cur t) by (field; lra).
      eapply Rle_trans; [|exact T2]. rewrite (Rmult_comm (6 ^ (n - 1))). apply Rmult_le_compat_l; lra. }
    clear T1 T2 Ct CE.
    pose proof (eps_attained c tol Nc) as EA. pose proof (eps_pos c tol) as EP. pose proof (final_eps c tol) as FE. pose proof (deg_zero c tol Nc) as DZ.
    pose proof (deg_above c tol) as DA. pose proof (deg_big c tol) as DB. pose proof (rho_decay c tol) as RD. pose proof (deg_lt c tol Nc) as DL.
    destruct (getFinalDegree rootR c tol) as [[x eps] rho]. cbn [fst snd] in *.
    assert (E51 : eps = / 2251799813685248).
    { destruct EA as [->|(i & Hi & Ei)]; [field|]. exfalso.
      assert (t < i)%nat. { destruct Hi as [Hi _]. rewrite Lc in Hi. assert (12 <= 3 * (S (nth cur degs 0%nat) - 1) / 4)%nat; [|lia]. apply Nat.div_le_lower_bound; lia. }
      rewrite Z in Ei by lia. lra. }
    clear EA FE. subst eps.
    assert (XT : (t <= x <= Nat.max 1 t)%nat).
    { destruct (Nat.eq_dec x 0) as [->|Hx0].
      - split; [|lia]. destruct (Nat.eq_dec t 0) as [->|Ht0]; [lia|]. exfalso. pose proof (proj1 DZ eq_refl t ltac:(lia)). pose proof (C2 ltac:(lia)). lra.
      - split.
        + apply Nat.nlt_ge. intros Q. specialize (DA t Hx0 ltac:(lia)). lra.
        + destruct (Nat.le_gt_cases x (Nat.max 1 t)); auto. exfalso. specialize (DB ltac:(lia)). rewrite Z in DB by lia. lra. }
    destruct (argmax_spec c Nc) as (M1 & M2 & _). specialize (M2 t ltac:(lia)).
    assert (MX : (argmax c <= t)%nat). { apply Nat.nlt_ge. intros Q. rewrite (Z (argmax c)) in M2 by lia. assert (0 < / 2251799813685248) by (apply Rinv_0_lt_compat; lra). lra. }
    destruct (RD ltac:(assert (0 < / 2251799813685248) by (apply Rinv_0_lt_compat; lra); lra) ltac:(lia)) as (r & -> & Hr & E).
    exists x, r. split; [reflexivity|]. split; [|exact XT].
    apply Rnot_le_lt. intros Q. assert (PW : r ^ (x - argmax c + 1) <= 1). { rewrite <- (pow1 (x - argmax c + 1)). apply pow_incr. lra. }
    assert (IP : 0 < / 2251799813685248) by (apply Rinv_0_lt_compat; lra).
    assert (/ 2251799813685248 * r ^ (x - argmax c + 1) <= / 2251799813685248 * 1) by (apply Rmult_le_compat_l; lra). lra.
  Qed.

  Lemma upd_fix degs cur g : (1 <= g)%nat -> upd (fixDegs (upd degs cur g)) cur (2 * g + 1)%nat = upd (fixDegs degs) cur (2 * g + 1)%nat.
  Proof. intros Hg. rewrite fixDegs_upd by auto. apply upd_upd. Qed.
  (** fine in all the variables but cur, with at most 6 points in each *)
  Definition around (cur : nat) (degs : list nat) : Prop := length degs = n /\ forall d, (d < n)%nat -> d <> cur -> (degreeIn P d <= nth d degs 0 <= 5)%nat.
  Lemma around_fix cur degs g : around cur degs -> around cur (fixDegs (upd degs cur g)).
  Proof.
    intros [Hl Hd]. split; [rewrite fixDegs_length, upd_length; auto|]. intros d Hdn Hne. specialize (Hd d Hdn Hne).
    assert (E : nth d (fixDegs (upd degs cur g)) 0%nat = if Nat.eqb (nth d degs 0%nat) 0 then 1%nat else nth d degs 0%nat).
    { rewrite nth_fix by (rewrite upd_length; lia). rewrite nth_upd_neq by auto. reflexivity. }
    rewrite E. destruct (Nat.eqb_spec (nth d degs 0%nat) 0); lia.
  Qed.
  Lemma guess_exact fuel : forall cur degs g res, (cur < n)%nat -> around cur degs -> (8 <= g)%nat ->
    guessLoop cosR rootR fuel f a b rel 0 cur degs g = Some res -> exists x r, res = (x, / 2251799813685248, Some r) /\ 1 < r /\ goodDeg cur x.
  Proof.
    induction fuel as [|fuel IH]; intros cur degs g res Hc HA Hg H; [discriminate|]. cbn [guessLoop] in H.
    destruct (intervalApproximate cosR f (upd degs cur g) a b) as [[c s] d1] eqn:E1.
    assert (Hd1 : d1 = fixDegs (upd degs cur g)) by (change d1 with (snd (c, s, d1)); rewrite <- E1; reflexivity).
    assert (Hs1 : s = maxAbs (dat (gridValues cosR f d1 a b))) by (subst d1; change s with (snd (fst (c, s, fixDegs (upd degs cur g)))); rewrite <- E1; reflexivity).
    pose proof (around_fix cur degs g HA) as HA1. rewrite <- Hd1 in HA1. assert (Hl1 : length d1 = n) by apply HA1.
    destruct (negb (startedConverging _ _)); [apply IH in H; auto; lia|].
    destruct (intervalApproximate cosR f (upd d1 cur (2 * g + 1)%nat) a b) as [[c2 s2] d2] eqn:E2.
    assert (Hd2 : d2 = fixDegs (upd d1 cur (2 * g + 1)%nat)) by (change d2 with (snd (c2, s2, d2)); rewrite <- E2; reflexivity).
    assert (Hs2 : s2 = maxAbs (dat (gridValues cosR f d2 a b))) by (subst d2; change s2 with (snd (fst (c2, s2, fixDegs (upd d1 cur (2 * g + 1)%nat)))); rewrite <- E2; reflexivity).
    pose proof (around_fix cur d1 (2 * g + 1)%nat HA1) as HA2. rewrite <- Hd2 in HA2.
    destruct (negb (hasConverged _ _ _)); [apply IH in H; auto; lia|]. injection H. clear H. intros <-.
    assert (Hc2 : c2 = coefs (upd d1 cur (2 * g + 1)%nat)) by (unfold coefs; rewrite E2; reflexivity). rewrite Hc2.
    apply final_exactly; auto.
    - split; [rewrite upd_length; auto|]. intros d Hd. destruct (Nat.eq_dec d cur) as [->|Hne].
      + rewrite nth_upd_eq by lia. pose proof (size_pos cur Hc). unfold degreeIn. lia.
      + rewrite nth_upd_neq by auto. apply HA1; auto.
    - rewrite nth_upd_eq by lia. lia.
    - intros d Hd Hne. rewrite nth_upd_neq by auto. destruct HA1 as [_ Q]. specialize (Q d Hd Hne). lia.
    - rnum. rewrite nmax_Rmax, Rplus_0_l, Rmult_comm. apply Rmult_le_compat_l; auto. apply Rmax_lub; [rewrite Hs1|rewrite Hs2]; apply sup_bound; auto. apply HA2.
  Qed.

  (** ** all the variables *)
  Definition knownOK (cd : list (option nat)) : Prop := length cd = n /\ forall d x, (d < n)%nat -> nth d cd None = Some x -> goodDeg d x.
  Lemma start_around cd cur : knownOK cd -> around cur (startDegs cd).
  Proof.
    intros [Hl Hk]. split; [rewrite startDegs_length; auto|]. intros d Hd _. unfold startDegs. rewrite Hl.
    rewrite nth_optmap by lia. assert (B : (degreeIn P d <= (if n <=? 5 then 5 else 2))%nat).
    { destruct HL as (_ & N & F). rewrite Forall_forall in F. unfold ndim in N. assert (Hd' : (d < length (shp P))%nat) by (rewrite N; exact Hd). specialize (F (nth d (shp P) 0%nat) (nth_In (shp P) 0%nat Hd')). unfold degreeIn. destruct (n <=? 5)%nat; lia. }
    specialize (Hk d). destruct (nth d cd None) as [x|].
    - specialize (Hk x Hd eq_refl). unfold goodDeg in Hk. destruct (Nat.ltb_spec x (if n <=? 5 then 5 else 2)); destruct (n <=? 5)%nat; lia.
    - destruct (n <=? 5)%nat; lia.
  Qed.
  Lemma known_upd cd cur x : knownOK cd -> (cur < n)%nat -> goodDeg cur x -> knownOK (upd cd cur (Some x)).
  Proof.
    intros [Hl Hk] Hc Hx. split; [rewrite upd_length; auto|]. intros d y Hd E. destruct (Nat.eq_dec d cur) as [->|Hne].
    - rewrite nth_upd_eq in E by lia. injection E. intros <-. auto.
    - rewrite nth_upd_neq in E by auto. eauto.
  Qed.
  Lemma loop_exact fuel todo : forall cur cd cd' es rs, (cur + todo = n)%nat -> knownOK cd -> (forall d, (d < cur)%nat -> nth d cd None <> None) ->
    degreeLoop cosR rootR todo fuel f a b rel 0 cur cd = Some (cd', es, rs) ->
    knownOK cd' /\ (forall d, (d < n)%nat -> nth d cd' None <> None) /\ ratesBig rs /\
    forall d, (cur <= d < n)%nat -> nth d cd None = None -> 0 < nth (d - cur) es 0 /\ exists r, nth (d - cur) rs None = Some r /\ 1 < r.
  Proof.
    induction todo as [|todo IH]; intros cur cd cd' es rs Hct HK HD H; cbn [degreeLoop] in H.
    - injection H. intros <- <- <-. split; [exact HK|]. split; [intros d Hd; apply HD; lia|]. split; [constructor|]. intros d Hd. lia.
    - assert (G : forall cd1 e r, match degreeLoop cosR rootR todo fuel f a b rel 0 (S cur) cd1 with Some (c3, es, rs) => Some (c3, e :: es, r :: rs) | None => None end = Some (cd', es, rs) ->
         knownOK cd1 -> (forall d, (d < S cur)%nat -> nth d cd1 None <> None) -> (forall d, (cur < d)%nat -> nth d cd1 None = nth d cd None) -> match r with Some r => 1 < r | None => True end ->
         (nth cur cd None = None -> 0 < e /\ exists v, r = Some v /\ 1 < v) ->
         knownOK cd' /\ (forall d, (d < n)%nat -> nth d cd' None <> None) /\ ratesBig rs /\
         forall d, (cur <= d < n)%nat -> nth d cd None = None -> 0 < nth (d - cur) es 0 /\ exists r, nth (d - cur) rs None = Some r /\ 1 < r).
      { intros cd1 e r Q K1 D1 S1 R1 X1. destruct (degreeLoop _ _ todo _ _ _ _ _ _ (S cur) cd1) as [[[c3 es'] rs']|] eqn:E; [|discriminate].
        injection Q. intros <- <- <-. destruct (IH (S cur) cd1 c3 es' rs' ltac:(lia) K1 D1 E) as (A1 & A2 & A3 & A4).
        split; [exact A1|]. split; [exact A2|]. split; [constructor; auto|]. intros d Hd HN. destruct (Nat.eq_dec d cur) as [->|Hne].
        - rewrite Nat.sub_diag. cbn [nth]. auto.
        - specialize (A4 d ltac:(lia)). rewrite S1 in A4 by lia. specialize (A4 HN). replace (d - cur)%nat with (S (d - S cur)) by lia. exact A4. }
      assert (G2 : match guessLoop cosR rootR fuel f a b rel 0 cur (startDegs cd) 8 with None => None | Some (deg, eps, rho) =>
          match degreeLoop cosR rootR todo fuel f a b rel 0 (S cur) (upd cd cur (Some deg)) with Some (c3, es, rs) => Some (c3, eps :: es, rho :: rs) | None => None end end = Some (cd', es, rs) ->
         knownOK cd' /\ (forall d, (d < n)%nat -> nth d cd' None <> None) /\ ratesBig rs /\
         forall d, (cur <= d < n)%nat -> nth d cd None = None -> 0 < nth (d - cur) es 0 /\ exists r, nth (d - cur) rs None = Some r /\ 1 < r).
      { intros Q. destruct (guessLoop _ _ _ _ _ _ _ _ _ _ _) as [[[x e] rho]|] eqn:EG; [|discriminate].
        apply guess_exact in EG; [|lia|apply start_around; auto|lia]. destruct EG as (x' & r & EQ & Hr & Hx). injection EQ. intros -> -> ->. clear EQ.
        apply (G (upd cd cur (Some x')) (/ 2251799813685248) (Some r) Q); auto.
        - apply known_upd; auto; lia.
        - intros d Hd. destruct (Nat.eq_dec d cur) as [->|Hne]; [rewrite nth_upd_eq by (destruct HK; lia); discriminate|rewrite nth_upd_neq by auto; apply HD; lia].
        - intros d Hd. apply nth_upd_neq. lia.
        - intros _. split; [apply Rinv_0_lt_compat; lra|]. exists r. auto. }
      destruct (nth cur cd None) as [[|m]|] eqn:EN; try (apply G2; exact H).
      apply (G cd n0 None H); auto; [|discriminate]. intros d Hd. destruct (Nat.eq_dec d cur) as [->|Hne]; [congruence|apply HD; lia].
  Qed.

  Hypothesis Hconst : forall d, (d < n)%nat -> checkConstantInDimension f a b d rel 0 = true -> degreeIn P d = 0%nat.
  Lemma degrees_exact fuel degs es rs : getChebyshevDegrees cosR rootR fuel f a b rel 0 = Some (degs, es, rs) ->
    length degs = n /\ (forall d, (d < n)%nat -> goodDeg d (nth d degs 0%nat)) /\ ratesBig rs /\
    forall d, (d < n)%nat -> (1 <= degreeIn P d)%nat -> 0 < nth d es 0 /\ exists r, nth d rs None = Some r /\ 1 < r.
  Proof.
    unfold getChebyshevDegrees. intros H. fold n in H. set (cd := map _ (seq 0 n)) in H.
    assert (Ln : length cd = n) by (unfold cd; rewrite map_length, seq_length; auto).
    assert (Hn : forall d, (d < n)%nat -> nth d cd None = if checkConstantInDimension f a b d rel 0 then Some 0%nat else None).
    { intros d Hd. unfold cd. rewrite nth_seqmap by auto. reflexivity. }
    destruct (degreeLoop _ _ _ _ _ _ _ _ _ _ _) as [[[cd' es'] rs']|] eqn:E; [|discriminate]. injection H. intros <- <- <-. clear H.
    apply loop_exact in E; [|lia| |intros; lia].
    2:{ split; auto. intros d x Hd Q. rewrite Hn in Q by auto. destruct (checkConstantInDimension f a b d rel 0) eqn:C; [|discriminate]. injection Q. intros <-. unfold goodDeg. rewrite (Hconst d Hd C). lia. }
    destruct E as ([L K] & D & B & X). split; [rewrite map_length; auto|]. split; [|split; [exact B|]].
    - intros d Hd. rewrite nth_optmap by lia. specialize (D d Hd). specialize (K d). destruct (nth d cd' None) as [x|]; [|congruence]. apply K; auto.
    - intros d Hd Ht. specialize (X d ltac:(lia)). rewrite Nat.sub_0_r in X. apply X. rewrite Hn by auto.
      destruct (checkConstantInDimension f a b d rel 0) eqn:C; [|reflexivity]. rewrite (Hconst d Hd C) in Ht. lia.
  Qed.

  Lemma eprod_single degs : forall rs d, (d < length degs)%nat -> length rs = length degs -> (exists r, nth d rs None = Some r /\ 1 < r) ->
    0 < eprod (map (fun i => Nat.eqb i d) (seq 0 (length degs))) degs rs.
  Proof.
    assert (A : forall degs k (rs : list (option R)) d, (forall i, (k <= i < k + length degs)%nat -> i = d -> exists r, nth (i - k) rs None = Some r /\ 1 < r) -> length rs = length degs ->
      0 < eprod (map (fun i => Nat.eqb i d) (seq k (length degs))) degs rs).
    { clear. induction degs as [|x degs IH]; intros k [|r rs] d H HLn; simpl in HLn; try lia; cbn [length seq map eprod]; [lra|].
      apply Rmult_lt_0_compat.
      - destruct (Nat.eqb_spec k d) as [E|E].
        + destruct (H k ltac:(simpl; lia) E) as (v & Ev & Hv). rewrite Nat.sub_diag in Ev. cbn [nth] in Ev. subst r. cbn [efac]. apply Rinv_0_lt_compat. lra.
        + unfold efac. destruct r; pose proof (pos_INR x); rewrite ?plus_INR, ?S_INR; simpl; lra.
      - apply IH; [|lia]. intros i Hi E. destruct (H i ltac:(simpl; lia) E) as (v & Ev & Hv). exists v. split; auto.
        replace (i - k)%nat with (S (i - S k)) in Ev by lia. exact Ev. }
    intros rs d Hd HLn HR. apply A; auto. intros i Hi ->. rewrite Nat.sub_0_r. exact HR.
  Qed.
  Lemma emax_single m : forall k es d, length es = m -> (k <= d < k + m)%nat -> nth (d - k) es 0 <= emax (map (fun i => Nat.eqb i d) (seq k m)) es.
  Proof.
    induction m as [|m IH]; intros k [|e es] d HLn Hd; simpl in HLn; try lia. cbn [seq map emax]. destruct (Nat.eqb_spec k d) as [->|E].
    - rewrite Nat.sub_diag. cbn [nth]. apply Rmax_l.
    - replace (d - k)%nat with (S (d - S k)) by lia. cbn [nth]. apply IH; lia.
  Qed.
  Lemma errorFormula_pos degs es rs d : (d < length degs)%nat -> length es = length degs -> length rs = length degs -> ratesBig rs ->
    0 < nth d es 0 -> (exists r, nth d rs None = Some r /\ 1 < r) -> 0 < errorFormula degs es rs.
  Proof.
    intros Hd He Hr HB HE HR. unfold errorFormula. set (F := fun S => eprod S degs rs * emax S es).
    set (S0 := map (fun i => Nat.eqb i d) (seq 0 (length degs))).
    assert (IN : In S0 (filter (existsb (fun u => u)) (boolLists (length degs)))).
    { apply filter_In. split; [apply CombinedProofs.boolLists_all; unfold S0; rewrite map_length, seq_length; auto|].
      apply existsb_exists. exists true. split; auto. unfold S0. apply in_map_iff. exists d. split; [apply Nat.eqb_refl|apply in_seq; lia]. }
    assert (P0 : 0 < F S0).
    { unfold F. apply Rmult_lt_0_compat; [apply eprod_single; auto|]. pose proof (emax_single (length degs) 0 es d He ltac:(lia)) as Q. rewrite Nat.sub_0_r in Q. unfold S0. lra. }
    assert (PN : forall S, 0 <= F S) by (intros; apply Rmult_le_pos; [apply eprod_nonneg; auto|apply emax_nonneg]).
    apply in_split in IN. destruct IN as (l1 & l2 & ->). rewrite map_app. cbn [map].
    assert (PL : forall l, 0 <= Rsum (map F l)) by (intros; apply Rsum_nonneg; intros v Hv; apply in_map_iff in Hv; destruct Hv as (S & <- & _); auto).
    rewrite Rsum_app. pose proof (PL l1). pose proof (PL l2). unfold Rsum in *. cbn [fold_right]. lra.
  Qed.
  Lemma approx_exact acc fuel M e : (exists d, (d < n)%nat /\ (1 <= degreeIn P d)%nat) -> chebApproximate cosR rootR acc fuel f a b rel = AOk (M, e) ->
    wf M /\ ndim M = n /\ Forall (fun N => (N <= 6)%nat) (shp M) /\ (forall y, in_cube n y -> cheb_eval M y = cheb_eval P y) /\ 0 < e.
  Proof.
    intros (d0 & Hd0 & Hp) H. pose proof (call_shape _ _ _ _ _ _ _ _ H) as [W N]. apply call_ok in H. destruct H as (degs & es & rs & HG & -> & HE & L1 & L2 & L3 & L4).
    apply degrees_exact in HG. destruct HG as (Ld & GD & RB & X). fold n in L1, L2, L3, N.
    split; [exact W|]. split; [exact N|]. split; [|split].
    - change (shp (fst (fst (intervalApproximate cosR f degs a b)))) with (map S degs). apply Forall_forall. intros x Hx. apply in_map_iff in Hx. destruct Hx as (k & <- & Hk).
      destruct (In_nth _ _ 0%nat Hk) as (d & Hd & <-). rewrite Ld in Hd. specialize (GD d Hd). unfold goodDeg in GD. pose proof (size_pos d Hd). unfold degreeIn in GD. lia.
    - intros y Hy. apply (eval_exact degs); auto. split; auto. intros d Hd. apply (GD d Hd).
    - rewrite getApproxError_R in HE by (rewrite ?fixDegs_length; auto using ratesBig_OK; lia). injection HE. intros <-.
      destruct (X d0 Hd0 Hp) as [X1 X2]. apply (errorFormula_pos _ _ _ d0); auto; rewrite ?fixDegs_length; lia.
  Qed.
End Exact.
