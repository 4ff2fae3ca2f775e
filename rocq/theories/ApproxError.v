(** * Error of the interpolant and the estimate of getApproxError (over R) *)
From Coq Require Import Reals List Lia Lra Arith ZArith Bool.
From Verif Require Import Num Tensor RSum Cheb PolySpec LinearModel SolverModel CombinedModel CombinedSpec ApproxModel ApproxDct ApproxInterp.
Import ListNotations.
Local Open Scope R_scope.

(** ** Specification side *)
(** the multi-index lies within the degrees *)
Definition within (degs L : list nat) : bool := forallb (fun p => Nat.leb (fst p) (snd p)) (combine L degs).
(** sum of the absolute values of the coefficients of the series P beyond the degrees [degs] *)
Definition neglected (degs : list nat) (P : tensor R) : R := sumidx (shp P) (fun L => if within degs L then 0 else Rabs (tget P L)).

Lemma ibasis_small n m y : (m <= n)%nat -> ibasis n m y = chebT m y.
Proof.
  intros H. unfold ibasis. destruct (Nat.eqb_spec n 0).
  - subst. assert (m = 0%nat) by lia. subst. reflexivity.
  - rewrite alias_small by lia. destruct (Nat.leb_spec m n); [reflexivity|lia].
Qed.
Lemma ibasis_bound n m y : -1 <= y <= 1 -> Rabs (ibasis n m y) <= 1.
Proof. intros H. unfold ibasis. destruct (Nat.leb _ _); [apply chebT_bound; auto|rewrite Rabs_R0; lra]. Qed.
Lemma ibasisL_within degs : forall L y, length L = length degs -> length y = length degs -> within degs L = true -> ibasisL degs L y = basis chebT L y.
Proof.
  induction degs as [|n degs IH]; intros [|l L] [|v y] HL Hy H; simpl in HL, Hy; try lia; [reflexivity|].
  unfold within in H. simpl in H. apply andb_true_iff in H. destruct H as [H1 H2]. apply Nat.leb_le in H1.
  cbn [ibasisL basis]. rewrite ibasis_small by auto. f_equal. apply IH; auto; lia.
Qed.
Lemma ibasisL_bound degs : forall L y, Forall (fun v => -1 <= v <= 1) y -> Rabs (ibasisL degs L y) <= 1.
Proof.
  induction degs as [|n degs IH]; intros [|l L] [|v y] H; cbn [ibasisL]; try (rewrite Rabs_R1; lra).
  inversion H; subst. rewrite Rabs_mult. pose proof (ibasis_bound n l v H2). pose proof (IH L y H3).
  pose proof (Rabs_pos (ibasis n l v)). pose proof (Rabs_pos (ibasisL degs L y)). nra.
Qed.
(** the interpolant is within twice the neglected coefficients *)
Lemma series_error f degs a b (P : tensor R) y : ndim P = length degs -> in_cube (length degs) y ->
  (forall y, in_cube (length degs) y -> callAt f (boxPoint a b y) = cheb_eval P y) ->
  Rabs (callAt f (boxPoint a b y) - cheb_eval (fst (fst (intervalApproximate cosR f degs a b))) y) <= 2 * neglected degs P.
Proof.
  intros HP [Hy Hc] Hf. pose proof (series_eval f degs a b P y HP Hy Hf) as HE.
  destruct (intervalApproximate cosR f degs a b) as [[c sn] dg]. cbn [fst]. rewrite HE, Hf by (split; auto).
  rewrite cheb_eval_sumidx, <- sumidx_minus. eapply Rle_trans; [apply sumidx_abs|].
  unfold neglected. rewrite <- sumidx_scal. apply sumidx_le. intros L HL. apply inrange_length in HL.
  destruct (within degs L) eqn:W.
  - rewrite ibasisL_within; auto; [|unfold ndim in HP; lia].
    rewrite Rminus_diag_eq by reflexivity. rewrite Rabs_R0. lra.
  - replace (tget P L * basis chebT L y - tget P L * ibasisL degs L y) with (tget P L * (basis chebT L y - ibasisL degs L y)) by ring.
    rewrite Rabs_mult. pose proof (chebasis_bound L y Hc). pose proof (ibasisL_bound degs L y Hc).
    assert (Rabs (basis chebT L y - ibasisL degs L y) <= 2).
    { unfold Rminus. eapply Rle_trans; [apply Rabs_triang|]. rewrite Rabs_Ropp. lra. }
    pose proof (Rabs_pos (tget P L)). nra.
Qed.

(** ** closed form of getApproxError *)
(** factor of one dimension in one term: tail sum 1/(rho-1) (0 for rho = inf) or number of coefficients *)
Definition efac (used : bool) (deg : nat) (rho : option R) : R :=
  if used then match rho with Some r => / (r - 1) | None => 0 end else INR deg + 1.
Fixpoint eprod (S : list bool) (degs : list nat) (rhos : list (option R)) : R :=
  match S, degs, rhos with u :: S', d :: degs', r :: rhos' => efac u d r * eprod S' degs' rhos' | _, _, _ => 1 end.
(** largest epsilon of the dimensions in S *)
Fixpoint emax (S : list bool) (eps : list R) : R :=
  match S, eps with u :: S', e :: eps' => if u then Rmax e (emax S' eps') else emax S' eps' | _, _ => 0 end.
(** the sum over the non-empty sets of dimensions *)
Definition errorFormula (degs : list nat) (eps : list R) (rhos : list (option R)) : R :=
  Rsum (map (fun S => eprod S degs rhos * emax S eps) (filter (existsb (fun u => u)) (boolLists (length degs)))).
(** no rate is exactly 1 *)
Definition ratesOK (rhos : list (option R)) : Prop := Forall (fun r => r <> Some 1) rhos.

Lemma emax_nonneg S : forall eps, 0 <= emax S eps.
Proof. induction S as [|u S IH]; intros [|e eps]; simpl; try lra. destruct u; [|apply IH]. eapply Rle_trans; [apply (IH eps)|apply Rmax_r]. Qed.
Lemma nmax_Rmax (x y : R) : @nmax R R_num x y = Rmax x y.
Proof. apply nmax_R. Qed.
Lemma termStep_fold l : forall s e, Forall (fun p : bool * (nat * (R * option R)) => snd (snd (snd p)) <> Some 1) l ->
  fold_left termStep l (Some s, e) = (Some (s * eprod (map fst l) (map (fun p => fst (snd p)) l) (map (fun p => snd (snd (snd p))) l)),
     fold_left (fun e (p : bool * (nat * (R * option R))) => if fst p then Rmax e (fst (snd (snd p))) else e) l e).
Proof.
  induction l as [|[u [d [ep r]]] l IH]; intros s e H; cbn [fold_left map eprod fst snd].
  - f_equal. f_equal. ring.
  - apply Forall_cons_iff in H. destruct H as [H1 H2]. cbn [fst snd] in H1.
    unfold termStep at 2. destruct u.
    + destruct r as [r|].
      * rnum. unfold neqb, R_num. destruct (Reqb (r - 1) 0) eqn:E.
        { apply Reqb_true in E. exfalso. apply H1. f_equal. lra. }
        apply Reqb_false in E. rewrite IH by auto. rewrite nmax_Rmax. f_equal. f_equal. cbn [efac]. field; auto.
      * rewrite IH by auto. rewrite nmax_Rmax. f_equal. f_equal. cbn [efac]. rnum. ring.
    + cbn [option_map]. rewrite IH by auto. f_equal. f_equal. cbn [efac]. rnum. rewrite nofnat_R, plus_INR. simpl (INR 1). ring.
Qed.
Lemma efold_max l : forall e, 0 <= e -> fold_left (fun e (p : bool * (nat * (R * option R))) => if fst p then Rmax e (fst (snd (snd p))) else e) l e
  = Rmax e (emax (map fst l) (map (fun p => fst (snd (snd p))) l)).
Proof.
  induction l as [|[u [d [ep r]]] l IH]; intros e He; cbn [fold_left map emax fst snd].
  - rewrite Rmax_left; auto.
  - destruct u.
    + rewrite IH by (eapply Rle_trans; [exact He|apply Rmax_l]). rewrite Rmax_assoc. reflexivity.
    + apply IH; auto.
Qed.
Lemma map_combine_fst {A B} (l : list A) : forall (m : list B), length l = length m -> map fst (combine l m) = l.
Proof. induction l; intros [|y m] H; simpl in *; try lia; auto. f_equal. apply IHl. lia. Qed.
Lemma map_combine_snd {A B} (l : list A) : forall (m : list B), length l = length m -> map snd (combine l m) = m.
Proof. induction l; intros [|y m] H; simpl in *; try lia; auto. f_equal. apply IHl. lia. Qed.
Lemma errTerm_R degs eps rhos S : length S = length degs -> length eps = length degs -> length rhos = length degs -> ratesOK rhos ->
  errTerm degs eps rhos S = Some (eprod S degs rhos * emax S eps).
Proof.
  intros HS He Hr HO. unfold errTerm.
  assert (L1 : length eps = length rhos) by lia.
  assert (L2 : length degs = length (combine eps rhos)) by (rewrite combine_length; lia).
  assert (L3 : length S = length (combine degs (combine eps rhos))) by (rewrite !combine_length; lia).
  rnum. rewrite termStep_fold.
  - cbn [option_map]. f_equal. rewrite efold_max by lra. rewrite map_combine_fst by auto.
    rewrite <- (map_map snd fst), map_combine_snd by auto. rewrite map_combine_fst by auto.
    rewrite <- (map_map snd (fun p => snd (snd p))), map_combine_snd by auto.
    rewrite <- (map_map snd snd (combine degs (combine eps rhos))), map_combine_snd by auto. rewrite map_combine_snd by auto.
    rewrite <- (map_map snd (fun p => fst (snd p))), map_combine_snd by auto.
    rewrite <- (map_map snd fst (combine degs (combine eps rhos))), map_combine_snd by auto. rewrite map_combine_fst by auto.
    rewrite Rmax_right by apply emax_nonneg. rnum. ring.
  - apply Forall_forall. intros p Hp. unfold ratesOK in HO. rewrite Forall_forall in HO. apply HO.
    destruct p as [u [d [e r]]]. cbn [snd]. apply in_combine_r in Hp. apply in_combine_r in Hp. apply in_combine_r in Hp. auto.
Qed.
Lemma boolLists_length n : forall S, In S (boolLists n) -> length S = n.
Proof.
  induction n; simpl; intros S H; [destruct H as [<-|[]]; reflexivity|].
  apply in_app_iff in H. destruct H as [H|H]; apply in_map_iff in H; destruct H as (r & <- & Hr); simpl; f_equal; auto.
Qed.
Lemma getApproxError_R degs eps rhos : length eps = length degs -> length rhos = length degs -> ratesOK rhos ->
  getApproxError degs eps rhos = Some (errorFormula degs eps rhos).
Proof.
  intros He Hr HO. unfold getApproxError, errorFormula.
  assert (A : forall l, (forall S, In S l -> length S = length degs) -> forall e,
    fold_left (fun acc idxs => match acc, errTerm degs eps rhos idxs with Some e, Some v => Some (nadd e v) | _, _ => None end) l (Some e)
    = Some (e + Rsum (map (fun S => eprod S degs rhos * emax S eps) l))).
  { induction l as [|S l IH]; intros HL e; cbn [fold_left map].
    - unfold Rsum; simpl. f_equal. ring.
    - rewrite errTerm_R by (auto; apply HL; left; auto). rewrite IH by (intros; apply HL; right; auto).
      f_equal. unfold Rsum; simpl. rnum. ring. }
  rewrite A.
  - rnum. f_equal. ring.
  - intros S HS. apply filter_In in HS. destruct HS as [HS _]. apply boolLists_length in HS. auto.
Qed.

(** ** it bounds the neglected coefficients of a series that decays at the stated rate *)
(** all rates exceed 1 *)
Definition ratesBig (rhos : list (option R)) : Prop := Forall (fun r => match r with Some r => 1 < r | None => True end) rhos.
Lemma ratesBig_OK rhos : ratesBig rhos -> ratesOK rhos.
Proof. apply Forall_impl. intros [r|] H E; [injection E; intros; lra|discriminate]. Qed.
(** which coordinates of L exceed the degrees *)
Definition beyond (degs L : list nat) : list bool := map (fun p => Nat.ltb (snd p) (fst p)) (combine L degs).
(** product over these coordinates of rho^-(L_d - deg_d) *)
Fixpoint decay (degs L : list nat) (rhos : list (option R)) : R :=
  match degs, L, rhos with
  | d :: degs', l :: L', r :: rhos' =>
      (if Nat.ltb d l then match r with Some r => / r ^ (l - d) | None => 0 end else 1) * decay degs' L' rhos'
  | _, _, _ => 1
  end.
(** |P_L| <= (largest epsilon of the coordinates beyond the degrees) * (the decay) for every neglected L *)
Definition decaysFrom (degs : list nat) (eps : list R) (rhos : list (option R)) (P : tensor R) : Prop :=
  forall L, inrange (shp P) L -> within degs L = false -> Rabs (tget P L) <= emax (beyond degs L) eps * decay degs L rhos.

Definition hfac (u : bool) (d : nat) (r : option R) (l : nat) : R :=
  if u then (if Nat.ltb d l then match r with Some r => / r ^ (l - d) | None => 0 end else 0) else (if Nat.ltb d l then 0 else 1).
Fixpoint hprod (S : list bool) (degs : list nat) (rhos : list (option R)) (L : list nat) : R :=
  match S, degs, rhos, L with u :: S', d :: degs', r :: rhos', l :: L' => hfac u d r l * hprod S' degs' rhos' L' | _, _, _, _ => 1 end.
Lemma hprod_same degs : forall L rhos, length L = length degs -> length rhos = length degs -> hprod (beyond degs L) degs rhos L = decay degs L rhos.
Proof.
  induction degs as [|d degs IH]; intros [|l L] [|r rhos] HL Hr; simpl in HL, Hr; try lia; [reflexivity|].
  unfold beyond. cbn [combine map fst snd hprod decay]. fold (beyond degs L). rewrite IH by lia. f_equal.
  unfold hfac. destruct (Nat.ltb d l); reflexivity.
Qed.
Lemma hprod_other degs : forall S L rhos, length S = length degs -> length L = length degs -> length rhos = length degs -> S <> beyond degs L -> hprod S degs rhos L = 0.
Proof.
  induction degs as [|d degs IH]; intros [|u S] [|l L] [|r rhos] HS HL Hr Hne; simpl in HS, HL, Hr; try lia; [exfalso; apply Hne; reflexivity|].
  cbn [hprod]. unfold beyond in Hne. cbn [combine map fst snd] in Hne. fold (beyond degs L) in Hne.
  destruct (Bool.bool_dec u (Nat.ltb d l)) as [E|E].
  - rewrite IH; auto; try lia; [ring|]. intros E2. apply Hne. congruence.
  - assert (Z : hfac u d r l = 0) by (unfold hfac; destruct u, (Nat.ltb d l); try reflexivity; congruence). rewrite Z. ring.
Qed.
Lemma hfac_nonneg u d r l : match r with Some r => 1 < r | None => True end -> 0 <= hfac u d r l.
Proof.
  intros H. unfold hfac. destruct u, (Nat.ltb d l), r; try lra. left. apply Rinv_0_lt_compat, pow_lt. lra.
Qed.
Lemma hprod_nonneg S : forall degs rhos L, ratesBig rhos -> 0 <= hprod S degs rhos L.
Proof.
  induction S as [|u S IH]; intros [|d degs] [|r rhos] [|l L] H; cbn [hprod]; try lra.
  apply Forall_cons_iff in H. destruct H as [H1 H2]. apply Rmult_le_pos; [apply hfac_nonneg; auto|auto].
Qed.
(** one axis *)
Lemma geo_tail r m : 1 < r -> sumn m (fun k => / r ^ (k + 1)) <= / (r - 1).
Proof.
  intros Hr. assert (E : sumn m (fun k => / r ^ (k + 1)) = (1 - / r ^ m) / (r - 1)).
  { induction m; simpl sumn; [simpl; field; lra|]. rewrite IHm. rewrite Nat.add_1_r. simpl pow. field.
    repeat split; try lra; try (apply pow_nonzero; lra). }
  rewrite E. unfold Rdiv. rewrite <- (Rmult_1_l (/ (r - 1))) at 2. apply Rmult_le_compat_r.
  - left. apply Rinv_0_lt_compat. lra.
  - assert (0 < / r ^ m) by (apply Rinv_0_lt_compat, pow_lt; lra). lra.
Qed.
Lemma hfac_sum u d r n : match r with Some r => 1 < r | None => True end -> sumn n (hfac u d r) <= efac u d r.
Proof.
  intros Hr. destruct u.
  - unfold efac. destruct r as [r|].
    + destruct (Nat.le_gt_cases n (S d)) as [Hn|Hn].
      * rewrite sumn_zero. { left. apply Rinv_0_lt_compat. lra. }
        intros i Hi. unfold hfac. destruct (Nat.ltb_spec d i); [lia|reflexivity].
      * replace n with (S d + (n - S d))%nat by lia. rewrite sumn_split.
        rewrite sumn_zero by (intros i Hi; unfold hfac; destruct (Nat.ltb_spec d i); [lia|reflexivity]).
        rewrite Rplus_0_l. rewrite (sumn_ext _ _ (fun k => / r ^ (k + 1))); [apply geo_tail; auto|].
        intros i Hi. unfold hfac. destruct (Nat.ltb_spec d (S d + i)); [|lia]. f_equal. f_equal. lia.
    + rewrite sumn_zero; [lra|]. intros i Hi. unfold hfac. destruct (Nat.ltb d i); reflexivity.
  - unfold efac. destruct (Nat.le_gt_cases n (S d)) as [Hn|Hn].
    + rewrite (sumn_ext _ _ (fun _ => 1)) by (intros i Hi; unfold hfac; destruct (Nat.ltb_spec d i); [lia|reflexivity]).
      rewrite sumn_const. apply le_INR in Hn. rewrite S_INR in Hn. lra.
    + replace n with (S d + (n - S d))%nat by lia. rewrite sumn_split.
      rewrite (sumn_ext (S d) _ (fun _ => 1)) by (intros i Hi; unfold hfac; destruct (Nat.ltb_spec d i); [lia|reflexivity]).
      rewrite (sumn_zero (n - S d)) by (intros i Hi; unfold hfac; destruct (Nat.ltb_spec d (S d + i)); [reflexivity|lia]).
      rewrite sumn_const, S_INR. lra.
Qed.
Lemma efac_nonneg u d r : match r with Some r => 1 < r | None => True end -> 0 <= efac u d r.
Proof. intros H. unfold efac. destruct u; [destruct r; [left; apply Rinv_0_lt_compat; lra|lra]|pose proof (pos_INR d); lra]. Qed.
Lemma eprod_nonneg S : forall degs rhos, ratesBig rhos -> 0 <= eprod S degs rhos.
Proof.
  induction S as [|u S IH]; intros [|d degs] [|r rhos] H; cbn [eprod]; try lra.
  apply Forall_cons_iff in H. destruct H as [H1 H2]. apply Rmult_le_pos; [apply efac_nonneg; auto|auto].
Qed.
Lemma hprod_sum S : forall degs rhos s, length S = length s -> length degs = length s -> length rhos = length s -> ratesBig rhos ->
  sumidx s (hprod S degs rhos) <= eprod S degs rhos.
Proof.
  induction S as [|u S IH]; intros [|d degs] [|r rhos] [|n s] HS Hd Hr HB; simpl in HS, Hd, Hr; try lia; [simpl; lra|].
  apply Forall_cons_iff in HB. destruct HB as [H1 H2]. cbn [sumidx eprod].
  rewrite (sumn_ext n _ (fun l => hfac u d r l * sumidx s (hprod S degs rhos))).
  2:{ intros l Hl. rewrite <- sumidx_scal. apply sumidx_ext. intros L HL. reflexivity. }
  rewrite sumn_scal_r. apply Rmult_le_compat.
  - apply sumn_nonneg. intros. apply hfac_nonneg; auto.
  - apply sumidx_nonneg. intros. apply hprod_nonneg; auto.
  - apply hfac_sum; auto.
  - apply IH; auto; lia.
Qed.
Lemma beyond_in degs L : length L = length degs -> In (beyond degs L) (boolLists (length degs)).
Proof.
  revert L; induction degs as [|d degs IH]; intros [|l L] H; simpl in H; try lia; [left; reflexivity|].
  unfold beyond. cbn [combine map fst snd length boolLists]. fold (beyond degs L). apply in_app_iff.
  destruct (Nat.ltb d l); [right|left]; apply in_map; apply IH; lia.
Qed.
Lemma beyond_within degs : forall L, existsb (fun u => u) (beyond degs L) = negb (within degs L).
Proof.
  induction degs as [|d degs IH]; intros [|l L]; try reflexivity.
  unfold beyond, within. cbn [combine map fst snd existsb forallb]. fold (beyond degs L). fold (within degs L). rewrite IH.
  destruct (Nat.ltb_spec d l), (Nat.leb_spec l d); try lia; reflexivity.
Qed.
Lemma Rsum_ge_in {A} (f : A -> R) l x : (forall y, In y l -> 0 <= f y) -> In x l -> f x <= Rsum (map f l).
Proof.
  induction l as [|y l IH]; intros H Hx; [destruct Hx|]. unfold Rsum. cbn [map fold_right]. fold (Rsum (map f l)).
  assert (0 <= f y) by (apply H; left; auto).
  assert (0 <= Rsum (map f l)). { apply Rsum_nonneg. intros v Hv. apply in_map_iff in Hv. destruct Hv as (z & <- & Hz). apply H. right; auto. }
  destruct Hx as [->|Hx]; [lra|]. specialize (IH ltac:(intros; apply H; right; auto) Hx). lra.
Qed.
Lemma sumidx_Rsum {A} s (l : list A) (F : A -> list nat -> R) : sumidx s (fun L => Rsum (map (fun x => F x L) l)) = Rsum (map (fun x => sumidx s (F x)) l).
Proof.
  induction l as [|x l IH]; unfold Rsum; cbn [map fold_right]; [apply sumidx_0|].
  rewrite sumidx_plus. f_equal. apply IH.
Qed.
Lemma neglected_bound degs eps rhos (P : tensor R) : ndim P = length degs -> length eps = length degs -> length rhos = length degs ->
  ratesBig rhos -> decaysFrom degs eps rhos P -> neglected degs P <= errorFormula degs eps rhos.
Proof.
  intros HP He Hr HB HD. unfold neglected, errorFormula.
  set (Ss := filter (existsb (fun u => u)) (boolLists (length degs))).
  apply Rle_trans with (sumidx (shp P) (fun L => Rsum (map (fun S => emax S eps * hprod S degs rhos L) Ss))).
  - apply sumidx_le. intros L HL. pose proof (inrange_length _ _ HL) as HLl. unfold ndim in HP.
    assert (Hpos : forall S, In S Ss -> 0 <= emax S eps * hprod S degs rhos L).
    { intros. apply Rmult_le_pos; [apply emax_nonneg|apply hprod_nonneg; auto]. }
    destruct (within degs L) eqn:W.
    + apply Rsum_nonneg. intros v Hv. apply in_map_iff in Hv. destruct Hv as (S & <- & HS). auto.
    + eapply Rle_trans; [apply HD; auto|]. rewrite <- (hprod_same degs L rhos) by lia.
      apply (Rsum_ge_in (fun S => emax S eps * hprod S degs rhos L) Ss (beyond degs L)); auto.
      apply filter_In. split; [apply beyond_in; lia|]. rewrite beyond_within, W. reflexivity.
  - rewrite (sumidx_Rsum (shp P) Ss (fun S L => emax S eps * hprod S degs rhos L)). apply Rsum_map_le. intros S HS.
    apply filter_In in HS. destruct HS as [HS _]. apply boolLists_length in HS.
    rewrite sumidx_scal. rewrite Rmult_comm. apply Rmult_le_compat_r; [apply emax_nonneg|].
    unfold ndim in HP. apply hprod_sum; auto; lia.
Qed.
Lemma Forall2_length_eq {A B} (P : A -> B -> Prop) l m : Forall2 P l m -> length l = length m.
Proof. induction 1; simpl; auto. Qed.
(** non-negative, and larger for larger degrees and epsilons *)
Lemma errorFormula_nonneg degs eps rhos : ratesBig rhos -> 0 <= errorFormula degs eps rhos.
Proof.
  intros H. apply Rsum_nonneg. intros v Hv. apply in_map_iff in Hv. destruct Hv as (S & <- & _).
  apply Rmult_le_pos; [apply eprod_nonneg; auto|apply emax_nonneg].
Qed.
Lemma eprod_mono S : forall degs degs' rhos, Forall2 Nat.le degs degs' -> ratesBig rhos -> eprod S degs rhos <= eprod S degs' rhos.
Proof.
  induction S as [|u S IH]; intros degs degs' rhos H HB; [simpl; lra|].
  inversion H as [|d d' dg dg' Hd Hdg]; subst; [simpl; lra|]. destruct rhos as [|r rhos]; [simpl; lra|].
  apply Forall_cons_iff in HB. destruct HB as [H1 H2]. cbn [eprod]. apply Rmult_le_compat.
  - apply efac_nonneg; auto.
  - apply eprod_nonneg; auto.
  - unfold efac. destruct u; [lra|]. apply le_INR in Hd. lra.
  - apply IH; auto.
Qed.
Lemma emax_mono S : forall eps eps', Forall2 Rle eps eps' -> emax S eps <= emax S eps'.
Proof.
  induction S as [|u S IH]; intros eps eps' H; [simpl; lra|]. inversion H; subst; [simpl; lra|]. simpl.
  destruct u; [|auto]. apply Rle_max_compat_r with (z := emax S l) in H0. eapply Rle_trans; [exact H0|]. apply Rle_max_compat_l. auto.
Qed.
Lemma errorFormula_mono degs degs' eps eps' rhos : ratesBig rhos -> Forall2 Nat.le degs degs' -> Forall2 Rle eps eps' ->
  errorFormula degs eps rhos <= errorFormula degs' eps' rhos.
Proof.
  intros HB Hd He. unfold errorFormula. rewrite <- (Forall2_length_eq _ _ _ Hd). apply Rsum_map_le. intros S _.
  apply Rmult_le_compat; [apply eprod_nonneg; auto|apply emax_nonneg|apply eprod_mono; auto|apply emax_mono; auto].
Qed.
