(** * Properties of the constant-term check and the linear reduction: C04, C09, C10, C47, C52, C53 *)
From Coq Require Import List Arith Bool ZArith Reals Lra Lia.
From Flocq Require Import Core.
From Verif Require Import Num RSum Cheb Tensor PolySpec SystemSpec TransformModel IntervalModel IntervalProofs PartProofs LinearModel LinearProofs SvdExample.
Import ListNotations.
Local Open Scope R_scope.

(** ** C04 *)
Theorem C04_constant_check_discards_only_rootfree_boxes :
  forall (n : nat) (Ms : list (tensor R)) (errors : list R) (fs : nat -> list R -> R),
    squareSystem n Ms errors -> approximates n fs Ms errors ->
    @constantCheck R R_num Ms errors = true ->
    exists i, (i < n)%nat /\ forall x, in_cube n x -> fs i x <> 0.
Proof.
  intros n Ms errors fs (Hn & HM & He & HMs) Hap Hc.
  assert (Hwf : Forall wf Ms) by (eapply Forall_impl; [|exact HMs]; intros M [H _]; exact H).
  destruct (constantCheck_true Ms errors Hwf Hc) as (i & Hi & _ & Hlt). exists i. split; [lia|]. intros x Hx H0.
  assert (HMi := proj1 (Forall_nth_iff _ _ (mkT [] [])) HMs i Hi). destruct HMi as [Hw Hd].
  pose proof (const_root (nth i Ms (mkT [] [])) Hw x (fs i x) (nth i errors 0)) as H. rewrite Hd in H. specialize (H Hx (Hap i Hi x Hx) H0). lra.
Qed.
Print Assumptions C04_constant_check_discards_only_rootfree_boxes.
(** 3 + T_1(x) T_1(y) with error 1/2 is discarded; 1/2 + T_1(x) T_1(y) is not *)
Example C04_case : let M c := mkT [2;2]%nat [c; 0; 0; 1] in
  squareSystem 2 [M 3; M (1/2)] [1/2; 0] /\ @constantCheck R R_num [M 3; M (1/2)] [1/2; 0] = true /\
  @constantCheck R R_num [M (1/2); M (1/2)] [0; 0] = false.
Proof.
  cbv zeta. split; [|split].
  - split; [lia|]. split; [reflexivity|]. split; [reflexivity|]. repeat constructor; cbn; lia.
  - unfold constantCheck, ngtb. cbn. rnum. apply orb_true_iff. left. apply Rltb_true. unfold Rabs; repeat destruct Rcase_abs; lra.
  - unfold constantCheck, ngtb. cbn. rnum. rewrite orb_false_r. apply orb_false_iff. split; apply Rltb_false; unfold Rabs; repeat destruct Rcase_abs; lra.
Qed.

(** ** C09 *)
Lemma root_small n Ms errors fs x : squareSystem n Ms errors -> approximates n fs Ms errors -> commonRoot n fs x ->
  forall i, (i < n)%nat -> Rabs (cheb_eval (nth i Ms (mkT [] [])) x) <= nth i errors 0.
Proof.
  intros (Hn & HM & He & HMs) Hap [Hx Hr] i Hi. specialize (Hap i ltac:(lia) x Hx). rewrite (Hr i Hi) in Hap.
  rewrite Rminus_0_l, Rabs_Ropp in Hap. exact Hap.
Qed.
Theorem C09_linear_reduction_keeps_every_root :
  forall (n : nat) (svd : list (list R) -> list (list R) * list R * list (list R))
         (Ms : list (tensor R)) (errors : list R) (fs : nat -> list R -> R),
    svd_ok n svd -> squareSystem n Ms errors -> approximates n fs Ms errors ->
    let r := @boundingInterval R R_num svd Ms errors false in
    (blThrow r = true -> forall x, ~ commonRoot n fs x) /\
    (blChanged r = true -> forall x, commonRoot n fs x -> inBox (blBox r) x).
Proof.
  intros n svd Ms errors fs Hsvd Hsq Hap r. pose proof (root_small n Ms errors fs) as Hrs. pose proof Hsq as (Hn & HM & He & HMs). split.
  - intros Ht x Hx. pose proof (bounding_keep n svd Ms errors Hn HM HMs He x (proj1 Hx) (Hrs x Hsq Hap Hx) Hsvd) as [H _]. fold r in H. congruence.
  - intros Hc x Hx. pose proof (bounding_keep n svd Ms errors Hn HM HMs He x (proj1 Hx) (Hrs x Hsq Hap Hx) Hsvd) as [_ H]. apply H.
    destruct (blNan r) eqn:E; auto. destruct (nan_flags svd Ms errors false E) as [E1 _]. fold r in E1. congruence.
Qed.
Print Assumptions C09_linear_reduction_keeps_every_root.
Ltac rdec := repeat match goal with
 | |- context [Rltb ?a ?b] => first [replace (Rltb a b) with true by (symmetry; apply Rltb_true; lra) | replace (Rltb a b) with false by (symmetry; apply Rltb_false; lra)]
 | |- context [Rleb ?a ?b] => first [replace (Rleb a b) with true by (symmetry; apply Rleb_true; lra) | replace (Rleb a b) with false by (symmetry; apply Rleb_false; lra)]
 | |- context [Reqb ?a ?b] => first [replace (Reqb a b) with true by (symmetry; apply Reqb_true; lra) | replace (Reqb a b) with false by (symmetry; apply Reqb_false; lra)] end.
Lemma f_equal5 a b c d e a' b' c' d' e' : a = a' -> b = b' -> c = c' -> d = d' -> e = e' -> @mkRow R a b c d e = mkRow a' b' c' d' e'.
Proof. congruence. Qed.
Lemma pow2fl_1 : Rpow2fl 1 = 1.
Proof. unfold Rpow2fl. rewrite mag_1. reflexivity. Qed.
Definition lin1 : tensor R := mkT [2]%nat [-1/4; 1].
Lemma rows_lin1 : fold_left (@scaleCol R R_num) (seq 0 1) (map (@scaleRow R R_num) (map mkLRow (combine [lin1] [0])), repeat 1 1) = ([mkRow [1] (-1/4) (5/4) 0 0], [1]).
Proof.
  assert (A1 : Rabs 1 = 1) by (apply Rabs_pos_eq; lra). assert (A2 : Rabs (-1/4) = 1/4) by (rewrite Rabs_left; lra).
  assert (E1 : @mkLRow R R_num (lin1, 0) = mkRow [1] (-1/4) (5/4) 0 0).
  { unfold mkLRow, getLinearTerms, tconst, tsumabs, nsumabs, lin1. cbn -[Rabs Rplus Rmult Rminus Rdiv]. rnum. cbn -[Rabs Rplus Rmult Rminus Rdiv]. rewrite A1, A2. f_equal; lra. }
  cbn [combine map]. rewrite E1. unfold scaleRow. cbn [lA lc ltot lerr le]. assert (Em : @maxAbs R R_num [1] = 1) by exact A1.
  rewrite Em. unfold ngtb. rnum. rdec. rewrite A1, pow2fl_1. cbn [map seq fold_left]. unfold scaleCol. cbn [map lA nth lc ltot lerr le].
  unfold Rdiv. rewrite Rinv_1, !Rmult_1_r. rnum. rewrite Em. unfold ngtb; rnum; rdec. rewrite A1, pow2fl_1.
  cbn [upd firstn skipn app repeat]. unfold Rdiv. rewrite Rinv_1.
  f_equal; [|f_equal; lra]. f_equal. apply f_equal5; [f_equal; lra|lra..].
Qed.
Lemma lin1_changed : let r := @boundingInterval R R_num svd1 [lin1] [0] false in blChanged r = true /\ blThrow r = false.
Proof.
  assert (A1 : Rabs 1 = 1) by (apply Rabs_pos_eq; lra).
  assert (Hr : in_cube 1 [1/4]) by (split; [reflexivity|repeat constructor; lra]).
  unfold boundingInterval, boundingIntervalW. change (ndim (nth 0 [lin1] (mkT [] []))) with 1%nat. rnum. rewrite rows_lin1.
  cbn [map lA]. unfold svd1. cbn [mget nth]. destruct Rlt_dec; [exfalso; lra|]. rnum. rewrite A1. unfold ngtb. rnum. cbn [nth Nat.sub]. rdec. cbn [negb].
  rewrite !nlit_R. unfold widthToAdd. rewrite nmax_R, n2_R, nlit_R. rnum. rewrite Rmax_right by lra. rdec.
  unfold passBounds, linearCheck1, linCol, invMat. cbn [seq map fold_left lA nth mget lc lerr le ltot combine length]. rnum. rdec. cbn [fst snd]. 
  unfold lcBounds. unfold ngeb. rnum. rewrite n2_R. rewrite A1. rdec. cbn [omax omin option_map fst snd]. rewrite !nmax_R, !nmin_R. unfold nsum. cbn [fold_left fold_right]. rnum.
  assert (Ab0 : Rabs ((0 + 1 / 1 * 1 * 1) * 0) = 0) by (rewrite Rmult_0_r; apply Rabs_R0). rewrite Ab0.
  match goal with |- context [Some (Rmax ?u ?v * 1 - ?w)] => replace (Rmax u v * 1 - w) with (1/4 - 2 * (1 / 4503599627370496)) by (unfold Rmax; destruct Rle_dec; lra) end.
  match goal with |- context [Some (Rmin ?u ?v * 1 + ?w)] => replace (Rmin u v * 1 + w) with (1/4 + 2 * (1 / 4503599627370496)) by (unfold Rmin; destruct Rle_dec; lra) end.
  cbn [existsb rowOut]. unfold ngtb. rnum. change (Ropp 1) with (-1). rdec. cbn [orb].
  unfold clipRow. cbn [fst snd]. rewrite !clipv_R. rewrite !Rmax_right, !Rmin_right by (rewrite ?Rmin_right; lra).
  match goal with |- context [volRatio 1 ?b] => assert (Ev : @volRatio R R_num 1 b < 99/100) end.
  { unfold volRatio. rewrite nprod_R, nlit_R. cbn [boxDims map Rprod fold_right fst snd]. rnum. unfold Rprod. cbn [fold_right]. change (2 ^ Z.of_nat 1)%Z with 2%Z. lra. }
  match goal with |- context [Rltb (volRatio 1 ?b) (99/100)] => replace (Rltb (volRatio 1 b) (99/100)) with true by (symmetry; apply Rltb_true; exact Ev) end.
  cbn. auto.
Qed.
(** the system x - 1/4 = 0: all hypotheses hold, it has the root 1/4, and the box is reduced *)
Example C09_case : svd_ok 1 svd1 /\ squareSystem 1 [lin1] [0] /\ approximates 1 (fun _ => cheb_eval lin1) [lin1] [0] /\
  commonRoot 1 (fun _ => cheb_eval lin1) [1/4] /\
  let r := @boundingInterval R R_num svd1 [lin1] [0] false in blChanged r = true /\ blThrow r = false.
Proof.
  split; [exact svd1_ok|]. split; [split; [lia|]; split; [reflexivity|]; split; [reflexivity|]; repeat constructor; cbn; lia|].
  split; [intros i Hi x Hx; destruct i; [|cbn in Hi; lia]; cbn [nth]; rewrite Rminus_diag_eq by reflexivity; rewrite Rabs_R0; lra|].
  split; [split; [split; [reflexivity|repeat constructor; lra]|]; intros i Hi; unfold cheb_eval; cbn; rewrite ?chebT_0, ?chebT_1; unfold tget; cbn; rnum; lra|].
  exact lin1_changed.
Qed.
(** the contract of np.linalg.svd is also satisfiable for 2x2 matrices *)
Example C09_svd_2x2 : svd_ok 2 svd2.
Proof. exact svd2_ok. Qed.

(** ** C10 *)
Theorem C10_linear_reduction_returns_a_subbox :
  forall (n : nat) (svd : list (list R) -> list (list R) * list R * list (list R))
         (Ms : list (tensor R)) (errors : list R) (finalStep : bool),
    squareSystem n Ms errors ->
    let r := @boundingInterval R R_num svd Ms errors finalStep in
    blChanged r = true -> blThrow r = false ->
    length (blBox r) = n /\ Forall (fun p => -1 <= fst p /\ fst p <= snd p /\ snd p <= 1) (blBox r).
Proof. intros n svd Ms errors fs (Hn & HM & He & HMs) r Hc Ht. exact (bounding_sub n svd Ms errors Hn HM HMs He fs Hc Ht). Qed.
Print Assumptions C10_linear_reduction_returns_a_subbox.

(** ** C47 *)
(** coefficient number [idx] of T_{idx_0}(x_0) T_{idx_1}(x_1) ..., with a single 1 at position k *)
Theorem C47_linear_terms_are_linear_coefficients :
  forall (T : Type) (NT : Num T) (M : tensor T),
    length (getLinearTerms M) = ndim M /\
    forall k, (k < ndim M)%nat ->
      nth k (getLinearTerms M) n0 =
      if (nth k (shp M) 0 =? 1)%nat then n0
      else tget M (map (fun j => if (j =? k)%nat then 1%nat else 0%nat) (seq 0 (ndim M))).
Proof.
  intros T NT M. split; [apply getLinearTerms_length|]. intros k Hk. rewrite getLinearTerms_spec by auto.
  destruct (_ =? 1)%nat; auto. f_equal. apply list_eq_nth with 0%nat.
  - unfold eidx. rewrite upd_length. unfold zidx. rewrite repeat_length, map_length, seq_length. auto.
  - unfold eidx, zidx. rewrite upd_length, repeat_length. intros i Hi. rewrite nth_map_seq by auto. apply (eidx_nth (ndim M) k 1 i Hk).
Qed.
Print Assumptions C47_linear_terms_are_linear_coefficients.
Example C47_case : @getLinearTerms Z (Build_Num Z 0 1 Z.add Z.sub Z.mul Z.div Z.opp Z.abs Z.ltb Z.leb Z.eqb (fun a _ => a) (fun a => a))%Z (mkT [2;1;3]%nat [1;2;3;4;5;6]%Z) = [4;0;2]%Z.
Proof. reflexivity. Qed.

(** ** C52 *)
(** The added width is the constant 2*2^-52: replacing the rule by that constant never changes
    any output, so the conditioning of the linear part has no influence on it. *)
Theorem C52_condition_number_never_widens :
  forall (n : nat) (svd : list (list R) -> list (list R) * list R * list (list R))
         (Ms : list (tensor R)) (errors : list R) (finalStep : bool),
    svd_ok n svd -> squareSystem n Ms errors ->
    @boundingInterval R R_num svd Ms errors finalStep
    = boundingIntervalW (fun _ => 2 * / 2 ^ 52) svd Ms errors finalStep.
Proof. intros n svd Ms errors fs Hs (Hn & HM & He & HMs). apply (bounding_width n); auto. Qed.
Print Assumptions C52_condition_number_never_widens.

(** ** C53 *)
(** Also the interval returned together with changed=False contains every root, unless the linear
    part of every polynomial is zero, in which case every bound is NaN and nothing is reported. *)
Theorem C53_unchanged_interval_keeps_every_root :
  forall (n : nat) (svd : list (list R) -> list (list R) * list R * list (list R))
         (Ms : list (tensor R)) (errors : list R) (fs : nat -> list R -> R),
    svd_ok n svd -> squareSystem n Ms errors -> approximates n fs Ms errors ->
    let r := @boundingInterval R R_num svd Ms errors false in
    (blNan r = false -> forall x, commonRoot n fs x -> inBox (blBox r) x) /\
    (blNan r = true <-> forall i k, (i < n)%nat -> (k < n)%nat -> nth k (getLinearTerms (nth i Ms noT)) 0 = 0) /\
    (blNan r = true -> blChanged r = false /\ blThrow r = false).
Proof.
  intros n svd Ms errors fs Hsvd Hsq Hap r. pose proof Hsq as (Hn & HM & He & HMs). split; [|split].
  - intros Hc x Hx. exact (proj2 (bounding_keep n svd Ms errors Hn HM HMs He x (proj1 Hx) (root_small n Ms errors fs x Hsq Hap Hx) Hsvd) Hc).
  - apply (nan_iff n svd Ms errors); auto.
  - intros Hb. destruct (nan_flags svd Ms errors false Hb). auto.
Qed.
Print Assumptions C53_unchanged_interval_keeps_every_root.
