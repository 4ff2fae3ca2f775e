(** * Sub-interval checks: a sub-interval that is thrown out contains no zero *)
From Coq Require Import List Arith Bool ZArith Reals Lra Lia.
From Verif Require Import Num RSum Cheb Tensor PolySpec TransformModel TransformChebProofs PartProofs IntervalProofs LinearProofs.
From Verif Require Import QuadModel QuadDescent QuadProofs Quad3Proofs QuadNdProofs QuadNdFaces SubcheckModel SubcheckBox SubcheckQuad SubcheckNd.
Import ListNotations.
Local Open Scope R_scope.

Definition in_sbox (n : nat) (b : @sbox R) (x : list R) : Prop :=
  length x = n /\ forall i, (i < n)%nat -> nth i (fst b) 0 <= nth i x 0 <= nth i (snd b) 0.

Lemma constant_term_sound (M : tensor R) tol x v : wf M -> constant_term_check M tol = false ->
  in_cube (ndim M) x -> Rabs (v - cheb_eval M x) <= tol -> v <> 0.
Proof.
  intros Hwf Hc [Hl Hx] Hv ->. unfold constant_term_check in Hc. unfold ngtb in Hc. rewrite tsumabs_R, n2_R in Hc by auto. cbn [nadd nmul nabs nltb R_num] in Hc.
  destruct (Rltb _ _) eqn:E in Hc; [|discriminate]. apply Rltb_true in E.
  set (z := repeat 0%nat (ndim M)) in *.
  assert (Hlz : length z = ndim M) by apply repeat_length.
  assert (Hin : inrange (shp M) z).
  { destruct Hwf as (_ & Hs). unfold inrange, z, ndim in *. clear -Hs. induction Hs; simpl; constructor; auto. }
  pose proof (partial_bound M [z] x) as HB. cbn [map Rsum fold_right] in HB. rewrite (pget_in M z Hlz Hin) in HB.
  assert (HB' := HB ltac:(repeat constructor; simpl; tauto) ltac:(intros i [<-|[]]; auto) Hx).
  assert (Eb : basis chebT z x = 1).
  { unfold z. rewrite <- Hl. clear. induction x; simpl; auto. rewrite chebT_0, IHx. ring. }
  rewrite Eb in HB'. rewrite Rminus_0_l, Rabs_Ropp in Hv.
  set (s := sumabs M) in *. set (p := cheb_eval M x) in *. set (c := tget M z) in *. clearbody s p c.
  apply Rabs_def2 in E || idtac. pose proof (Rle_abs p). pose proof (Rle_abs (-p)). rewrite Rabs_Ropp in *.
  unfold Rabs in *. repeat destruct Rcase_abs; lra.
Qed.

Section Throw.
  Variable M : tensor R.
  Variable tol : R.
  Variable b : @sbox R.
  Hypothesis Hwf : wf M.
  Variable x : list R.
  Variable v : R.
  Hypothesis Hx : in_cube (ndim M) x.
  Hypothesis Hb : in_sbox (ndim M) b x.
  Hypothesis Hv : Rabs (v - cheb_eval M x) < tol.

  Lemma throw2_sound : ndim M = 2%nat -> throw2 M tol b = true -> v <> 0.
  Proof.
    intros Hd Hq. unfold throw2 in Hq. set (c := qc2_coeff M) in *.
    assert (Hc : c = map (@pget R R_num M) ix2) by (apply qc2_coeff_pget; auto).
    destruct Hx as [Hl HxF]. rewrite Hd in *.
    assert (HB : Rabs (cheb_eval M x - quadf 2 (k2 c) (B2 c) (H2 c) (fun i => nth i x 0)) <= sumabs M - Rsum (map (fun i => Rabs (@pget R R_num M i)) ix2)).
    { rewrite <- (ix2_quad M c x Hl Hc). apply partial_bound; auto.
      - unfold ix2. repeat constructor; simpl; intuition discriminate.
      - intros i Hi. rewrite Hd. unfold ix2 in Hi. simpl in Hi. intuition (subst; reflexivity). }
    eapply quad_nonzero; [exact HB| |exact Hv|].
    - instantiate (1 := other_sum_low M c tol). unfold other_sum_low. rewrite tsumabs_R by auto. unfold nsumabs. rewrite nsum_R. rnum.
      rewrite Hc, map_map. reflexivity.
    - assert (Hbox : boxv (lo b) (hi b) 2 (fun i => nth i x 0)) by (intros i Hi; apply Hb; auto).
      assert (Hsym : forall i j, (i < 2)%nat -> (j < 2)%nat -> H2 c i j = H2 c j i) by (intros i j Hi Hj; two i; two j; reflexivity).
      destruct (extremaB (lo b) (hi b) 2 (k2 c) (B2 c) (H2 c) (cand2B b c) Hsym (faces2B b c) _ Hbox) as [(y & Hy & Hle) (z & Hz & Hge)].
      assert (Hev : forall X, quadf 2 (k2 c) (B2 c) (H2 c) X = @qc2_eval R R_num c (X 0%nat) (X 1%nat)).
      { intros X. rewrite qc2_eval_quadf. apply quadf_ext. intros i Hi. two i; reflexivity. }
      rewrite Hev in Hle. rewrite Hev with (X := z) in Hge.
      apply scan_true in Hq; [|reflexivity]. destruct Hq as [[_ Hall]|[_ Hall]].
      + left. eapply Rle_trans; [|exact Hle]. apply Hall. exact (in_map (fun p => qc2_eval c (fst p) (snd p)) _ _ Hy).
      + right. eapply Rle_trans; [exact Hge|]. apply Hall. exact (in_map (fun p => qc2_eval c (fst p) (snd p)) _ _ Hz).
  Qed.

  Lemma throw3_sound : ndim M = 3%nat -> throw3 M tol b = true -> v <> 0.
  Proof.
    intros Hd Hq. unfold throw3 in Hq. set (c := qc3_coeff M) in *.
    assert (Hc : c = map (@pget R R_num M) ix3) by (apply qc3_coeff_pget; auto).
    destruct Hx as [Hl HxF]. rewrite Hd in *.
    assert (HB : Rabs (cheb_eval M x - quadf 3 (k3 c) (B3 c) (H3 c) (fun i => nth i x 0)) <= sumabs M - Rsum (map (fun i => Rabs (@pget R R_num M i)) ix3)).
    { rewrite <- (ix3_quad M c x Hl Hc). apply partial_bound; auto.
      - unfold ix3. repeat constructor; simpl; intuition discriminate.
      - intros i Hi. rewrite Hd. unfold ix3 in Hi. simpl in Hi. intuition (subst; reflexivity). }
    eapply quad_nonzero; [exact HB| |exact Hv|].
    - instantiate (1 := other_sum_low M c tol). unfold other_sum_low. rewrite tsumabs_R by auto. unfold nsumabs. rewrite nsum_R. rnum.
      rewrite Hc, map_map. reflexivity.
    - assert (Hbox : boxv (lo b) (hi b) 3 (fun i => nth i x 0)) by (intros i Hi; apply Hb; auto).
      assert (Hsym : forall i j, (i < 3)%nat -> (j < 3)%nat -> H3 c i j = H3 c j i) by (intros i j Hi Hj; three i; three j; reflexivity).
      destruct (extremaB (lo b) (hi b) 3 (k3 c) (B3 c) (H3 c) (cand3B b c) Hsym (faces3B b c) _ Hbox) as [(y & Hy & Hle) (z & Hz & Hge)].
      assert (Hev : forall X, quadf 3 (k3 c) (B3 c) (H3 c) X = @qc3_eval R R_num c (X 0%nat) (X 1%nat) (X 2%nat)).
      { intros X. rewrite qc3_eval_quadf. apply quadf_ext. intros i Hi. three i; reflexivity. }
      rewrite Hev in Hle. rewrite Hev with (X := z) in Hge.
      apply scan_true in Hq; [|reflexivity]. destruct Hq as [[_ Hall]|[_ Hall]].
      + left. eapply Rle_trans; [|exact Hle]. apply Hall. exact (in_map (fun p => let '(x, y, z) := p in qc3_eval c x y z) _ _ Hy).
      + right. eapply Rle_trans; [exact Hge|]. apply Hall. exact (in_map (fun p => let '(x, y, z) := p in qc3_eval c x y z) _ _ Hz).
  Qed.

  Variable rank_full : list (list R) -> bool.
  Variable solve : list (list R) -> list R -> list R.
  Lemma throwN_sound : sym_solver_ok (ndim M) rank_full solve ->
    (forall i, (i < ndim M)%nat -> lo b i = lo b 0 /\ hi b i = hi b 0) ->
    throwN rank_full solve M tol b = true -> v <> 0.
  Proof.
    intros Hor Hcube Hq. unfold throwN in Hq. destruct Hx as [Hl HxF]. set (n := ndim M) in *.
    assert (HB : Rabs (cheb_eval M x - quadf n (kN M) (BN M) (HN M) (fun i => nth i x 0)) <= sumabs M - Rsum (map (fun i => Rabs (@pget R R_num M i)) (quadIdx n))).
    { unfold n. rewrite <- (quadIdx_sum M x Hl). apply partial_bound; auto; [apply NoDup_quadIdx|]. intros i Hi. apply in_quadIdx in Hi. tauto. }
    eapply quad_nonzero; [exact HB|apply (ndOther_eq M tol Hwf)|exact Hv|].
    assert (Hbox : boxv (lo b) (hi b) n (fun i => nth i x 0)) by (intros i Hi; apply Hb; auto).
    destruct (extremaB (lo b) (hi b) n (kN M) (BN M) (HN M) (candNB M rank_full solve b) (HN_sym M)
                (fun s Hs => facesNB M rank_full solve b Hor Hcube s Hs) _ Hbox) as [(y & (py & Hpy & Ey) & Hle) (z & (pz & Hpz & Ez) & Hge)].
    rewrite (quadf_ext n _ _ _ y _ Ey) in Hle. rewrite (quadf_ext n _ _ _ z _ Ez) in Hge. unfold n in Hle, Hge |- *. rewrite <- !ndEval_quadf in Hle, Hge. rewrite <- ndEval_quadf.
    apply scan_true in Hq; [|reflexivity]. destruct Hq as [[_ Hall]|[_ Hall]].
    - left. eapply Rle_trans; [|exact Hle]. apply Hall, in_map. auto.
    - right. eapply Rle_trans; [exact Hge|]. apply Hall, in_map. auto.
  Qed.

  Lemma throwOne_sound : sym_solver_ok (ndim M) rank_full solve ->
    (ndim M = 2%nat \/ ndim M = 3%nat \/ forall i, (i < ndim M)%nat -> lo b i = lo b 0 /\ hi b i = hi b 0) ->
    throwOne rank_full solve M tol b = true -> v <> 0.
  Proof.
    intros Hor Hd. unfold throwOne. destruct (Nat.eqb_spec (ndim M) 2); [apply throw2_sound; auto|].
    destruct (Nat.eqb_spec (ndim M) 3); [apply throw3_sound; auto|]. apply throwN_sound; auto. destruct Hd as [?|[?|?]]; auto; lia.
  Qed.
End Throw.

(** the result is set only at positions still set in the mask *)
Lemma quadratic_check_nth rank_full solve (M : tensor R) mask tol subs i d : (i < length mask)%nat -> (i < length subs)%nat ->
  nth i (@quadratic_check R R_num rank_full solve M mask tol subs) false = if nth i mask false then throwOne rank_full solve M tol (nth i subs d) else false.
Proof.
  unfold quadratic_check. revert subs i. induction mask as [|m mask IH]; intros [|s subs] i H1 H2; simpl in *; try lia.
  destruct i; auto. apply IH; lia.
Qed.
Lemma quadratic_check_length rank_full solve (M : tensor R) mask tol subs : length mask = length subs ->
  length (@quadratic_check R R_num rank_full solve M mask tol subs) = length mask.
Proof. intros H. unfold quadratic_check. rewrite map_length, combine_length. lia. Qed.
