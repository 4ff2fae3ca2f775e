(** * The quadratic checks answer exactly: they accept whenever the part of degree at most two clears
    the rest of the coefficients.  The properties are in QuadSharpProps.v. *)
From Coq Require Import List Arith Bool ZArith Reals Lra Lia Permutation.
From Verif Require Import Num RSum Cheb Tensor PolySpec TransformModel TransformChebProofs PartProofs IntervalProofs LinearProofs QuadModel QuadDescent QuadProofs Quad3Proofs QuadNdProofs QuadNdFaces QuadSharpSpec.
Import ListNotations.
Local Open Scope R_scope.

(** ** The scan, both ways *)
Lemma scan_hi os evals : (forall e, In e evals -> os <= e) -> forall mx, @scan R R_num os false mx evals = true.
Proof.
  induction evals as [|e r IH]; intros H mx; simpl; auto.
  unfold ngtb. cbn [nltb nopp R_num]. assert (E : Rltb e os = false) by (apply Rltb_false, H; left; auto). rewrite E. cbn [orb andb].
  apply IH. intros e' He. apply H. right; auto.
Qed.
Lemma scan_lo os evals : (forall e, In e evals -> e <= - os) -> forall mn, @scan R R_num os mn false evals = true.
Proof.
  induction evals as [|e r IH]; intros H mn; simpl; auto.
  unfold ngtb. cbn [nltb nopp R_num]. assert (E : Rltb (- os) e = false) by (apply Rltb_false, H; left; auto). rewrite E. cbn [orb]. rewrite andb_false_r.
  apply IH. intros e' He. apply H. right; auto.
Qed.
Lemma scan_sharp os evals (P : list R -> Prop) (q : list R -> R) :
  (forall e, In e evals -> exists x, P x /\ e = q x) ->
  (forall x, P x -> (exists e, In e evals /\ e <= q x) /\ (exists e, In e evals /\ q x <= e)) ->
  (@scan R R_num os false false evals = true <-> (forall x, P x -> os <= q x) \/ (forall x, P x -> q x <= - os)).
Proof.
  intros Hin Hext. split.
  - intros H. apply scan_true in H; [|reflexivity]. destruct H as [[_ H]|[_ H]]; [left|right]; intros x Hx; destruct (Hext x Hx) as [(a & Ha & La) (b & Hb & Lb)].
    + eapply Rle_trans; [apply H, Ha|exact La].
    + eapply Rle_trans; [exact Lb|apply H, Hb].
  - intros [H|H]; [apply scan_hi|apply scan_lo]; intros e He; destruct (Hin e He) as (x & Hx & ->); auto.
Qed.

(** ** The two parts of the polynomial *)
Lemma low_sum (M : tensor R) (f : list nat -> R -> R) l : (forall i, f i 0 = 0) -> NoDup l ->
  (forall c, In c l <-> length c = ndim M /\ (degree c < 3)%nat) ->
  Rsum (map (fun i => f i (@pget R R_num M i)) l) = Rsum (map (fun i => f i (tget M i)) (filter (fun i => total i <? 3)%nat (indices (shp M)))).
Proof.
  intros H0 Hn Hl.
  rewrite (Rsum_map_ext _ (fun i => if inrangeb (shp M) i then f i (tget M i) else 0)).
  2:{ intros i _. unfold pget. destruct inrangeb; [auto|apply H0]. }
  rewrite <- Rsum_filter. apply Rsum_perm, Permutation_map. apply NoDup_Permutation; [apply NoDup_filter; auto|apply NoDup_filter, NoDup_indices|].
  intros c. rewrite !filter_In, Hl, Nat.ltb_lt, in_indices. change (total c) with (degree c). split.
  - intros [[H1 H2] H3]. split; auto. apply inrangeb_iff; auto.
  - intros [H1 H2]. pose proof (inrange_length _ _ H1) as Hlen. split; [split; auto|]. apply inrangeb_iff; auto.
Qed.
Lemma low_part (M : tensor R) l x : NoDup l -> (forall c, In c l <-> length c = ndim M /\ (degree c < 3)%nat) ->
  Rsum (map (fun i => @pget R R_num M i * basis chebT i x) l) = lowPart M x.
Proof. intros Hn Hl. apply (low_sum M (fun i v => v * basis chebT i x)); auto. intros; ring. Qed.
Lemma high_part (M : tensor R) l : NoDup l -> (forall c, In c l <-> length c = ndim M /\ (degree c < 3)%nat) ->
  sumabs M - Rsum (map (fun i => Rabs (@pget R R_num M i)) l) = highSum M.
Proof.
  intros Hn Hl. rewrite (low_sum M (fun _ v => Rabs v)); auto; [|intros; apply Rabs_R0].
  unfold sumabs, highSum. rewrite !Rsum_filter, <- Rsum_map_minus. apply Rsum_map_ext. intros i _.
  rewrite Nat.leb_antisym. destruct (total i <? 3)%nat; simpl; ring.
Qed.

(** ** Two variables *)
Lemma ix2_spec c : In c ix2 <-> length c = 2%nat /\ (degree c < 3)%nat.
Proof.
  unfold ix2. split.
  - simpl. intuition (subst; simpl; lia).
  - intros [Hl Hd]. destruct c as [|a [|b [|? ?]]]; try discriminate. unfold degree in Hd. simpl in Hd.
    destruct a as [|[|[|a]]]; destruct b as [|[|[|b]]]; try lia; simpl; tauto.
Qed.
Lemma ix2_nodup : NoDup ix2. Proof. unfold ix2. repeat constructor; simpl; intuition discriminate. Qed.
Definition incl1 (v : R) := -1 <= v <= 1.
Lemma inside_incl v : @inside R R_num v = true -> incl1 v.
Proof. intros H. apply inside_R in H. unfold incl1. lra. Qed.
Ltac pts := repeat match goal with
  | H : In _ (_ ++ _) |- _ => apply in_app_iff in H; destruct H as [H|H]
  | H : In _ (flat_map _ _) |- _ => apply in_flat_map in H; let q := fresh "q" in let Hq := fresh "Hq" in destruct H as (q & Hq & H)
  | H : In _ (if ?b then _ else _) |- _ => let E := fresh "E" in destruct b eqn:E
  | H : In _ (let '(_, _) := ?q in _) |- _ => destruct q
  | H : In _ [] |- _ => destruct H
  | H : In _ (_ :: _) |- _ => destruct H as [H|H]
  | H : (_, _) = (_, _) |- _ => injection H; clear H; intros; subst
  | H : _ && _ = true |- _ => apply andb_true_iff in H; destruct H
  | H : @inside R R_num _ = true |- _ => apply inside_incl in H
  end.
Lemma pts2 c p : In p (@qc2_points R R_num c) -> incl1 (fst p) /\ incl1 (snd p).
Proof.
  unfold qc2_points. cbv zeta. cbn [n1 nopp R_num]. intros H. destruct p as [u v]. pts; cbn [fst snd]; split; auto; unfold incl1; lra.
Qed.
Theorem quad2_sharp (M : tensor R) tol : wf M -> ndim M = 2%nat ->
  (@quadratic_check_2D R R_num M tol = true <->
   (forall x, in_cube 2 x -> highSum M + tol <= lowPart M x) \/ (forall x, in_cube 2 x -> lowPart M x <= - (highSum M + tol))).
Proof.
  intros Hwf Hd. unfold quadratic_check_2D. rewrite Hd. cbn [Nat.eqb negb]. set (c := qc2_coeff M) in *.
  assert (Hc : c = map (@pget R R_num M) ix2) by (apply qc2_coeff_pget; auto).
  assert (Hspec : forall c, In c ix2 <-> length c = ndim M /\ (degree c < 3)%nat) by (rewrite Hd; apply ix2_spec).
  assert (Eos : @other_sum_low R R_num M c tol = highSum M + tol).
  { unfold other_sum_low. rewrite tsumabs_R by auto. unfold nsumabs. rewrite nsum_R. rnum.
    rewrite <- (high_part M ix2 ix2_nodup Hspec), Hc, map_map. reflexivity. }
  rewrite Eos.
  assert (Hlow : forall x, length x = 2%nat -> lowPart M x = quadf 2 (k2 c) (B2 c) (H2 c) (fun i => nth i x 0)).
  { intros x Hl. rewrite <- (ix2_quad M c x Hl Hc). symmetry. apply low_part; auto. apply ix2_nodup. }
  assert (Hev : forall X, quadf 2 (k2 c) (B2 c) (H2 c) X = @qc2_eval R R_num c (X 0%nat) (X 1%nat)).
  { intros X. rewrite qc2_eval_quadf. apply quadf_ext. intros i Hi. two i; reflexivity. }
  apply scan_sharp.
  - intros e He. apply in_map_iff in He. destruct He as (p & <- & Hp). exists [fst p; snd p].
    destruct (pts2 c p Hp) as [P1 P2]. split; [split; [reflexivity|repeat (apply Forall_cons; [assumption|]); apply Forall_nil]|].
    rewrite Hlow, Hev by reflexivity. reflexivity.
  - intros x [Hl Hx].
    assert (Hcube : cubev 2 (fun i => nth i x 0)) by (intros i Hi; apply Forall_nth; auto; lia).
    assert (Hsym : forall i j, (i < 2)%nat -> (j < 2)%nat -> H2 c i j = H2 c j i) by (intros i j Hi Hj; two i; two j; reflexivity).
    destruct (extrema 2 (k2 c) (B2 c) (H2 c) (cand2 c) Hsym (faces2 c) _ Hcube) as [(y & Hy & Hle) (z & Hz & Hge)].
    rewrite Hlow by auto. rewrite Hev in Hle. rewrite Hev with (X := z) in Hge.
    split; [exists (@qc2_eval R R_num c (y 0%nat) (y 1%nat))|exists (@qc2_eval R R_num c (z 0%nat) (z 1%nat))]; (split; [|auto]).
    + exact (in_map (fun p => @qc2_eval R R_num c (fst p) (snd p)) _ _ Hy).
    + exact (in_map (fun p => @qc2_eval R R_num c (fst p) (snd p)) _ _ Hz).
Qed.

(** ** Three variables *)
Lemma ix3_spec c : In c ix3 <-> length c = 3%nat /\ (degree c < 3)%nat.
Proof.
  unfold ix3. split.
  - simpl. intuition (subst; simpl; lia).
  - intros [Hl Hd]. destruct c as [|a [|b [|d [|? ?]]]]; try discriminate. unfold degree in Hd. simpl in Hd.
    destruct a as [|[|[|a]]]; destruct b as [|[|[|b]]]; destruct d as [|[|[|d]]]; try lia; simpl; tauto.
Qed.
Lemma ix3_nodup : NoDup ix3. Proof. unfold ix3. repeat constructor; simpl; intuition discriminate. Qed.
Lemma pts3 c u v w : In (u, v, w) (@qc3_points R R_num c) -> incl1 u /\ incl1 v /\ incl1 w.
Proof.
  unfold qc3_points. cbv zeta. cbn [n1 nopp R_num]. intros H. pts; (split; [|split]); first [assumption|unfold incl1; lra].
Qed.
Theorem quad3_sharp (M : tensor R) tol : wf M -> ndim M = 3%nat ->
  (@quadratic_check_3D R R_num M tol = true <->
   (forall x, in_cube 3 x -> highSum M + tol <= lowPart M x) \/ (forall x, in_cube 3 x -> lowPart M x <= - (highSum M + tol))).
Proof.
  intros Hwf Hd. unfold quadratic_check_3D. rewrite Hd. cbn [Nat.eqb negb]. set (c := qc3_coeff M) in *.
  assert (Hc : c = map (@pget R R_num M) ix3) by (apply qc3_coeff_pget; auto).
  assert (Hspec : forall c, In c ix3 <-> length c = ndim M /\ (degree c < 3)%nat) by (rewrite Hd; apply ix3_spec).
  assert (Eos : @other_sum_low R R_num M c tol = highSum M + tol).
  { unfold other_sum_low. rewrite tsumabs_R by auto. unfold nsumabs. rewrite nsum_R. rnum.
    rewrite <- (high_part M ix3 ix3_nodup Hspec), Hc, map_map. reflexivity. }
  rewrite Eos.
  assert (Hlow : forall x, length x = 3%nat -> lowPart M x = quadf 3 (k3 c) (B3 c) (H3 c) (fun i => nth i x 0)).
  { intros x Hl. rewrite <- (ix3_quad M c x Hl Hc). symmetry. apply low_part; auto. apply ix3_nodup. }
  assert (Hev : forall X, quadf 3 (k3 c) (B3 c) (H3 c) X = @qc3_eval R R_num c (X 0%nat) (X 1%nat) (X 2%nat)).
  { intros X. rewrite qc3_eval_quadf. apply quadf_ext. intros i Hi. three i; reflexivity. }
  apply scan_sharp.
  - intros e He. apply in_map_iff in He. destruct He as ([[u v] w] & <- & Hp). exists [u; v; w].
    destruct (pts3 c u v w Hp) as (P1 & P2 & P3). split; [split; [reflexivity|repeat (apply Forall_cons; [assumption|]); apply Forall_nil]|].
    rewrite Hlow, Hev by reflexivity. reflexivity.
  - intros x [Hl Hx].
    assert (Hcube : cubev 3 (fun i => nth i x 0)) by (intros i Hi; apply Forall_nth; auto; lia).
    assert (Hsym : forall i j, (i < 3)%nat -> (j < 3)%nat -> H3 c i j = H3 c j i) by (intros i j Hi Hj; three i; three j; reflexivity).
    destruct (extrema 3 (k3 c) (B3 c) (H3 c) (cand3 c) Hsym (faces3 c) _ Hcube) as [(y & Hy & Hle) (z & Hz & Hge)].
    rewrite Hlow by auto. rewrite Hev in Hle. rewrite Hev with (X := z) in Hge.
    split; [exists (@qc3_eval R R_num c (y 0%nat) (y 1%nat) (y 2%nat))|exists (@qc3_eval R R_num c (z 0%nat) (z 1%nat) (z 2%nat))]; (split; [|auto]).
    + exact (in_map (fun p => let '(x, y, z) := p in @qc3_eval R R_num c x y z) _ _ Hy).
    + exact (in_map (fun p => let '(x, y, z) := p in @qc3_eval R R_num c x y z) _ _ Hz).
Qed.

(** ** Any number of variables *)
Lemma insideC_incl v : @insideC R R_num v = true -> incl1 v.
Proof. unfold insideC. rnum. rewrite andb_true_iff, !Rleb_true. auto. Qed.
Lemma nth_incl l : Forall incl1 l -> forall i, incl1 (nth i l 0).
Proof. intros H i. destruct (Nat.lt_ge_cases i (length l)); [rewrite Forall_forall in H; apply H, nth_In; auto|rewrite nth_overflow by auto; unfold incl1; lra]. Qed.
Lemma sides_incl k : forall s, In s (@sides R R_num k) -> Forall incl1 s.
Proof.
  induction k as [|k IH]; simpl; intros s Hs; [destruct Hs as [<-|[]]; constructor|].
  rewrite !in_app_iff in Hs. destruct Hs as [Hs|[Hs|[]]]; apply in_map_iff in Hs; destruct Hs as (t & <- & Ht); constructor; auto; unfold incl1; simpl; lra.
Qed.
Lemma upd_incl (l : list R) k v : Forall incl1 l -> incl1 v -> Forall incl1 (upd l k v).
Proof. revert k; induction l as [|a l IH]; intros [|k] Hl Hv; inversion Hl; subst; simpl; try constructor; auto. Qed.
Lemma assign_incl ks : forall vs base, Forall incl1 vs -> Forall incl1 base ->
  Forall incl1 (fold_left (fun (X : list R) (p : nat * R) => upd X (fst p) (snd p)) (combine ks vs) base).
Proof.
  induction ks as [|k ks IH]; intros [|v vs] base Hv Hb; simpl; auto. inversion Hv; subst. apply IH; auto. apply upd_incl; auto.
Qed.
Lemma forallb_incl l : forallb (@insideC R R_num) l = true -> Forall incl1 l.
Proof. rewrite forallb_forall, Forall_forall. intros H v Hv. apply insideC_incl, H, Hv. Qed.
Lemma ptsN rank_full solve (M : tensor R) p : In p (@ndPoints R R_num rank_full solve M) -> Forall incl1 p.
Proof.
  unfold ndPoints. rewrite !in_app_iff. intros [H|[H|H]].
  - eapply sides_incl, H.
  - apply in_flat_map in H. destruct H as (F & _ & H). unfold ndFace in H. destruct signChange; [destruct H|]. destruct rank_full; [|destruct H].
    apply in_flat_map in H. destruct H as (X0 & HX0 & H). destruct forallb eqn:E; [|destruct H]. destruct H as [<-|[]].
    unfold scatter. apply assign_incl; [apply forallb_incl, E|]. apply assign_incl; [eapply sides_incl; eauto|].
    apply Forall_forall. intros v Hv. apply repeat_spec in Hv. subst. unfold incl1. cbn [n0 R_num]. lra.
  - unfold ndInterior in H. destruct signChange; [destruct H|]. destruct rank_full; [|destruct H]. destruct forallb eqn:E; [|destruct H].
    destruct H as [<-|[]]. apply forallb_incl, E.
Qed.
Theorem quadN_sharp rank_full solve (M : tensor R) tol : wf M -> sym_solver_ok (ndim M) rank_full solve ->
  (@quadratic_check_nd R R_num rank_full solve M tol = true <->
   (forall x, in_cube (ndim M) x -> highSum M + tol <= lowPart M x) \/ (forall x, in_cube (ndim M) x -> lowPart M x <= - (highSum M + tol))).
Proof.
  intros Hwf Hok. unfold quadratic_check_nd. set (n := ndim M).
  assert (Hspec : forall c, In c (quadIdx n) <-> length c = ndim M /\ (degree c < 3)%nat) by (intros c; apply in_quadIdx).
  assert (Eos : @ndOther R R_num M tol = highSum M + tol).
  { rewrite ndOther_eq by auto. fold n. rewrite <- (high_part M (quadIdx n)); auto. apply NoDup_quadIdx. }
  rewrite Eos.
  assert (Hlow : forall x, length x = n -> lowPart M x = quadf n (kN M) (BN M) (HN M) (fun i => nth i x 0)).
  { intros x Hl. unfold n. rewrite <- (quadIdx_sum M x Hl). symmetry. apply low_part; auto. apply NoDup_quadIdx. }
  apply scan_sharp.
  - intros e He. apply in_map_iff in He. destruct He as (p & <- & Hp). pose proof (ptsN _ _ _ _ Hp) as P.
    exists (map (fun i => nth i p 0) (seq 0 n)). split.
    + split; [rewrite map_length, seq_length; auto|]. apply Forall_forall. intros v Hv. apply in_map_iff in Hv. destruct Hv as (i & <- & _). apply nth_incl, P.
    + rewrite Hlow by (rewrite map_length, seq_length; auto). rewrite ndEval_quadf. apply quadf_ext. intros i Hi. symmetry.
      rewrite (nth_indep _ 0 (nth 0 p 0)) by (rewrite map_length, seq_length; auto). rewrite (map_nth (fun i => nth i p 0)), seq_nth by auto. auto.
  - intros x [Hl Hx].
    assert (Hcube : cubev n (fun i => nth i x 0)) by (intros i Hi; apply Forall_nth; auto; lia).
    destruct (extrema n (kN M) (BN M) (HN M) (candN M rank_full solve) (HN_sym M) (facesN M rank_full solve Hok) _ Hcube) as [(y & (py & Hpy & Ey) & Hle) (z & (pz & Hpz & Ez) & Hge)].
    rewrite Hlow by auto.
    rewrite (quadf_ext n _ _ _ y _ Ey) in Hle. rewrite (quadf_ext n _ _ _ z _ Ez) in Hge. unfold n in Hle, Hge |- *. rewrite <- !ndEval_quadf in Hle, Hge. rewrite <- ndEval_quadf.
    split; [exists (ndEval M py)|exists (ndEval M pz)]; (split; [apply in_map; assumption|auto]).
Qed.
