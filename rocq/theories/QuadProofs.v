(** * Quadratic checks: shared lemmas and the 2-D and 3-D versions *)
From Coq Require Import List Arith Bool ZArith Reals Lra Lia.
From Verif Require Import Num RSum Cheb Tensor PolySpec TransformModel TransformChebProofs PartProofs IntervalProofs LinearProofs QuadModel QuadDescent.
Import ListNotations.
Local Open Scope R_scope.

(** ** The scan over the candidate values *)
Lemma scan_true os evals : forall mn mx, @scan R R_num os mn mx evals = true -> mn && mx = false ->
  (mn = false /\ forall e, In e evals -> os <= e) \/ (mx = false /\ forall e, In e evals -> e <= - os).
Proof.
  induction evals as [|e r IH]; intros mn mx Hs Hf; simpl in *.
  - destruct mn; [|left; split; [auto|intros ? []]]. destruct mx; [discriminate|right; split; [auto|intros ? []]].
  - unfold ngtb in Hs. cbn [nltb nopp R_num] in Hs.
    destruct ((mn || Rltb e os) && (mx || Rltb (- os) e)) eqn:E; [discriminate|].
    destruct (IH _ _ Hs E) as [[H1 H2]|[H1 H2]].
    + left. apply orb_false_iff in H1. destruct H1 as [-> H1]. apply Rltb_false in H1. split; auto. intros e' [<-|He]; auto.
    + right. apply orb_false_iff in H1. destruct H1 as [-> H1]. apply Rltb_false in H1. split; auto. intros e' [<-|He]; auto.
Qed.

(** ** The part of a polynomial given by a list of indices, some possibly out of range *)
Lemma inrangeb_iff s idx : length idx = length s -> (inrangeb s idx = true <-> inrange s idx).
Proof.
  unfold inrangeb, inrange. revert idx; induction s as [|a s IH]; intros [|i idx] Hl; simpl in *; try discriminate.
  - split; auto.
  - rewrite andb_true_iff, IH by lia. rewrite Nat.ltb_lt. split; [intros []; constructor; auto|intros H; inversion H; auto].
Qed.
Lemma Rsum_filter {A} (p : A -> bool) (f : A -> R) l : Rsum (map f (filter p l)) = Rsum (map (fun x => if p x then f x else 0) l).
Proof. induction l; simpl; auto. destruct (p a); simpl; rewrite IHl; ring. Qed.
Lemma pget_in (M : tensor R) idx : length idx = ndim M -> inrange (shp M) idx -> @pget R R_num M idx = tget M idx.
Proof. intros Hl H. unfold pget. rewrite (proj2 (inrangeb_iff _ _ Hl) H). reflexivity. Qed.

Lemma partial_bound (M : tensor R) (l : list (list nat)) x :
  NoDup l -> (forall i, In i l -> length i = ndim M) -> Forall (fun v => -1 <= v <= 1) x ->
  Rabs (cheb_eval M x - Rsum (map (fun i => @pget R R_num M i * basis chebT i x) l))
  <= sumabs M - Rsum (map (fun i => Rabs (@pget R R_num M i)) l).
Proof.
  intros Hl Hlen Hx.
  pose proof (part_bound M (filter (inrangeb (shp M)) l) x (NoDup_filter _ Hl)) as H.
  rewrite !Rsum_filter in H.
  rewrite (Rsum_map_ext (fun i => pget M i * _) (fun i => if inrangeb (shp M) i then tget M i * basis chebT i x else 0)).
  - rewrite (Rsum_map_ext (fun i => Rabs (pget M i)) (fun i => if inrangeb (shp M) i then Rabs (tget M i) else 0)).
    + apply H; auto. intros i Hi. apply filter_In in Hi. destruct Hi as [H1 H2]. apply inrangeb_iff; auto.
    + intros i _. unfold pget. destruct inrangeb; auto. cbn [n0 R_num]. apply Rabs_R0.
  - intros i _. unfold pget. destruct inrangeb; auto. cbn [n0 R_num]. ring.
Qed.

(** the values of a function closer than tol to p cannot vanish when the quadratic part stays away from 0 *)
Lemma quad_nonzero p q g tol rest os : Rabs (p - q) <= rest -> os = rest + tol -> Rabs (g - p) < tol -> os <= q \/ q <= - os -> g <> 0.
Proof. intros H1 -> H2 H3 ->. apply abs_le_iff in H1. apply Rabs_def2 in H2. destruct H3; lra. Qed.

(** ** Two dimensions *)
Lemma sumn2 f : sumn 2 f = f 0%nat + f 1%nat. Proof. cbn [sumn]. ring. Qed.
Lemma sumn3 f : sumn 3 f = f 0%nat + f 1%nat + f 2%nat. Proof. cbn [sumn]. ring. Qed.
Definition ix2 : list (list nat) := [[0;0];[1;0];[0;1];[2;0];[1;1];[0;2]]%nat.
Lemma qc2_coeff_pget (M : tensor R) : wf M -> ndim M = 2%nat -> @qc2_coeff R R_num M = map (@pget R R_num M) ix2.
Proof.
  intros (_ & Hs) Hd. unfold qc2_coeff, pget, inrangeb, ndim, ix2 in *. destruct (shp M) as [|a [|b [|? ?]]]; try discriminate. cbn [nth map combine forallb fst snd].
  inversion Hs as [|? ? Ha Hs']; subst. inversion Hs' as [|? ? Hb _]; subst.
  assert (Ea : (0 <? a)%nat = true) by (apply Nat.ltb_lt; lia). assert (Eb : (0 <? b)%nat = true) by (apply Nat.ltb_lt; lia).
  rewrite Ea, Eb, !andb_true_r, !andb_true_l. reflexivity.
Qed.
Definition B2 (c : list R) (i : nat) : R := match i with 0%nat => nth 1 c 0 | _ => nth 2 c 0 end.
Definition H2 (c : list R) (i j : nat) : R :=
  match i, j with 0%nat, 0%nat => 4 * nth 3 c 0 | 0%nat, _ => nth 4 c 0 | _, 0%nat => nth 4 c 0 | _, _ => 4 * nth 5 c 0 end.
Definition k2 (c : list R) : R := nth 0 c 0 - nth 3 c 0 - nth 5 c 0.
Definition vec2 (x y : R) : vec := fun i => match i with 0%nat => x | _ => y end.
Lemma qc2_eval_quadf c x y : @qc2_eval R R_num c x y = quadf 2 (k2 c) (B2 c) (H2 c) (vec2 x y).
Proof. unfold qc2_eval, quadf, dot, mulv, k2, B2, H2, vec2. rewrite !sumn2. rewrite n2_R. rnum. field. Qed.
Definition cand2 (c : list R) (X : vec) : Prop := In (X 0%nat, X 1%nat) (@qc2_points R R_num c).

Lemma n4_R : @n4 R R_num = 4. Proof. unfold n4. rewrite nlit_R. field. Qed.
Lemma n16_R : @n16 R R_num = 16. Proof. unfold n16. rewrite nlit_R. field. Qed.
Lemma inside_R v : @inside R R_num v = true <-> -1 < v < 1.
Proof. unfold inside. rnum. rewrite andb_true_iff, !Rltb_true. reflexivity. Qed.
Lemma edge_dec s i n : cubev n s -> (i < n)%nat -> ~ free s i -> s i = -1 \/ s i = 1.
Proof. intros H Hi Hf. specialize (H i Hi). unfold free in Hf. destruct (Rlt_dec (-1) (s i)); destruct (Rlt_dec (s i) 1); [exfalso; tauto|right|left|left]; lra. Qed.
Ltac two i := destruct i as [|[|i]]; [| |lia].

Lemma faces2 c s : cubev 2 s -> faceOK 2 (B2 c) (H2 c) (cand2 c) (free s) s.
Proof.
  intros Hs. unfold faceOK.
  set (c1 := nth 1 c 0) in *. set (c2 := nth 2 c 0) in *. set (c3 := nth 3 c 0) in *. set (c4 := nth 4 c 0) in *. set (c5 := nth 5 c 0) in *.
  assert (Hmul : forall X i, mulv 2 (H2 c) X i = H2 c i 0 * X 0%nat + H2 c i 1 * X 1%nat) by (intros; unfold mulv; apply sumn2).
  assert (E00 : H2 c 0 0 = 4 * c3) by reflexivity. assert (E01 : H2 c 0 1 = c4) by reflexivity.
  assert (E10 : H2 c 1 0 = c4) by reflexivity. assert (E11 : H2 c 1 1 = 4 * c5) by reflexivity.
  assert (EB0 : B2 c 0 = c1) by reflexivity. assert (EB1 : B2 c 1 = c2) by reflexivity.
  assert (Hcand : forall X, cand2 c X <-> In (X 0%nat, X 1%nat) (@qc2_points R R_num c)) by (intros; reflexivity).
  unfold qc2_points in Hcand. rewrite n4_R, n16_R in Hcand. cbn [nadd nsub nmul ndiv nopp nabs nltb nleb neqb n0 n1 R_num] in Hcand.
  fold c1 c2 c3 c4 c5 in Hcand. change (Ropp 1) with (-1) in Hcand.
  destruct (free_dec s 0) as [F0|F0]; destruct (free_dec s 1) as [F1|F1].
  - (* interior *)
    destruct (Req_EM_T (16 * c3 * c5 - c4 * c4) 0) as [D|D].
    + left. destruct (Req_EM_T c3 0) as [Z3|Z3]; [|].
      * assert (Z4 : c4 = 0) by (rewrite Z3 in D; nra).
        exists (vec2 1 0). repeat split; [intros i Hi Hn; two i; contradiction|exists 0%nat; split; [lia|simpl; lra]|].
        intros i Hi _. rewrite Hmul. two i; rewrite ?E00, ?E01, ?E10, ?E11; simpl; rewrite ?Z3, ?Z4; ring.
      * exists (vec2 c4 (- (4 * c3))). repeat split; [intros i Hi Hn; two i; contradiction|exists 1%nat; split; [lia|simpl; lra]|].
        intros i Hi _. rewrite Hmul. two i; rewrite ?E00, ?E01, ?E10, ?E11; simpl; lra.
    + right; right. exists (vec2 ((c2 * c4 - 4 * c1 * c5) / (16 * c3 * c5 - c4 * c4)) ((c1 * c4 - 4 * c2 * c3) / (16 * c3 * c5 - c4 * c4))).
      split; [intros i Hi Hn; two i; contradiction|]. split.
      * intros i Hi _. rewrite Hmul. two i; rewrite ?E00, ?E01, ?E10, ?E11, ?EB0, ?EB1; simpl; field; auto.
      * intros Hin. apply Hcand. rewrite !in_app_iff. right; right; right.
        rewrite (proj2 (Reqb_false _ _) D). cbn [negb].
        pose proof (Hin 0%nat ltac:(lia) F0) as I0. pose proof (Hin 1%nat ltac:(lia) F1) as I1. unfold free in I0, I1. cbn [vec2] in I0, I1.
        apply inside_R in I0. apply inside_R in I1. rewrite I0, I1. left. reflexivity.
  - (* y fixed *)
    destruct (Req_EM_T c3 0) as [Z3|Z3].
    + left. exists (vec2 1 0). repeat split; [intros i Hi Hn; two i; [contradiction|reflexivity]|exists 0%nat; split; [lia|simpl; lra]|].
      intros i Hi Hf. two i; [|contradiction]. rewrite Hmul, E00, E01, Z3. simpl. ring.
    + right; right. exists (vec2 (- (c1 + c4 * s 1%nat) / (4 * c3)) (s 1%nat)).
      split; [intros i Hi Hn; two i; [contradiction|reflexivity]|]. split.
      * intros i Hi Hf. two i; [|contradiction]. rewrite Hmul, E00, E01, EB0. simpl. field. auto.
      * intros Hin. apply Hcand. rewrite !in_app_iff. right; right; left.
        rewrite (proj2 (Reqb_false _ _) Z3). cbn [negb]. apply in_flat_map. exists (s 1%nat). split.
        -- destruct (edge_dec s 1 2 Hs ltac:(lia) F1) as [E|E]; rewrite E; simpl; auto.
        -- pose proof (Hin 0%nat ltac:(lia) F0) as I0. unfold free in I0. cbn [vec2] in I0. apply inside_R in I0. rewrite I0. left. reflexivity.
  - (* x fixed *)
    destruct (Req_EM_T c5 0) as [Z3|Z3].
    + left. exists (vec2 0 1). repeat split; [intros i Hi Hn; two i; [reflexivity|contradiction]|exists 1%nat; split; [lia|simpl; lra]|].
      intros i Hi Hf. two i; [contradiction|]. rewrite Hmul, E10, E11, Z3. simpl. ring.
    + right; right. exists (vec2 (s 0%nat) (- (c2 + c4 * s 0%nat) / (4 * c5))).
      split; [intros i Hi Hn; two i; [reflexivity|contradiction]|]. split.
      * intros i Hi Hf. two i; [contradiction|]. rewrite Hmul, E10, E11, EB1. simpl. field. auto.
      * intros Hin. apply Hcand. rewrite !in_app_iff. right; left.
        rewrite (proj2 (Reqb_false _ _) Z3). cbn [negb]. apply in_flat_map. exists (s 0%nat). split.
        -- destruct (edge_dec s 0 2 Hs ltac:(lia) F0) as [E|E]; rewrite E; simpl; auto.
        -- pose proof (Hin 1%nat ltac:(lia) F1) as I0. unfold free in I0. cbn [vec2] in I0. apply inside_R in I0. rewrite I0. left. reflexivity.
  - (* corner *)
    right; right. exists s. split; [auto|]. split; [intros i Hi Hf; two i; contradiction|].
    intros _. apply Hcand. rewrite in_app_iff. left.
    destruct (edge_dec s 0 2 Hs ltac:(lia) F0) as [E|E]; destruct (edge_dec s 1 2 Hs ltac:(lia) F1) as [E'|E']; rewrite E, E'; simpl; tauto.
Qed.

Lemma ix2_quad (M : tensor R) c x : length x = 2%nat -> c = map (@pget R R_num M) ix2 ->
  Rsum (map (fun i => @pget R R_num M i * basis chebT i x) ix2) = quadf 2 (k2 c) (B2 c) (H2 c) (fun i => nth i x 0).
Proof.
  intros Hl ->. destruct x as [|x [|y [|? ?]]]; try discriminate.
  unfold ix2, quadf, dot, mulv, k2, B2, H2. cbn [map nth Rsum fold_right basis]. rewrite !sumn2. cbn [nth].
  rewrite ?chebT_0, ?chebT_1, ?chebT_2. field.
Qed.
Theorem quad2_sound (M : tensor R) tol (g : list R -> R) : wf M -> @quadratic_check_2D R R_num M tol = true ->
  ndim M = 2%nat /\ ((forall x, in_cube 2 x -> Rabs (g x - cheb_eval M x) < tol) -> forall x, in_cube 2 x -> g x <> 0).
Proof.
  intros Hwf Hq. unfold quadratic_check_2D in Hq. destruct (Nat.eqb_spec (ndim M) 2) as [Hd|]; [|discriminate]. split; auto.
  intros Hg x Hx. cbn [negb] in Hq. set (c := qc2_coeff M) in *.
  assert (Hc : c = map (@pget R R_num M) ix2) by (apply qc2_coeff_pget; auto).
  destruct Hx as [Hl Hx].
  assert (HB : Rabs (cheb_eval M x - quadf 2 (k2 c) (B2 c) (H2 c) (fun i => nth i x 0)) <= sumabs M - Rsum (map (fun i => Rabs (@pget R R_num M i)) ix2)).
  { rewrite <- (ix2_quad M c x Hl Hc). apply partial_bound; auto.
    - unfold ix2. repeat constructor; simpl; intuition discriminate.
    - intros i Hi. rewrite Hd. unfold ix2 in Hi. simpl in Hi. intuition (subst; reflexivity). }
  eapply quad_nonzero; [exact HB| |apply Hg; split; auto|].
  - instantiate (1 := other_sum_low M c tol). unfold other_sum_low. rewrite tsumabs_R by auto. unfold nsumabs. rewrite nsum_R. rnum.
    rewrite Hc, map_map. reflexivity.
  - assert (Hcube : cubev 2 (fun i => nth i x 0)) by (intros i Hi; apply Forall_nth; auto; lia).
    assert (Hsym : forall i j, (i < 2)%nat -> (j < 2)%nat -> H2 c i j = H2 c j i) by (intros i j Hi Hj; two i; two j; reflexivity).
    destruct (extrema 2 (k2 c) (B2 c) (H2 c) (cand2 c) Hsym (faces2 c) _ Hcube) as [(y & Hy & Hle) (z & Hz & Hge)].
    assert (Hev : forall X, quadf 2 (k2 c) (B2 c) (H2 c) X = @qc2_eval R R_num c (X 0%nat) (X 1%nat)).
    { intros X. rewrite qc2_eval_quadf. apply quadf_ext. intros i Hi. two i; reflexivity. }
    rewrite Hev in Hle. rewrite Hev with (X := z) in Hge.
    apply scan_true in Hq; [|reflexivity]. destruct Hq as [[_ Hall]|[_ Hall]].
    + left. eapply Rle_trans; [|exact Hle]. apply Hall. exact (in_map (fun p => qc2_eval c (fst p) (snd p)) _ _ Hy).
    + right. eapply Rle_trans; [exact Hge|]. apply Hall. exact (in_map (fun p => qc2_eval c (fst p) (snd p)) _ _ Hz).
Qed.
