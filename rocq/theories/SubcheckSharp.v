(** * The sub-interval checks answer exactly too *)
From Coq Require Import List Arith Bool ZArith Reals Lra Lia Sorted.
From Verif Require Import Num RSum Cheb Tensor PolySpec TransformModel TransformChebProofs PartProofs IntervalProofs LinearProofs.
From Verif Require Import QuadModel QuadDescent QuadProofs Quad3Proofs QuadNdProofs QuadNdFaces QuadSharpSpec QuadSharp SubcheckModel SubcheckBox SubcheckQuad SubcheckNd.
Import ListNotations.
Local Open Scope R_scope.

(** the points of a box of dimension n *)
Definition boxpt (n : nat) (b : @sbox R) (x : list R) : Prop := length x = n /\ forall i, (i < n)%nat -> lo b i <= nth i x 0 <= hi b i.
Lemma between_incl l h v : @between R R_num l h v = true -> l <= v <= h.
Proof. intros H. apply between_R in H. lra. Qed.
Ltac ptsB := repeat match goal with
  | H : In _ (_ ++ _) |- _ => apply in_app_iff in H; destruct H as [H|H]
  | H : In _ (flat_map _ _) |- _ => apply in_flat_map in H; let q := fresh "q" in let Hq := fresh "Hq" in destruct H as (q & Hq & H)
  | H : In _ (if ?b then _ else _) |- _ => let E := fresh "E" in destruct b eqn:E
  | H : In _ (let '(_, _) := ?q in _) |- _ => destruct q
  | H : In _ [] |- _ => destruct H
  | H : In _ (_ :: _) |- _ => destruct H as [H|H]
  | H : (_, _) = (_, _) |- _ => injection H; clear H; intros; subst
  | H : _ && _ = true |- _ => apply andb_true_iff in H; destruct H
  | H : @between R R_num _ _ _ = true |- _ => apply between_incl in H
  end.

Section Two.
  Variable M : tensor R.
  Variable tol : R.
  Variable b : @sbox R.
  Hypothesis Hwf : wf M.

  Lemma pts2B c u v : lo b 0 <= hi b 0 -> lo b 1 <= hi b 1 -> In (u, v) (@sub2_points R R_num c b) -> lo b 0 <= u <= hi b 0 /\ lo b 1 <= v <= hi b 1.
  Proof. intros H0 H1. unfold sub2_points. cbv zeta. intros H. ptsB; (split; [|]); subst; first [assumption|lra]. Qed.
  Lemma throw2_sharp : ndim M = 2%nat -> lo b 0 <= hi b 0 -> lo b 1 <= hi b 1 ->
    (throw2 M tol b = true <->
     (forall x, boxpt 2 b x -> highSum M + tol <= lowPart M x) \/ (forall x, boxpt 2 b x -> lowPart M x <= - (highSum M + tol))).
  Proof.
    intros Hd O0 O1. unfold throw2. set (c := qc2_coeff M) in *.
    assert (Hc : c = map (@pget R R_num M) ix2) by (apply qc2_coeff_pget; auto).
    assert (Hspec : forall c, In c ix2 <-> length c = ndim M /\ (degree c < 3)%nat) by (rewrite Hd; apply ix2_spec).
    assert (Eos : @other_sum_low R R_num M c tol = highSum M + tol).
    { unfold other_sum_low. rewrite tsumabs_R by auto. unfold nsumabs. rewrite nsum_R. rnum.
      rewrite <- (high_part M ix2 ix2_nodup Hspec), Hc, map_map. reflexivity. }
    rewrite Eos.
    assert (Hlow : forall x, length x = 2%nat -> lowPart M x = quadf 2 (k2 c) (B2 c) (H2 c) (fun i => nth i x 0)).
    { intros x Hl. rewrite <- (ix2_quad M c x Hl Hc). symmetry. apply low_part; auto. apply ix2_nodup. }
    assert (Hev : forall X, quadf 2 (k2 c) (B2 c) (H2 c) X = @qc2_eval R R_num c (X 0%nat) (X 1%nat)).
    { intros X. rewrite qc2_eval_quadf. apply quadf_ext. intros i Hi. two i; reflexivity. }
    apply scan_sharp.
    - intros e He. apply in_map_iff in He. destruct He as ([u v] & <- & Hp). exists [u; v].
      destruct (pts2B c u v O0 O1 Hp) as [P1 P2]. split; [split; [reflexivity|intros i Hi; two i; auto]|].
      rewrite Hlow, Hev by reflexivity. reflexivity.
    - intros x [Hl Hx].
      assert (Hsym : forall i j, (i < 2)%nat -> (j < 2)%nat -> H2 c i j = H2 c j i) by (intros i j Hi Hj; two i; two j; reflexivity).
      destruct (extremaB (lo b) (hi b) 2 (k2 c) (B2 c) (H2 c) (cand2B b c) Hsym (faces2B b c) (fun i => nth i x 0) Hx) as [(y & Hy & Hle) (z & Hz & Hge)].
      rewrite Hlow by auto. rewrite Hev in Hle. rewrite Hev with (X := z) in Hge.
      split; [exists (@qc2_eval R R_num c (y 0%nat) (y 1%nat))|exists (@qc2_eval R R_num c (z 0%nat) (z 1%nat))]; (split; [|auto]).
      + exact (in_map (fun p => @qc2_eval R R_num c (fst p) (snd p)) _ _ Hy).
      + exact (in_map (fun p => @qc2_eval R R_num c (fst p) (snd p)) _ _ Hz).
  Qed.

  Lemma pts3B c u v w : lo b 0 <= hi b 0 -> lo b 1 <= hi b 1 -> lo b 2 <= hi b 2 -> In (u, v, w) (@sub3_points R R_num c b) ->
    lo b 0 <= u <= hi b 0 /\ lo b 1 <= v <= hi b 1 /\ lo b 2 <= w <= hi b 2.
  Proof. intros O0 O1 O2. unfold sub3_points. cbv zeta. intros H. ptsB; (split; [|split]); subst; first [assumption|lra]. Qed.
  Lemma throw3_sharp : ndim M = 3%nat -> lo b 0 <= hi b 0 -> lo b 1 <= hi b 1 -> lo b 2 <= hi b 2 ->
    (throw3 M tol b = true <->
     (forall x, boxpt 3 b x -> highSum M + tol <= lowPart M x) \/ (forall x, boxpt 3 b x -> lowPart M x <= - (highSum M + tol))).
  Proof.
    intros Hd O0 O1 O2. unfold throw3. set (c := qc3_coeff M) in *.
    assert (Hc : c = map (@pget R R_num M) ix3) by (apply qc3_coeff_pget; auto).
    assert (Hspec : forall c, In c ix3 <-> length c = ndim M /\ (degree c < 3)%nat) by (rewrite Hd; apply ix3_spec).
    assert (Eos : @other_sum_low R R_num M c tol = highSum M + tol).
    { unfold other_sum_low. rewrite tsumabs_R by auto. unfold nsumabs. rewrite nsum_R. rnum.
      rewrite <- (high_part M ix3 ix3_nodup Hspec), Hc, map_map. reflexivity. }
    rewrite Eos.
    assert (Hlow : forall x, length x = 3%nat -> lowPart M x = quadf 3 (k3 c) (B3 c) (H3 c) (fun i => nth i x 0)).
    { intros x Hl. rewrite <- (ix3_quad M c x Hl Hc). symmetry. apply low_part; auto. apply ix3_nodup. }
    assert (Hev : forall X, quadf 3 (k3 c) (B3 c) (H3 c) X = @qc3_eval R R_num c (X 0%nat) (X 1%nat) (X 2%nat)).
    { intros X. rewrite qc3_eval_quadf. apply quadf_ext. intros i Hi. three i; reflexivity. }
    apply scan_sharp.
    - intros e He. apply in_map_iff in He. destruct He as ([[u v] w] & <- & Hp). exists [u; v; w].
      destruct (pts3B c u v w O0 O1 O2 Hp) as (P1 & P2 & P3). split; [split; [reflexivity|intros i Hi; three i; auto]|].
      rewrite Hlow, Hev by reflexivity. reflexivity.
    - intros x [Hl Hx].
      assert (Hsym : forall i j, (i < 3)%nat -> (j < 3)%nat -> H3 c i j = H3 c j i) by (intros i j Hi Hj; three i; three j; reflexivity).
      destruct (extremaB (lo b) (hi b) 3 (k3 c) (B3 c) (H3 c) (cand3B b c) Hsym (faces3B b c) (fun i => nth i x 0) Hx) as [(y & Hy & Hle) (z & Hz & Hge)].
      rewrite Hlow by auto. rewrite Hev in Hle. rewrite Hev with (X := z) in Hge.
      split; [exists (@qc3_eval R R_num c (y 0%nat) (y 1%nat) (y 2%nat))|exists (@qc3_eval R R_num c (z 0%nat) (z 1%nat) (z 2%nat))]; (split; [|auto]).
      + exact (in_map (fun p => let '(x, y, z) := p in @qc3_eval R R_num c x y z) _ _ Hy).
      + exact (in_map (fun p => let '(x, y, z) := p in @qc3_eval R R_num c x y z) _ _ Hz).
  Qed.

  (** ** Boxes whose sides are all the same interval *)
  Section Cube.
    Variable rank_full : list (list R) -> bool.
    Variable solve : list (list R) -> list R -> list R.
    Let n := ndim M.
    Hypothesis Hor : sym_solver_ok n rank_full solve.
    Hypothesis Hcube : forall i, (i < n)%nat -> lo b i = lo b 0 /\ hi b i = hi b 0.
    Hypothesis Ho : lo b 0 <= hi b 0.
    Let ok (v : R) := lo b 0 <= v <= hi b 0.

    Lemma corners_ok k : forall i s, (i + k <= n)%nat -> In s (@cornersFrom R R_num b i k) -> length s = k /\ Forall ok s.
    Proof.
      induction k as [|k IH]; intros i s Hi Hs; cbn [cornersFrom] in Hs; [destruct Hs as [<-|[]]; auto|].
      apply in_flat_map in Hs. destruct Hs as (v & Hv & Hs). apply in_map_iff in Hs. destruct Hs as (t & <- & Ht).
      destruct (IH (S i) t ltac:(lia) Ht) as [L F]. split; [simpl; auto|]. constructor; auto. destruct (Hcube i ltac:(lia)) as [E1 E2].
      unfold ok. destruct Hv as [<-|[<-|[]]]; lra.
    Qed.
    Lemma assign_ok keys : forall vals base k, length vals = length keys -> Forall ok vals -> Forall (fun k => k < length base)%nat keys -> NoDup keys -> In k keys ->
      ok (nth k (assign keys vals base) 0).
    Proof.
      intros vals base k Hl Hv Hk Hn Hin. apply (In_nth _ _ 0%nat) in Hin. destruct Hin as (a & Ha & <-).
      rewrite assign_key by auto. rewrite Forall_forall in Hv. apply Hv, nth_In. lia.
    Qed.
    Lemma inside_vals U : forall X, length X = length U -> Forall (fun k => k < n)%nat U -> @insideOf R R_num b U X = true -> Forall ok X.
    Proof.
      unfold insideOf. induction U as [|u U IH]; intros [|x X] Hl Hu H; try discriminate; auto. simpl in H. apply andb_true_iff in H. destruct H as [H1 H2].
      inversion Hu; subst. constructor; [|apply IH; auto]. cbn [nleb R_num] in H1. apply andb_true_iff in H1. rewrite !Rleb_true in H1.
      destruct (Hcube u ltac:(auto)) as [E1 E2]. unfold ok. lra.
    Qed.
    Lemma unfixed_in i F : In i (unfixedOf n F) <-> (i < n)%nat /\ ~ In i F.
    Proof.
      unfold unfixedOf. rewrite filter_In, in_seq. rewrite negb_true_iff. split.
      - intros [H1 H2]. split; [lia|]. intros Hin. assert (existsb (Nat.eqb i) F = true) by (apply existsb_exists; exists i; split; [auto|apply Nat.eqb_refl]). congruence.
      - intros [H1 H2]. split; [lia|]. apply not_true_iff_false. intros H. apply existsb_exists in H. destruct H as (j & Hj & E). apply Nat.eqb_eq in E. subst. auto.
    Qed.
    Lemma unfixed_nonempty F : Forall (fun i => i < n)%nat F -> NoDup F -> (length F < n)%nat -> (1 <= length (unfixedOf n F) <= n)%nat.
    Proof.
      intros Hf Hn Hl. split.
      - destruct (unfixedOf n F) as [|u l] eqn:E; [|simpl; lia]. exfalso.
        assert (incl (seq 0 n) F). { intros i Hi. apply in_seq in Hi. destruct (in_dec Nat.eq_dec i F) as [|Hni]; auto. exfalso. assert (In i (unfixedOf n F)) by (apply unfixed_in; split; [lia|auto]). rewrite E in H. destruct H. }
        pose proof (NoDup_incl_length (seq_NoDup n 0) H). rewrite seq_length in *. lia.
      - unfold unfixedOf. pose proof (filter_length_le' (fun i => negb (existsb (Nat.eqb i) F)) (seq 0 n)). rewrite seq_length in *. auto.
    Qed.
    Lemma incr_nodup (l : list nat) : increasing l -> NoDup l.
    Proof.
      unfold increasing. intros H. induction H as [|a l Hs IH Hf]; constructor; auto.
      intros Hin. rewrite Forall_forall in Hf. specialize (Hf a Hin). lia.
    Qed.
    Lemma ptsNB p : In p (@subPoints R R_num rank_full solve M b) -> forall i, (i < n)%nat -> ok (nth i p 0).
    Proof.
      unfold subPoints. rewrite !in_app_iff. fold n. intros [H|[H|H]] i Hi.
      - destruct (corners_ok n 0 p ltac:(lia) H) as [L F]. rewrite Forall_forall in F. apply F, nth_In. lia.
      - apply in_flat_map in H. destruct H as (F & HF & H). apply in_fixed in HF. destruct HF as (Hinc & Hlt & Hlen).
        pose proof (incr_nodup _ Hinc) as Hnd. unfold subFace in H. fold n in H. destruct signChange; [destruct H|]. destruct rank_full eqn:Er; [|destruct H].
        apply in_flat_map in H. destruct H as (X0 & HX0 & H). destruct insideOf eqn:E; [|destruct H]. destruct H as [<-|[]].
        set (U := unfixedOf n F) in *. set (rhs := map _ U) in *. set (Xs := solve _ rhs) in *.
        assert (HU : Forall (fun k => k < n)%nat U) by (apply Forall_forall; intros k Hk; apply unfixed_in in Hk; tauto).
        destruct (Hor (length U) (submat (ndA M) U U) (unfixed_nonempty F Hlt Hnd ltac:(lia)) (sub_sym M U HU)) as [_ Hs].
        destruct (Hs Er rhs ltac:(unfold rhs; rewrite map_length; auto)) as [HXl _]. fold Xs in HXl.
        pose proof (inside_vals U Xs HXl HU E) as HXok.
        destruct (corners_ok (length F) 0 X0 ltac:(lia) HX0) as [L0 F0].
        unfold scatter. change (ok (nth i (assign U Xs (assign F X0 (repeat 0 n))) 0)).
        destruct (in_dec Nat.eq_dec i U) as [HiU|HiU].
        + apply assign_ok; auto; [rewrite assign_len, repeat_length; auto|apply NoDup_filter, seq_NoDup].
        + rewrite assign_other by auto. apply assign_ok; auto; [rewrite repeat_length; auto|].
          destruct (in_dec Nat.eq_dec i F) as [|Hni]; auto. exfalso. apply HiU, unfixed_in. auto.
      - unfold subInterior in H. destruct signChange; [destruct H|]. destruct rank_full eqn:Er; [|destruct H]. destruct insideOf eqn:E; [|destruct H].
        assert (HAe : @submat R R_num (ndA M) (seq 0 n) (seq 0 n) = ndA M).
        { unfold submat. apply list_eq_nth with []; [unfold ndA; rewrite !map_length; auto|].
          rewrite map_length, seq_length. intros k Hk. rewrite nth_map_seq by auto. unfold ndA at 2. fold n. rewrite nth_map_seq by auto.
          apply map_ext_in. intros j Hj. apply in_seq in Hj. unfold mij, ndA. fold n. rewrite nth_map_seq, nth_map_seq by lia. reflexivity. }
        assert (HU0 : Forall (fun k => k < n)%nat (seq 0 n)) by (apply Forall_forall; intros k Hk; apply in_seq in Hk; lia).
        pose proof (sub_sym M (seq 0 n) HU0) as Hsym. rewrite seq_length, HAe in Hsym.
        destruct H as [<-|[]]. destruct (Hor n (ndA M) ltac:(lia) Hsym) as [_ Hs].
        destruct (Hs Er (map (fun v => - v) (ndB M)) ltac:(unfold ndB; rewrite !map_length, seq_length; auto)) as [HXl _].
        assert (HU : Forall (fun k => k < n)%nat (seq 0 n)) by (apply Forall_forall; intros k Hk; apply in_seq in Hk; lia).
        pose proof (inside_vals (seq 0 n) _ ltac:(rewrite seq_length; exact HXl) HU E) as HXok. rewrite Forall_forall in HXok. apply HXok, nth_In. unfold n in *. lia.
    Qed.
    Lemma throwN_sharp :
      throwN rank_full solve M tol b = true <->
       (forall x, boxpt n b x -> highSum M + tol <= lowPart M x) \/ (forall x, boxpt n b x -> lowPart M x <= - (highSum M + tol)).
    Proof.
      unfold throwN.
      assert (Hspec : forall c, In c (quadIdx n) <-> length c = ndim M /\ (degree c < 3)%nat) by (intros c; apply in_quadIdx).
      assert (Eos : @ndOther R R_num M tol = highSum M + tol).
      { rewrite ndOther_eq by auto. fold n. rewrite <- (high_part M (quadIdx n)); auto. apply NoDup_quadIdx. }
      rewrite Eos.
      assert (Hlow : forall x, length x = n -> lowPart M x = quadf n (kN M) (BN M) (HN M) (fun i => nth i x 0)).
      { intros x Hl. unfold n. rewrite <- (quadIdx_sum M x Hl). symmetry. apply low_part; auto. apply NoDup_quadIdx. }
      apply scan_sharp.
      - intros e He. apply in_map_iff in He. destruct He as (p & <- & Hp). pose proof (ptsNB _ Hp) as P.
        assert (Hg : forall i, (i < n)%nat -> nth i (map (fun i => nth i p 0) (seq 0 n)) 0 = nth i p 0).
        { intros i Hi. rewrite (nth_indep _ 0 (nth 0 p 0)) by (rewrite map_length, seq_length; auto). rewrite (map_nth (fun i => nth i p 0)), seq_nth by auto. auto. }
        exists (map (fun i => nth i p 0) (seq 0 n)). split.
        + split; [rewrite map_length, seq_length; auto|]. intros i Hi. rewrite Hg by auto. destruct (Hcube i Hi) as [-> ->]. apply P, Hi.
        + rewrite Hlow by (rewrite map_length, seq_length; auto). rewrite ndEval_quadf. apply quadf_ext. intros i Hi. symmetry. apply Hg, Hi.
      - intros x [Hl Hx].
        destruct (extremaB (lo b) (hi b) n (kN M) (BN M) (HN M) (candNB M rank_full solve b) (HN_sym M) (facesNB M rank_full solve b Hor Hcube) (fun i => nth i x 0) Hx) as [(y & (py & Hpy & Ey) & Hle) (z & (pz & Hpz & Ez) & Hge)].
        rewrite Hlow by auto.
        rewrite (quadf_ext n _ _ _ y _ Ey) in Hle. rewrite (quadf_ext n _ _ _ z _ Ez) in Hge. unfold n in Hle, Hge |- *. rewrite <- !ndEval_quadf in Hle, Hge. rewrite <- ndEval_quadf.
        split; [exists (ndEval M py)|exists (ndEval M pz)]; (split; [apply in_map; assumption|auto]).
    Qed.
  End Cube.
End Two.
