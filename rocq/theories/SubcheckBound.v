(** * Bounding intervals: every common zero lies in a bounding interval of positive size *)
From Coq Require Import List Arith Bool ZArith Reals Lra Lia.
From Verif Require Import Num RSum Cheb Tensor PolySpec TransformModel TransformChebProofs PartProofs IntervalProofs LinearProofs.
From Verif Require Import QuadModel QuadProofs QuadNdProofs QuadNdFaces SubcheckModel SubcheckProofs.
Import ListNotations.
Local Open Scope R_scope.

Definition inI (x : R) (p : R * R) : Prop := fst p <= x <= snd p.

Lemma nmaxl_le l : forall v x, v <= x -> Forall (fun y => y <= x) l -> @nmaxl R R_num v l <= x.
Proof.
  unfold nmaxl. induction l as [|a l IH]; intros v x Hv H; simpl; auto. inversion H; subst. apply IH; auto.
  rewrite nmax_R. apply Rmax_lub; auto.
Qed.
Lemma nminl_ge l : forall v x, x <= v -> Forall (fun y => x <= y) l -> x <= @nminl R R_num v l.
Proof.
  unfold nminl. induction l as [|a l IH]; intros v x Hv H; simpl; auto. inversion H; subst. apply IH; auto. rewrite nmin_R. apply Rmin_glb; auto.
Qed.
Lemma nmaxl_ge l : forall v y, In y (v :: l) -> y <= @nmaxl R R_num v l.
Proof.
  unfold nmaxl. induction l as [|a l IH]; intros v y H; simpl in *.
  - destruct H as [->|[]]. lra.
  - destruct H as [->|[->|H]].
    + eapply Rle_trans; [|apply IH; left; reflexivity]. rewrite nmax_R. apply Rmax_l.
    + eapply Rle_trans; [|apply IH; left; reflexivity]. rewrite nmax_R. apply Rmax_r.
    + apply IH. auto.
Qed.
Lemma nminl_le l : forall v y, In y (v :: l) -> @nminl R R_num v l <= y.
Proof.
  unfold nminl. induction l as [|a l IH]; intros v y H; simpl in *.
  - destruct H as [->|[]]. lra.
  - destruct H as [->|[->|H]].
    + eapply Rle_trans; [apply IH; left; reflexivity|]. rewrite nmin_R. apply Rmin_l.
    + eapply Rle_trans; [apply IH; left; reflexivity|]. rewrite nmin_R. apply Rmin_r.
    + apply IH. auto.
Qed.

(** the merged interval contains every point of the unit interval that all the intervals contain *)
Lemma merge_sound l x : -1 <= x <= 1 -> Forall (inI x) l -> inI x (@mergeIntervals R R_num l).
Proof.
  intros Hx H. unfold mergeIntervals. destruct l as [|p r].
  - unfold inI. rnum. simpl. lra.
  - inversion H as [|? ? Hp Hr]; subst.
    assert (A : @nmaxl R R_num (fst p) (map fst r) <= x).
    { apply nmaxl_le; [apply Hp|]. apply Forall_map. eapply Forall_impl; [|exact Hr]. intros q Hq. apply Hq. }
    assert (B : x <= @nminl R R_num (snd p) (map snd r)).
    { apply nminl_ge; [apply Hp|]. apply Forall_map. eapply Forall_impl; [|exact Hr]. intros q Hq. apply Hq. }
    unfold ngtb. cbn [nltb R_num]. rewrite (proj2 (Rltb_false _ _)) by lra. split; auto.
Qed.
Lemma clamp1_R v : @clamp1 R R_num v = Rmax (Rmin v 1) (-1).
Proof. unfold clamp1. rewrite nmax_R, nmin_R. rnum. reflexivity. Qed.
Lemma clamp1_range v : -1 <= @clamp1 R R_num v <= 1.
Proof. rewrite clamp1_R. unfold Rmax, Rmin. repeat destruct Rle_dec; lra. Qed.
Lemma clamp1_le v x : -1 <= x <= 1 -> v <= x -> @clamp1 R R_num v <= x.
Proof. intros. rewrite clamp1_R. unfold Rmax, Rmin. repeat destruct Rle_dec; lra. Qed.
Lemma clamp1_ge v x : -1 <= x <= 1 -> x <= v -> x <= @clamp1 R R_num v.
Proof. intros. rewrite clamp1_R. unfold Rmax, Rmin. repeat destruct Rle_dec; lra. Qed.
Lemma clamp1_mono v w : v <= w -> @clamp1 R R_num v <= @clamp1 R R_num w.
Proof. intros. rewrite !clamp1_R. unfold Rmax, Rmin. repeat destruct Rle_dec; lra. Qed.
Lemma minWidth_R : @minWidth R R_num = 1 / 100.
Proof. unfold minWidth. apply nlit_R. Qed.

(** after the width check the point is inside, unless the interval had been cut down to the point *)
Lemma width_sound p x : -1 <= x <= 1 -> inI x p ->
  inI x (@widthCheck R R_num p) \/ (@widthCheck R R_num p = (0, 0) /\ @clamp1 R R_num (fst p) = @clamp1 R R_num (snd p)).
Proof.
  intros Hx [H1 H2]. unfold widthCheck. pose proof (clamp1_le _ _ Hx H1) as A. pose proof (clamp1_ge _ _ Hx H2) as B.
  set (a := @clamp1 R R_num (fst p)) in *. set (b := @clamp1 R R_num (snd p)) in *. cbn [neqb R_num nltb]. 
  destruct (Reqb a b) eqn:E; [apply Reqb_true in E; right; split; auto|]. left.
  rewrite minWidth_R, n2_R. rnum. destruct (Rltb (b - a) (1 / 100)) eqn:E2.
  - apply Rltb_true in E2. split; simpl; [apply clamp1_le|apply clamp1_ge]; auto; lra.
  - split; simpl; lra.
Qed.
(** the result is always an interval inside [-1,1] *)
Lemma width_range p : let q := @widthCheck R R_num p in -1 <= fst q <= 1 /\ -1 <= snd q <= 1.
Proof.
  cbv zeta. unfold widthCheck. destruct (neqb _ _); [simpl; rnum; lra|]. destruct (nltb _ _); simpl; split; apply clamp1_range.
Qed.
Lemma merge_ordered l : let q := @mergeIntervals R R_num l in fst q <= snd q.
Proof.
  cbv zeta. unfold mergeIntervals. destruct l as [|p r]; [simpl; rnum; lra|].
  unfold ngtb. destruct (nltb _ _) eqn:E; [simpl; lra|]. cbn [nltb R_num] in E. apply Rltb_false in E. exact E.
Qed.
Lemma width_ordered p : fst p <= snd p -> let q := @widthCheck R R_num p in fst q <= snd q.
Proof.
  intros Hp. cbv zeta. unfold widthCheck. destruct (neqb _ _); [simpl; lra|]. pose proof (clamp1_mono _ _ Hp).
  destruct (nltb _ _); cbn [fst snd]; auto. apply clamp1_mono. rewrite minWidth_R, n2_R. rnum. lra.
Qed.

Lemma around_in x c w : Rabs (x - c) <= w -> inI x (@around R R_num c w).
Proof. intros H. apply abs_le_iff in H. unfold inI, around. cbn [fst snd nadd nsub R_num]. lra. Qed.
Lemma abs_div_le a d w x c : a <> 0 -> a * (x - c) = d -> Rabs d <= w -> Rabs (x - c) <= w / Rabs a.
Proof.
  intros Ha E H. assert (Hp : 0 < Rabs a) by (apply Rabs_pos_lt; auto).
  apply Rmult_le_reg_l with (Rabs a); auto. rewrite <- Rabs_mult, E. replace (Rabs a * (w / Rabs a)) with w by (field; lra). auto.
Qed.
Lemma abs_mul_le a x : Rabs x <= 1 -> Rabs (a * x) <= Rabs a.
Proof. intros H. rewrite Rabs_mult. pose proof (Rabs_pos a). nra. Qed.

(** ** Two equations in two unknowns *)
Definition near2 (e : @lin2 R) (x y : R) : Prop := Rabs (ct e + xt e * x + yt e * y) <= et e.
Lemma Rabs_le_self e r : Rabs r <= e -> Rabs r <= Rabs e.
Proof. intros H. eapply Rle_trans; [exact H|apply Rle_abs]. Qed.
Lemma improveX_sound e x y : Rabs y <= 1 -> near2 e x y -> Forall (inI x) (improveX e).
Proof.
  intros Hy H. unfold improveX. cbn [neqb n0 R_num]. destruct (Reqb (xt e) 0) eqn:E; cbn [negb]; [constructor|]. apply Reqb_false in E.
  constructor; [|constructor]. apply around_in. rnum. apply abs_div_le with (d := (ct e + xt e * x + yt e * y) - yt e * y); auto; [field; auto|].
  eapply Rle_trans; [apply Rabs_triang|]. rewrite Rabs_Ropp. apply Rplus_le_compat; [apply Rabs_le_self; exact H|apply abs_mul_le; auto].
Qed.
Lemma improveY_sound e x y : Rabs x <= 1 -> near2 e x y -> Forall (inI y) (improveY e).
Proof.
  intros Hy H. unfold improveY. cbn [neqb n0 R_num]. destruct (Reqb (yt e) 0) eqn:E; cbn [negb]; [constructor|]. apply Reqb_false in E.
  constructor; [|constructor]. apply around_in. rnum. apply abs_div_le with (d := (ct e + xt e * x + yt e * y) - xt e * x); auto; [field; auto|].
  eapply Rle_trans; [apply Rabs_triang|]. rewrite Rabs_Ropp. apply Rplus_le_compat; [apply Rabs_le_self; exact H|apply abs_mul_le; auto].
Qed.
Lemma abs_two a b d1 d2 e1 e2 : Rabs d1 <= e1 -> Rabs d2 <= e2 -> Rabs (a * d1 - b * d2) <= Rabs (a * e1) + Rabs (b * e2).
Proof.
  intros H1 H2. eapply Rle_trans; [apply Rabs_triang|]. rewrite Rabs_Ropp, !Rabs_mult.
  pose proof (Rabs_pos a). pose proof (Rabs_pos b). pose proof (Rabs_le_self _ _ H1). pose proof (Rabs_le_self _ _ H2).
  apply Rplus_le_compat; apply Rmult_le_compat_l; auto.
Qed.
Lemma parallelX_sound p q x y : near2 p x y -> near2 q x y -> Forall (inI x) (parallelX p q).
Proof.
  intros Hp Hq. unfold parallelX. cbn [neqb n0 R_num nmul nsub nadd]. destruct (Reqb _ 0) eqn:E; cbn [negb]; [constructor|]. apply Reqb_false in E.
  constructor; [|constructor]. apply around_in. rnum.
  apply abs_div_le with (d := yt q * (ct p + xt p * x + yt p * y) - yt p * (ct q + xt q * x + yt q * y)); auto; [field; auto|]. apply abs_two; auto.
Qed.
Lemma parallelY_sound p q x y : near2 p x y -> near2 q x y -> Forall (inI y) (parallelY p q).
Proof.
  intros Hp Hq. unfold parallelY. cbn [neqb n0 R_num nmul nsub nadd]. destruct (Reqb _ 0) eqn:E; cbn [negb]; [constructor|]. apply Reqb_false in E.
  constructor; [|constructor]. apply around_in. rnum.
  apply abs_div_le with (d := - (xt q * (ct p + xt p * x + yt p * y) - xt p * (ct q + xt q * x + yt q * y))); auto; [field; auto|]. rewrite Rabs_Ropp. apply abs_two; auto.
Qed.

Lemma hasLinear_iff (M : tensor R) : hasLinear M = true <-> Forall (fun s => (1 < s)%nat) (shp M).
Proof. unfold hasLinear. rewrite forallb_forall, Forall_forall. split; intros H s Hs; specialize (H s Hs); [apply Nat.ltb_lt|apply Nat.ltb_lt]; auto. Qed.
Lemma linOf_near (M : tensor R) err x y v : wf M -> ndim M = 2%nat -> hasLinear M = true -> in_cube 2 [x; y] ->
  Rabs (v - cheb_eval M [x; y]) <= err -> v = 0 -> near2 (linOf M err) x y.
Proof.
  intros Hwf Hd Hh [_ Hx] Hv ->. unfold near2, linOf. cbn [ct xt yt et]. rewrite tsumabs_R by auto. rnum.
  apply hasLinear_iff in Hh.
  assert (Hr : forall i, In i [[0;0];[1;0];[0;1]]%nat -> length i = ndim M /\ inrange (shp M) i).
  { intros i Hi. rewrite Hd. unfold ndim in Hd. destruct (shp M) as [|a [|b [|? ?]]]; try discriminate. inversion Hh as [|? ? Ha Hh']; subst. inversion Hh' as [|? ? Hb _]; subst.
    simpl in Hi. destruct Hi as [<-|[<-|[<-|[]]]]; split; auto; unfold inrange; repeat constructor; lia. }
  pose proof (partial_bound M [[0;0];[1;0];[0;1]]%nat [x; y]) as HB.
  assert (HB' := HB ltac:(repeat constructor; simpl; intuition discriminate) (fun i Hi => proj1 (Hr i Hi)) Hx). clear HB.
  cbn [map Rsum fold_right basis] in HB'. rewrite !chebT_0, !chebT_1 in HB'.
  assert (Hp : forall i, In i [[0;0];[1;0];[0;1]]%nat -> @pget R R_num M i = tget M i) by (intros i Hi; destruct (Hr i Hi); apply pget_in; auto).
  rewrite !Hp in HB' by (simpl; tauto).
  rewrite Rminus_0_l, Rabs_Ropp in Hv. apply abs_le_iff in HB'. apply abs_le_iff in Hv. apply abs_le_iff. lra.
Qed.

Lemma Forall_flat_map' {A B} (P : B -> Prop) (f : A -> list B) l : (forall a, In a l -> Forall P (f a)) -> Forall P (flat_map f l).
Proof. intros H. apply Forall_forall. intros b Hb. apply in_flat_map in Hb. destruct Hb as (a & Ha & Hb). exact (proj1 (Forall_forall _ _) (H a Ha) b Hb). Qed.

Theorem bounding2D_sound (P1 P2 : tensor R) e1 e2 methods s x y : wf P1 -> wf P2 -> ndim P1 = 2%nat -> ndim P2 = 2%nat ->
  bounding2D P1 P2 e1 e2 methods = Done s -> in_cube 2 [x; y] ->
  Rabs (0 - cheb_eval P1 [x; y]) <= e1 -> Rabs (0 - cheb_eval P2 [x; y]) <= e2 ->
  length (fst s) = 2%nat /\ length (snd s) = 2%nat /\
  forall i, (i < 2)%nat -> lo s i <= nth i [x; y] 0 <= hi s i \/ (lo s i = 0 /\ hi s i = 0).
Proof.
  intros W1 W2 D1 D2 Hs Hx V1 V2. unfold bounding2D in Hs. destruct (hasLinear P1 && hasLinear P2) eqn:E; [|discriminate].
  apply andb_true_iff in E. destruct E as [L1 L2]. cbv zeta in Hs. injection Hs as <-. split; [reflexivity|]. split; [reflexivity|].
  pose proof (linOf_near P1 e1 x y 0 W1 D1 L1 Hx V1 eq_refl) as N1. pose proof (linOf_near P2 e2 x y 0 W2 D2 L2 Hx V2 eq_refl) as N2.
  destruct Hx as [_ Hx]. inversion Hx as [|? ? Hx0 Hx']; subst. inversion Hx' as [|? ? Hy0 _]; subst.
  assert (Ax : Rabs x <= 1) by (apply abs_le_iff; lra). assert (Ay : Rabs y <= 1) by (apply abs_le_iff; lra).
  set (p := linOf P1 e1) in *. set (q := linOf P2 e2) in *.
  intros i Hi. destruct i as [|[|i]]; [| |lia]; unfold lo, hi; cbn [nth fst snd].
  - match goal with |- context [widthCheck (mergeIntervals ?l)] => assert (HF : Forall (inI x) l) end.
    { apply Forall_flat_map'. intros [|] _; [apply Forall_app; split; apply improveX_sound with y; auto|apply parallelX_sound with y; auto]. }
    destruct (width_sound _ x Hx0 (merge_sound _ x Hx0 HF)) as [Hin|[E _]]; [left; exact Hin|right]. rewrite E. split; reflexivity.
  - match goal with |- context [widthCheck (mergeIntervals ?l)] => assert (HF : Forall (inI y) l) end.
    { apply Forall_flat_map'. intros [|] _; [apply Forall_app; split; apply improveY_sound with x; auto|apply parallelY_sound with x; auto]. }
    destruct (width_sound _ y Hy0 (merge_sound _ y Hy0 HF)) as [Hin|[E _]]; [left; exact Hin|right]. rewrite E. split; reflexivity.
Qed.
