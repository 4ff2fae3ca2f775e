(** * The linear reduction over the reals *)
From Coq Require Import List Arith Bool ZArith Reals Lra Lia.
From Flocq Require Import Core.
From Verif Require Import Num RSum Cheb Tensor PolySpec TransformModel TransformChebProofs IntervalModel IntervalProofs PartProofs LinearModel.
Import ListNotations.
Local Open Scope R_scope.

(** ** getLinearTerms *)
Section Any.
  Context {T : Type} {NT : Num T}.
  Lemma linTerms_app dat l n spot :
    linTerms dat (l ++ [n]) spot = linTerms dat l spot ++ [if (n =? 1)%nat then n0 else nth (spot * prodn l) dat n0].
  Proof.
    revert spot; induction l; intros spot; cbn [linTerms app].
    - replace (spot * prodn [])%nat with spot by (cbn; lia). reflexivity.
    - rewrite IHl. cbn. repeat f_equal. rewrite Nat.mul_assoc. reflexivity.
  Qed.
  Lemma prodn_app a b : prodn (a ++ b) = (prodn a * prodn b)%nat.
  Proof. induction a; simpl; [lia|]. rewrite IHa. lia. Qed.
  Lemma prodn_rev s : prodn (rev s) = prodn s.
  Proof. induction s; auto. simpl. rewrite prodn_app, IHs. simpl. lia. Qed.
  Lemma linTerms_rev_cons dat n s : rev (linTerms dat (rev (n :: s)) 1) =
    (if (n =? 1)%nat then n0 else nth (prodn s) dat n0) :: rev (linTerms dat (rev s) 1).
  Proof. cbn [rev]. rewrite linTerms_app, rev_app_distr. cbn [rev app]. rewrite prodn_rev, Nat.mul_1_l. reflexivity. Qed.
  Lemma getLinear_gen dat s k : (k < length s)%nat ->
    nth k (rev (linTerms dat (rev s) 1)) n0 =
    if (nth k s 0 =? 1)%nat then n0 else nth (ravel_index s (eidx (length s) k 1)) dat n0.
  Proof.
    revert k; induction s; intros k Hk; [simpl in Hk; lia|]. rewrite linTerms_rev_cons.
    destruct k; cbn [nth].
    - destruct (a =? 1)%nat; auto. f_equal. unfold eidx. cbn. fold (zidx (length s)). rewrite ravel_zero. lia.
    - rewrite IHs by (simpl in Hk; lia). reflexivity.
  Qed.
  Lemma getLinearTerms_spec (M : tensor T) k : (k < ndim M)%nat ->
    nth k (getLinearTerms M) n0 = if (nth k (shp M) 0 =? 1)%nat then n0 else tget M (eidx (ndim M) k 1).
  Proof. intros H. apply getLinear_gen; auto. Qed.
  Lemma linTerms_length dat l spot : length (linTerms (T:=T) dat l spot) = length l.
  Proof. revert spot; induction l; simpl; auto. Qed.
  Lemma getLinearTerms_length (M : tensor T) : length (getLinearTerms M) = ndim M.
  Proof. unfold getLinearTerms. rewrite rev_length, linTerms_length, rev_length. reflexivity. Qed.
End Any.

(** ** Constant and linear part *)
Definition linIdx (n : nat) (s : list nat) : list (list nat) :=
  map (fun k => eidx n k 1) (filter (fun k => negb (nth k s 0 =? 1)%nat) (seq 0 n)).

Lemma sumn_filter (f : nat -> R) (p : nat -> bool) n :
  Rsum (map f (filter p (seq 0 n))) = sumn n (fun k => if p k then f k else 0).
Proof.
  rewrite <- Rsum_map_seq. induction (seq 0 n); simpl; auto. destruct (p a); simpl; rewrite IHl; ring.
Qed.
Lemma filter_In_seq p n k : In k (filter p (seq 0 n)) <-> (k < n)%nat /\ p k = true.
Proof. rewrite filter_In, in_seq. split; intros []; split; auto; lia. Qed.

Lemma NoDup_map_inj {A B} (f : A -> B) l : (forall x y, In x l -> In y l -> f x = f y -> x = y) -> NoDup l -> NoDup (map f l).
Proof.
  intros Hf. induction 1; simpl; constructor.
  - intros Hi. apply in_map_iff in Hi. destruct Hi as (y & E & Hy). apply Hf in E; simpl; auto. subst; auto.
  - apply IHNoDup. intros; apply Hf; simpl; auto.
Qed.

Section Lin.
  Variable M : tensor R.
  Hypothesis Hw : wf M.
  Let n := ndim M.
  Let A := @getLinearTerms R R_num M.
  Let c := @tconst R R_num M.

  Lemma lin_nodup : NoDup (zidx n :: linIdx n (shp M)).
  Proof.
    constructor.
    - unfold linIdx. intros H. apply in_map_iff in H. destruct H as (k & E & Hk). apply filter_In_seq in Hk. destruct Hk as [Hk _].
      apply (f_equal (fun l => nth k l 0%nat)) in E. rewrite eidx_nth, Nat.eqb_refl in E by auto. unfold zidx in E. rewrite nth_repeat in E. discriminate.
    - apply NoDup_map_inj; [|apply NoDup_filter, seq_NoDup]. intros k j Hk Hj E. apply filter_In_seq in Hk. apply filter_In_seq in Hj.
      apply (f_equal (fun l => nth k l 0%nat)) in E. rewrite !eidx_nth, Nat.eqb_refl in E by tauto. destruct (Nat.eqb_spec k j); auto; discriminate.
  Qed.
  Lemma lin_inrange i : In i (zidx n :: linIdx n (shp M)) -> inrange (shp M) i.
  Proof.
    destruct Hw as [_ Hs]. intros [<-|H]; [apply zidx_inrange; auto|]. apply in_map_iff in H. destruct H as (k & <- & Hk).
    apply filter_In_seq in Hk. destruct Hk as [Hk Hn]. apply eidx_inrange; auto.
    assert (1 <= nth k (shp M) 0)%nat by (apply (proj1 (Forall_nth_iff _ _ 0%nat) Hs); auto).
    apply negb_true_iff, Nat.eqb_neq in Hn. lia.
  Qed.
  Lemma lin_sumabs : Rsum (map (fun i => Rabs (tget M i)) (zidx n :: linIdx n (shp M))) = Rabs c + sumn n (fun k => Rabs (nth k A 0)).
  Proof.
    cbn [map]. change (Rsum (?a :: ?l)) with (a + Rsum l). unfold c. rewrite tconst_R. f_equal.
    unfold linIdx. rewrite map_map. rewrite (sumn_filter (fun k => Rabs (tget M (eidx n k 1)))). apply sumn_ext. intros k Hk. unfold A.
    change (nth k (getLinearTerms M) 0) with (nth k (getLinearTerms M) (@n0 R R_num)). rewrite getLinearTerms_spec by auto. destruct (Nat.eqb_spec (nth k (shp M) 0%nat) 1); simpl; auto. rnum. rewrite Rabs_R0. auto.
  Qed.
  Lemma lin_value x : length x = n -> Rsum (map (fun i => tget M i * basis chebT i x) (zidx n :: linIdx n (shp M))) = c + sumn n (fun k => nth k A 0 * nth k x 0).
  Proof.
    intros Hx. cbn [map]. change (Rsum (?a :: ?l)) with (a + Rsum l). unfold c. rewrite tconst_R. fold n. rewrite <- Hx at 2. rewrite basis_zero.
    rewrite Rmult_1_r. f_equal.
    unfold linIdx. rewrite map_map. rewrite (sumn_filter (fun k => tget M (eidx n k 1) * basis chebT (eidx n k 1) x)). apply sumn_ext. intros k Hk. unfold A.
    change (nth k (getLinearTerms M) 0) with (nth k (getLinearTerms M) (@n0 R R_num)). rewrite getLinearTerms_spec by auto. rewrite <- Hx at 2. rewrite basis_eidx by lia. rewrite chebT_1.
    destruct (Nat.eqb_spec (nth k (shp M) 0%nat) 1); simpl; auto. rnum. ring.
  Qed.
  (** a function within e of the polynomial and vanishing at x *)
  Lemma lin_root x g e : in_cube n x -> Rabs (g - cheb_eval M x) <= e -> g = 0 ->
    Rabs (c + sumn n (fun k => nth k A 0 * nth k x 0)) <= sumabs M + e - Rabs c - sumn n (fun k => Rabs (nth k A 0)).
  Proof.
    intros [Hl Hx] Hg ->. pose proof (part_bound M _ x lin_nodup lin_inrange Hx) as H. rewrite lin_sumabs, lin_value in H by auto.
    revert Hg H. generalize (cheb_eval M x) (c + sumn n (fun k => nth k A 0 * nth k x 0)) (sumabs M) (sumn n (fun k => Rabs (nth k A 0))).
    intros p q s t. unfold Rabs. repeat destruct Rcase_abs; lra.
  Qed.
  (** constant part only *)
  Lemma const_root x g e : in_cube n x -> Rabs (g - cheb_eval M x) <= e -> g = 0 -> Rabs c <= sumabs M - Rabs c + e.
  Proof.
    intros [Hl Hx] Hg ->. assert (H := part_bound M [zidx n] x).
    assert (Hn : NoDup [zidx n]) by (repeat constructor; auto). specialize (H Hn). clear Hn.
    assert (Hi : forall i, In i [zidx n] -> inrange (shp M) i) by (intros i Hi; apply lin_inrange; destruct Hi as [<-|[]]; left; auto).
    specialize (H Hi Hx). cbn [map Rsum fold_right] in H. rewrite <- Hl in H at 2. rewrite basis_zero in H. unfold c. rewrite tconst_R. fold n.
    revert Hg H. generalize (cheb_eval M x) (tget M (zidx n)) (sumabs M).
    intros p q s. unfold Rabs. repeat destruct Rcase_abs; lra.
  Qed.
End Lin.

Lemma constantCheck_true Ms errors : Forall wf Ms -> @constantCheck R R_num Ms errors = true ->
  exists i, (i < length Ms)%nat /\ (i < length errors)%nat /\
    sumabs (nth i Ms (mkT [] [])) - Rabs (tconst (nth i Ms (mkT [] []))) + nth i errors 0 < Rabs (tconst (nth i Ms (mkT [] []))).
Proof.
  intros HM H. unfold constantCheck in H. apply existsb_exists in H. destruct H as ([M e] & Hin & H).
  destruct (In_nth _ _ (mkT [] [], 0) Hin) as (i & Hi & E). rewrite combine_length in Hi. exists i. split; [lia|]. split; [lia|].
  assert (E1 : nth i Ms (mkT [] []) = M /\ nth i errors 0 = e).
  { clear - E Hi. revert i errors E Hi. induction Ms; intros i [|e0 er] E Hi; simpl in *; try lia.
    destruct i; [inversion E; auto|]. apply IHMs; auto. lia. }
  destruct E1 as [-> ->]. unfold ngtb in H. rnum. apply Rltb_true in H. rewrite tsumabs_R in H; auto.
  rewrite Forall_forall in HM. apply HM. apply in_combine_l in Hin. auto.
Qed.

(** ** maxAbs *)
Lemma nmaxl_ge l x y : y <= x \/ In y l -> y <= @nmaxl R R_num x l.
Proof.
  unfold nmaxl. revert x y; induction l; intros x y H; simpl.
  - destruct H as [H|[]]; auto.
  - apply IHl. rewrite nmax_R. destruct H as [H|[H|H]]; auto.
    + left. pose proof (Rmax_l x a). lra.
    + subst. left. apply Rmax_r.
Qed.
Lemma nmaxl_in l x : @nmaxl R R_num x l = x \/ In (@nmaxl R R_num x l) l.
Proof.
  unfold nmaxl. revert x; induction l; intros x; simpl; auto. rewrite nmax_R. destruct (IHl (Rmax x a)) as [E|E]; auto.
  rewrite E. unfold Rmax. destruct Rle_dec; auto.
Qed.
Lemma maxAbs_ge l x : In x l -> Rabs x <= @maxAbs R R_num l.
Proof.
  intros H. unfold maxAbs. rnum. assert (Hm : In (Rabs x) (map Rabs l)) by (apply in_map; auto).
  destruct (map Rabs l) as [|y r]; [destruct Hm|]. apply nmaxl_ge. destruct Hm as [->|Hm]; auto. left; lra.
Qed.
Lemma maxAbs_attained l : 0 < @maxAbs R R_num l -> exists x, In x l /\ Rabs x = @maxAbs R R_num l.
Proof.
  unfold maxAbs. rnum. destruct l as [|y l]; [simpl; lra|]. cbn [map]. intros _.
  destruct (nmaxl_in (map Rabs l) (Rabs y)) as [E|E].
  - exists y. rewrite E. split; simpl; auto.
  - apply in_map_iff in E. destruct E as (x & E & Hx). exists x. simpl; auto.
Qed.
Lemma maxAbs_nonneg l : 0 <= @maxAbs R R_num l.
Proof.
  unfold maxAbs. rnum. destruct l as [|y l]; [simpl; lra|]. cbn [map]. apply Rle_trans with (Rabs y); [apply Rabs_pos|]. apply nmaxl_ge. left; lra.
Qed.
Lemma pow2fl_le1 m : 0 < m < 2 -> Rpow2fl m <= 1.
Proof.
  intros H. pose proof (Rpow2fl_bounds m ltac:(lra)) as [H1 H2]. unfold Rpow2fl in *.
  assert (bpow radix2 (mag radix2 m - 1) < bpow radix2 1) by (simpl; lra). apply lt_bpow in H0.
  change 1 with (bpow radix2 0). apply bpow_le. lia.
Qed.

(** ** Rows satisfied by a scaled root z *)
Definition rowOK (n : nat) (z : nat -> R) (r : lrow R) : Prop :=
  length (lA r) = n /\ Rabs (lc r + sumn n (fun k => nth k (lA r) 0 * z k)) <= lerr r /\
  ltot r = lerr r + Rabs (lc r) + sumn n (fun k => Rabs (nth k (lA r) 0)).

Lemma mkLRow_ok n M e x g : wf M -> ndim M = n -> in_cube n x -> Rabs (g - cheb_eval M x) <= e -> g = 0 ->
  rowOK n (fun k => nth k x 0) (@mkLRow R R_num (M, e)).
Proof.
  intros Hw Hn Hx Hg H0. subst n. unfold mkLRow, rowOK. cbn [lA lc lerr ltot]. rnum. rewrite tsumabs_R by auto.
  assert (Es : @nsumabs R R_num (getLinearTerms M) = sumn (ndim M) (fun k => Rabs (nth k (getLinearTerms M) 0))).
  { unfold nsumabs. rewrite nsum_R. fold (Rsum (map (@nabs R R_num) (getLinearTerms M))). rnum. rewrite Rsum_nth, map_length, getLinearTerms_length.
    apply sumn_ext. intros k Hk. rewrite <- Rabs_R0 at 1. rewrite map_nth. reflexivity. }
  rewrite Es. split; [apply getLinearTerms_length|]. split; [|ring]. apply (lin_root M Hw x g e); auto.
Qed.

Lemma nth_map_div (l : list R) s k : nth k (map (fun x => x / s) l) 0 = nth k l 0 / s.
Proof. replace 0 with (0 / s) at 1 by (unfold Rdiv; ring). apply (map_nth (fun x => x / s)). Qed.

Lemma scaleRow_ok n z r : rowOK n z r -> rowOK n z (@scaleRow R R_num r).
Proof.
  intros (Hl & H1 & H2). unfold scaleRow. rnum. unfold ngtb. rnum. destruct (Rltb 0 (@maxAbs R R_num (lA r))) eqn:E; [|repeat split; auto].
  pose proof (Rpow2fl_pos (Rabs (@maxAbs R R_num (lA r)))) as Hs. set (s := Rpow2fl (Rabs (maxAbs (lA r)))) in *. clearbody s.
  assert (Hi : 0 < / s) by (apply Rinv_0_lt_compat; auto).
  unfold rowOK. cbn [lA lc lerr ltot]. rewrite map_length. split; auto. split.
  - rewrite (sumn_ext _ _ (fun k => / s * (nth k (lA r) 0 * z k))) by (intros; rewrite nth_map_div; unfold Rdiv; ring).
    rewrite sumn_scal. replace (lc r / s + / s * sumn n (fun k => nth k (lA r) 0 * z k)) with (/ s * (lc r + sumn n (fun k => nth k (lA r) 0 * z k))) by (unfold Rdiv; ring).
    rewrite Rabs_mult, (Rabs_pos_eq (/ s)) by lra. unfold Rdiv. nra.
  - rewrite (sumn_ext _ _ (fun k => / s * Rabs (nth k (lA r) 0))).
    + rewrite sumn_scal, H2. unfold Rdiv. rewrite Rabs_mult, (Rabs_pos_eq (/ s)) by lra. ring.
    + intros. rewrite nth_map_div. unfold Rdiv. rewrite Rabs_mult, (Rabs_pos_eq (/ s)) by lra. ring.
Qed.
(** after row scaling every entry is below 2 *)
Lemma scaleRow_small r x : In x (lA (@scaleRow R R_num r)) -> Rabs x < 2.
Proof.
  unfold scaleRow. unfold ngtb. rnum. destruct (Rltb 0 (@maxAbs R R_num (lA r))) eqn:E.
  - apply Rltb_true in E. cbn [lA]. intros H. apply in_map_iff in H. destruct H as (y & <- & Hy). pose proof (maxAbs_ge _ _ Hy) as Hm.
    rewrite (Rabs_pos_eq (maxAbs (lA r))) by lra. pose proof (Rpow2fl_bounds _ E) as [B1 B2]. pose proof (Rpow2fl_pos (@maxAbs R R_num (lA r))) as Hs.
    unfold Rdiv. rewrite Rabs_mult, (Rabs_pos_eq (/ _)) by (left; apply Rinv_0_lt_compat; auto).
    apply Rmult_lt_reg_r with (Rpow2fl (@maxAbs R R_num (lA r))); auto. rewrite Rmult_assoc, Rinv_l by lra. lra.
  - apply Rltb_false in E. intros H. pose proof (maxAbs_ge _ _ H). lra.
Qed.

(** ** Column scaling *)
Definition smallFrom (i : nat) (rows : list (lrow R)) : Prop :=
  Forall (fun r => forall k, (i <= k)%nat -> Rabs (nth k (lA r) 0) < 2) rows.
Definition scaled (n : nat) (x : list R) (cs : list R) (k : nat) : R := nth k x 0 / nth k cs 0.

Lemma sumn_change n i (f g : nat -> R) : (i < n)%nat -> (forall k, (k < n)%nat -> k <> i -> f k = g k) -> sumn n f = sumn n g + (f i - g i).
Proof.
  intros Hi H. assert (sumn n (fun k => f k - g k) = f i - g i).
  { apply (sumn_single n i (fun k => f k - g k)); auto. intros k Hk Hki. rewrite H; auto. ring. }
  rewrite sumn_minus in H0. lra.
Qed.

Lemma scaleCol_ok n x i rows cs : (i < n)%nat -> length cs = n ->
  Forall (rowOK n (scaled n x cs)) rows -> smallFrom i rows -> Forall (fun s => 1 <= s) cs -> nth i cs 0 = 1 ->
  let '(rows', cs') := @scaleCol R R_num (rows, cs) i in
  Forall (rowOK n (scaled n x cs')) rows' /\ smallFrom (S i) rows' /\ Forall (fun s => 1 <= s) cs' /\ length cs' = n /\
  (forall j, j <> i -> nth j cs' 0 = nth j cs 0) /\ length rows' = length rows.
Proof.
  intros Hi Hlc Hr Hsm Hcs Hci. unfold scaleCol. unfold ngtb. rnum.
  set (m := @maxAbs R R_num (map (fun r => nth i (lA r) 0) rows)). destruct (Rltb 0 m) eqn:E.
  - apply Rltb_true in E.
    assert (Hm2 : m < 2).
    { destruct (maxAbs_attained _ E) as (v & Hv & Ev). fold m in Ev. rewrite <- Ev. apply in_map_iff in Hv. destruct Hv as (r & <- & Hin).
      unfold smallFrom in Hsm. rewrite Forall_forall in Hsm. apply Hsm; auto. }
    rewrite (Rabs_pos_eq m) by lra. pose proof (Rpow2fl_pos m) as Hp. pose proof (pow2fl_le1 m ltac:(lra)) as Hp1.
    set (s := 1 / Rpow2fl m). assert (Hs : 1 <= s).
    { unfold s. apply Rmult_le_reg_r with (Rpow2fl m); auto. unfold Rdiv. rewrite Rmult_1_l, Rmult_1_l, Rinv_l by lra. lra. }
    clearbody s. repeat split.
    + apply Forall_map. eapply Forall_impl; [|exact Hr]. intros r (Hl & H1 & H2). unfold rowOK. cbn [lA lc lerr ltot].
      rewrite upd_length. split; auto. split.
      * rewrite (sumn_ext _ _ (fun k => nth k (lA r) 0 * scaled n x cs k)); auto. intros k Hk. unfold scaled.
        rewrite !nth_upd by lia. destruct (Nat.eqb_spec k i); auto. subst k. rewrite Hci. field. lra.
      * rewrite H2. rewrite (sumn_change n i (fun k => Rabs (nth k (upd (lA r) i (nth i (lA r) 0 * s)) 0)) (fun k => Rabs (nth k (lA r) 0))).
        -- rewrite nth_upd_eq by lia. rewrite Rabs_mult, (Rabs_pos_eq s) by lra. ring.
        -- auto.
        -- intros k Hk Hki. rewrite nth_upd_neq; auto.
    + unfold smallFrom in *. apply Forall_map. eapply Forall_impl; [|exact Hsm]. intros r H k Hk. cbn [lA]. rewrite nth_upd_neq by lia. apply H. lia.
    + apply Forall_upd; auto.
    + rewrite upd_length; auto.
    + intros j Hj. apply nth_upd_neq; auto.
    + rewrite map_length; auto.
  - repeat split; auto. unfold smallFrom in *. eapply Forall_impl; [|exact Hsm]. intros r H k Hk. apply H. lia.
Qed.

Lemma scaleCols_ok n x : forall m i rows cs, (i + m = n)%nat -> length cs = n ->
  Forall (rowOK n (scaled n x cs)) rows -> smallFrom i rows -> Forall (fun s => 1 <= s) cs -> (forall j, (i <= j < n)%nat -> nth j cs 0 = 1) ->
  let '(rows', cs') := fold_left (@scaleCol R R_num) (seq i m) (rows, cs) in
  Forall (rowOK n (scaled n x cs')) rows' /\ Forall (fun s => 1 <= s) cs' /\ length cs' = n /\ length rows' = length rows.
Proof.
  induction m; intros i rows cs Hi Hl Hr Hs Hc H1; cbn [seq fold_left].
  - repeat split; auto.
  - pose proof (scaleCol_ok n x i rows cs ltac:(lia) Hl Hr Hs Hc (H1 i ltac:(lia))) as H.
    destruct (@scaleCol R R_num (rows, cs) i) as [rows' cs']. destruct H as (Ha & Hb & Hd & He & Hf & Hg).
    assert (H1' : forall j, (S i <= j < n)%nat -> nth j cs' 0 = 1) by (intros j Hj; rewrite Hf by lia; apply H1; lia).
    pose proof (IHm (S i) rows' cs' ltac:(lia) He Ha Hb Hd H1') as H2.
    destruct (fold_left scaleCol (seq (S i) m) (rows', cs')) as [rows2 cs2]. rewrite Hg in H2. auto.
Qed.

(** ** linearCheck1 keeps the (scaled) root *)
Definition oGe (x : R) (a : option R) : Prop := match a with None => True | Some v => v <= x end.
Definition oLe (x : R) (b : option R) : Prop := match b with None => True | Some v => x <= v end.
Lemma omax_ge x a v : oGe x a -> v <= x -> oGe x (@omax R R_num a v).
Proof. destruct a; simpl; auto. intros. rewrite nmax_R. apply Rmax_lub; auto. Qed.
Lemma omin_le x b v : oLe x b -> x <= v -> oLe x (@omin R R_num b v).
Proof. destruct b; simpl; auto. intros. rewrite nmin_R. apply Rmin_glb; auto. Qed.

Lemma lcBounds_ok n z r col : rowOK n z r -> (col < n)%nat -> (forall k, (k < n)%nat -> -1 <= z k <= 1) -> nth col (lA r) 0 <> 0 ->
  let '(a, b) := @lcBounds R R_num (ltot r) (nth col (lA r) 0) (lc r) in a <= z col <= b.
Proof.
  intros (Hl & H1 & H2) Hc Hz Ha. unfold lcBounds. unfold ngeb. rnum. rewrite n2_R.
  set (a := nth col (lA r) 0) in *. set (c := lc r) in *. set (tE := ltot r) in *.
  assert (Hm : Rabs (a * z col + c) <= tE - Rabs c - Rabs a).
  { set (F := fun k => nth k (lA r) 0 * z k) in *.
    set (G := fun k => if (k =? col)%nat then 0 else F k). set (GA := fun k => if (k =? col)%nat then 0 else Rabs (nth k (lA r) 0)).
    assert (E1 : sumn n F = sumn n G + a * z col).
    { rewrite (sumn_change n col F G); auto.
      - unfold G, F, a. rewrite Nat.eqb_refl. ring.
      - intros k Hk Hkc. unfold G. destruct (Nat.eqb_spec k col); congruence. }
    assert (E2 : sumn n (fun k => Rabs (nth k (lA r) 0)) = sumn n GA + Rabs a).
    { rewrite (sumn_change n col _ GA); auto.
      - unfold GA, a. rewrite Nat.eqb_refl. ring.
      - intros k Hk Hkc. unfold GA. destruct (Nat.eqb_spec k col); congruence. }
    assert (E3 : Rabs (sumn n G) <= sumn n GA).
    { eapply Rle_trans; [apply sumn_abs|]. apply sumn_le. intros k Hk. unfold G, GA, F. destruct (k =? col)%nat; [rewrite Rabs_R0; lra|].
      rewrite Rabs_mult. specialize (Hz k Hk). pose proof (Rabs_pos (nth k (lA r) 0)). assert (Rabs (z k) <= 1) by (apply abs_le_iff; lra). nra. }
    rewrite E1 in H1. rewrite E2 in H2. clear -H1 H2 E3. revert H1 E3. generalize (sumn n G) (sumn n GA) H2.
    intros g ga. unfold tE, c, a. intros H. rewrite H. clear. generalize (lc r) (lerr r) (nth col (lA r) 0 * z col) (Rabs (nth col (lA r) 0)).
    intros c e v w. unfold Rabs. repeat destruct Rcase_abs; lra. }
  assert (Hpa : 0 < Rabs a) by (apply Rabs_pos_lt; auto).
  set (u := c / a). assert (Ec : c = u * a) by (unfold u; field; auto).
  replace (2 * c / a) with (2 * u) by (unfold u; field; auto).
  assert (Hq : Rabs (z col + u) <= tE / Rabs a - Rabs u - 1).
  { apply Rmult_le_reg_r with (Rabs a); auto.
    replace ((tE / Rabs a - Rabs u - 1) * Rabs a) with (tE - Rabs u * Rabs a - Rabs a) by (field; lra).
    rewrite <- !Rabs_mult. rewrite <- Ec. replace ((z col + u) * a) with (a * z col + c) by (rewrite Ec; ring). auto. }
  set (v := tE / Rabs a) in *. clearbody v u. clear - Hq. destruct (Rleb 0 (2 * u)) eqn:E.
  - apply Rleb_true in E. rewrite (Rabs_pos_eq u) in Hq by lra. apply abs_le_iff in Hq. lra.
  - apply Rleb_false in E. rewrite (Rabs_left u) in Hq by lra. apply abs_le_iff in Hq. lra.
Qed.

Lemma linCol_ok n z rows col : Forall (rowOK n z) rows -> (col < n)%nat -> (forall k, (k < n)%nat -> -1 <= z k <= 1) ->
  oGe (z col) (fst (@linCol R R_num rows col)) /\ oLe (z col) (snd (@linCol R R_num rows col)).
Proof.
  intros Hr Hc Hz. unfold linCol.
  assert (H : forall ab, oGe (z col) (fst ab) -> oLe (z col) (snd ab) ->
    let ab' := fold_left (fun (ab : option R * option R) (r : lrow R) =>
      let x := nth col (lA r) n0 in if neqb x n0 then ab else let '(a_, b_) := @lcBounds R R_num (ltot r) x (lc r) in (omax (fst ab) a_, omin (snd ab) b_)) rows ab in
    oGe (z col) (fst ab') /\ oLe (z col) (snd ab')).
  { induction Hr as [|r rows Hr0 Hr IH]; intros ab H1 H2; cbn [fold_left]; auto. rnum.
    destruct (Reqb (nth col (lA r) 0) 0) eqn:E; [apply IH; auto|]. apply Reqb_false in E.
    pose proof (lcBounds_ok n z r col Hr0 Hc Hz E) as Hb. destruct (@lcBounds R R_num (ltot r) (nth col (lA r) 0) (lc r)) as [a_ b_].
    apply IH; cbn [fst snd]; [apply omax_ge; auto; lra|apply omin_le; auto; lra]. }
  apply (H (None, None)); exact I.
Qed.

(** ** The singular value decomposition and the inverse *)
Definition delta (i j : nat) : R := if (i =? j)%nat then 1 else 0.
Definition square (n : nat) (A : list (list R)) : Prop := length A = n /\ Forall (fun r => length r = n) A.
(** what np.linalg.svd promises for a square matrix *)
Record is_svd (n : nat) (A : list (list R)) (usv : list (list R) * list R * list (list R)) : Prop := {
  svd_prod : forall i l, (i < n)%nat -> (l < n)%nat ->
    @mget R R_num A i l = sumn n (fun m => @mget R R_num (fst (fst usv)) i m * nth m (snd (fst usv)) 0 * @mget R R_num (snd usv) m l);
  svd_U : forall i j, (i < n)%nat -> (j < n)%nat -> sumn n (fun k => @mget R R_num (fst (fst usv)) k i * @mget R R_num (fst (fst usv)) k j) = delta i j;
  svd_V : forall i j, (i < n)%nat -> (j < n)%nat -> sumn n (fun k => @mget R R_num (snd usv) k i * @mget R R_num (snd usv) k j) = delta i j;
  svd_V2 : forall i j, (i < n)%nat -> (j < n)%nat -> sumn n (fun k => @mget R R_num (snd usv) i k * @mget R R_num (snd usv) j k) = delta i j;
  svd_nonneg : forall j, (j < n)%nat -> 0 <= nth j (snd (fst usv)) 0;
  svd_sorted : forall i j, (i <= j)%nat -> (j < n)%nat -> nth j (snd (fst usv)) 0 <= nth i (snd (fst usv)) 0 }.
Definition svd_ok (n : nat) (svd : list (list R) -> list (list R) * list R * list (list R)) : Prop :=
  forall A, square n A -> is_svd n A (svd A).

Lemma nsum_seq n (f : nat -> R) : @nsum R R_num (map f (seq 0 n)) = sumn n f.
Proof. rewrite nsum_R. apply Rsum_map_seq. Qed.
Lemma nth_map_seq {A} (f : nat -> A) n i d : (i < n)%nat -> nth i (map f (seq 0 n)) d = f i.
Proof. intros H. rewrite (nth_indep _ d (f 0%nat)) by (rewrite map_length, seq_length; auto). rewrite map_nth, seq_nth; auto. Qed.
Lemma mget_invMat n U Sv Vh i k : (i < n)%nat -> (k < n)%nat ->
  @mget R R_num (invMat n U Sv Vh) i k = sumn n (fun j => 1 / nth j Sv 0 * @mget R R_num Vh j i * @mget R R_num U k j).
Proof. intros Hi Hk. unfold mget at 1, invMat. rewrite nth_map_seq by auto. rewrite nth_map_seq by auto. rewrite nsum_seq. reflexivity. Qed.

Lemma sumn_delta n i (f : nat -> R) : (i < n)%nat -> sumn n (fun k => delta i k * f k) = f i.
Proof.
  intros Hi. rewrite (sumn_single n i); auto.
  - unfold delta. rewrite Nat.eqb_refl. ring.
  - intros k Hk Hne. unfold delta. destruct (Nat.eqb_spec i k); [congruence|ring].
Qed.

Lemma svd_inverse n A usv : is_svd n A usv -> 0 < nth (n - 1) (snd (fst usv)) 0 ->
  forall i l, (i < n)%nat -> (l < n)%nat ->
  sumn n (fun k => @mget R R_num (invMat n (fst (fst usv)) (snd (fst usv)) (snd usv)) i k * @mget R R_num A k l) = delta i l.
Proof.
  destruct usv as [[U Sv] Vh]. cbn [fst snd]. intros [HA HU HV HV2 H0 HS] Hpos i l Hi Hl. cbn [fst snd] in *.
  assert (Hp : forall j, (j < n)%nat -> 0 < nth j Sv 0) by (intros j Hj; pose proof (HS j (n - 1)%nat ltac:(lia) ltac:(lia)); lra).
  transitivity (sumn n (fun k => sumn n (fun j => sumn n (fun m => 1 / nth j Sv 0 * @mget R R_num Vh j i * nth m Sv 0 * @mget R R_num Vh m l * (@mget R R_num U k j * @mget R R_num U k m))))).
  { apply sumn_ext. intros k Hk. rewrite mget_invMat by auto. rewrite HA by auto. rewrite <- sumn_scal_r. apply sumn_ext. intros j Hj.
    rewrite <- sumn_scal. apply sumn_ext. intros m Hm. ring. }
  rewrite sumn_swap.
  transitivity (sumn n (fun j => @mget R R_num Vh j i * @mget R R_num Vh j l)); [|apply HV; auto]. apply sumn_ext. intros j Hj. rewrite sumn_swap.
  transitivity (sumn n (fun m => delta j m * (1 / nth j Sv 0 * @mget R R_num Vh j i * nth m Sv 0 * @mget R R_num Vh m l))).
  { apply sumn_ext. intros m Hm. rewrite sumn_scal, HU by auto. ring. }
  rewrite sumn_delta by auto. specialize (Hp j Hj). field. lra.
Qed.

(** ** The whole reduction *)
Section Whole.
  Variable n : nat.
  Variable svd : list (list R) -> list (list R) * list R * list (list R).
  Variable Ms : list (tensor R).
  Variable errors : list R.
  Hypothesis Hn : (0 < n)%nat.
  Hypothesis HMl : length Ms = n.
  Hypothesis HMs : Forall (fun M => wf M /\ ndim M = n) Ms.
  Hypothesis Hel : length errors = n.
  Variable x : list R.
  Hypothesis Hx : in_cube n x.
  Hypothesis Hroot : forall i, (i < n)%nat -> Rabs (cheb_eval (nth i Ms (mkT [] [])) x) <= nth i errors 0.

  Definition rows0 := map (@scaleRow R R_num) (map mkLRow (combine Ms errors)).

  Lemma rows0_ok : Forall (rowOK n (fun k => nth k x 0)) rows0.
  Proof.
    unfold rows0. rewrite !Forall_map. apply Forall_forall. intros [M e] Hin. apply scaleRow_ok.
    destruct (In_nth _ _ (mkT [] [], 0) Hin) as (i & Hi & E). rewrite combine_length in Hi. rewrite combine_nth in E by lia.
    inversion E as [[E1 E2]]. clear E. rewrite E2. rewrite E1.
    assert (HM := proj1 (Forall_nth_iff _ _ (mkT [] [])) HMs i ltac:(lia)). rewrite E1 in HM. destruct HM as [Hw Hd].
    apply (mkLRow_ok n M e x 0); auto. rewrite Rminus_0_l, Rabs_Ropp, <- E1, <- E2. apply Hroot. lia.
  Qed.
  Lemma rows0_small : smallFrom 0 rows0.
  Proof.
    unfold rows0, smallFrom. rewrite Forall_map. apply Forall_forall. intros r _ k _.
    destruct (Nat.lt_ge_cases k (length (lA (@scaleRow R R_num r)))) as [H|H].
    - apply scaleRow_small with r. apply nth_In; auto.
    - rewrite nth_overflow by auto. rewrite Rabs_R0. lra.
  Qed.
  Lemma rows_ok : let '(rows, cs) := fold_left (@scaleCol R R_num) (seq 0 n) (rows0, repeat 1 n) in
    Forall (rowOK n (scaled n x cs)) rows /\ Forall (fun s => 1 <= s) cs /\ length cs = n /\ length rows = n.
  Proof.
    pose proof (scaleCols_ok n x n 0 rows0 (repeat 1 n) eq_refl (repeat_length _ _)) as H.
    assert (H0 : Forall (rowOK n (scaled n x (repeat 1 n))) rows0).
    { pose proof rows0_ok as H0. eapply Forall_impl; [|exact H0]. intros r (Ha & Hb & Hc). split; auto. split; auto.
      rewrite (sumn_ext _ _ (fun k => nth k (lA r) 0 * nth k x 0)); auto. intros k Hk. unfold scaled.
      rewrite (nth_indep (repeat 1 n) 0 1) by (rewrite repeat_length; auto). rewrite nth_repeat. field. }
    specialize (H H0 rows0_small). clear H0.
    assert (H1 : Forall (fun s => 1 <= s) (repeat 1 n)) by (apply Forall_forall; intros s Hs; apply repeat_spec in Hs; lra).
    assert (H2 : forall j, (0 <= j < n)%nat -> nth j (repeat 1 n) 0 = 1).
    { intros j Hj. rewrite (nth_indep (repeat 1 n) 0 1) by (rewrite repeat_length; lia). apply nth_repeat. }
    specialize (H H1 H2). destruct (fold_left scaleCol (seq 0 n) (rows0, repeat 1 n)) as [rows cs].
    destruct H as (Ha & Hb & Hc & Hd). repeat split; auto. rewrite Hd. unfold rows0. rewrite !map_length, combine_length. lia.
  Qed.

  Lemma scaled_cube cs k : Forall (fun s => 1 <= s) cs -> length cs = n -> (k < n)%nat -> -1 <= scaled n x cs k <= 1.
  Proof.
    intros Hc Hl Hk. unfold scaled. destruct Hx as [Hxl Hxc].
    assert (H1 : 1 <= nth k cs 0) by (apply (proj1 (Forall_nth_iff _ _ 0) Hc); lia).
    assert (H2 : -1 <= nth k x 0 <= 1) by (apply (proj1 (Forall_nth_iff _ _ 0) Hxc); lia).
    apply abs_le_iff. unfold Rdiv. rewrite Rabs_mult, (Rabs_pos_eq (/ nth k cs 0)) by (left; apply Rinv_0_lt_compat; lra).
    apply Rmult_le_reg_r with (nth k cs 0); [lra|]. rewrite Rmult_assoc, Rinv_l by lra. apply abs_le_iff in H2. lra.
  Qed.
End Whole.

Lemma nth_map_combine_seq {A B} (f : nat * A -> B) (l : list A) i d d' : (i < length l)%nat ->
  nth i (map f (combine (seq 0 (length l)) l)) d' = f (i, nth i l d).
Proof.
  intros Hi. rewrite (nth_indep _ d' (f (0%nat, d))) by (rewrite map_length, combine_length, seq_length; lia).
  rewrite map_nth, combine_nth by (rewrite seq_length; auto). rewrite seq_nth; auto.
Qed.
Lemma passBounds_length wc center width cs w ab : length (@passBounds R R_num wc center width cs w ab) = length ab.
Proof. unfold passBounds. rewrite map_length, combine_length, seq_length. lia. Qed.

(** one pass keeps a root whose scaled coordinates satisfy the incoming bounds *)
Lemma passBounds_keep n wc center width cs w ab (x : list R) :
  length ab = n -> 0 <= w -> (forall i, (i < n)%nat -> 1 <= nth i cs 0) ->
  (forall i, (i < n)%nat -> oGe (scaled n x cs i) (fst (nth i ab (None, None))) /\ oLe (scaled n x cs i) (snd (nth i ab (None, None)))) ->
  (wc = true -> forall i, (i < n)%nat -> Rabs (scaled n x cs i - nth i center 0) <= nth i width 0) ->
  forall i, (i < n)%nat -> let p := nth i (@passBounds R R_num wc center width cs w ab) (None, None) in oGe (nth i x 0) (fst p) /\ oLe (nth i x 0) (snd p).
Proof.
  intros Hl Hw Hcs Hab Hwc i Hi. unfold passBounds. rewrite (nth_map_combine_seq _ _ _ (None, None)) by lia.
  specialize (Hab i Hi). specialize (Hcs i Hi). destruct (nth i ab (None, None)) as [a b]. cbn [fst snd] in Hab. destruct Hab as [Ha Hb].
  cbn [fst snd]. rnum.
  assert (Ex : nth i x 0 = scaled n x cs i * nth i cs 0) by (unfold scaled; field; lra).
  set (a' := if wc then _ else a). set (b' := if wc then _ else b).
  assert (Ha' : oGe (scaled n x cs i) a'). { unfold a'. destruct wc; auto. apply omax_ge; auto. specialize (Hwc eq_refl i Hi). apply abs_le_iff in Hwc. lra. }
  assert (Hb' : oLe (scaled n x cs i) b'). { unfold b'. destruct wc; auto. apply omin_le; auto. specialize (Hwc eq_refl i Hi). apply abs_le_iff in Hwc. lra. }
  clearbody a' b'. rewrite Ex. split; [destruct a'|destruct b']; cbn; auto; cbn in *; nra.
Qed.

Lemma rowOut_false x p : -1 <= x <= 1 -> oGe x (fst p) -> oLe x (snd p) -> @rowOut R R_num p = false.
Proof.
  intros Hx. destruct p as [[a|] [b|]]; cbn [fst snd oGe oLe rowOut]; intros Ha Hb; auto; unfold ngtb; rnum; change (Ropp 1) with (-1).
  - rewrite !orb_false_iff. repeat split; apply Rltb_false; lra.
  - apply Rltb_false; lra.
  - apply Rltb_false; lra.
Qed.
Lemma clipv_R v : @clipv R R_num v = Rmax (-1) (Rmin 1 v).
Proof.
  unfold clipv, ngtb. rnum. change (Ropp 1) with (-1). unfold Rltb. unfold Rmax, Rmin. repeat destruct Rlt_dec; repeat destruct Rle_dec; lra.
Qed.
Lemma clipRow_in x p : -1 <= x <= 1 -> oGe x (fst p) -> oLe x (snd p) -> fst (@clipRow R R_num p) <= x <= snd (@clipRow R R_num p).
Proof.
  intros Hx. destruct p as [[a|] [b|]]; cbn [fst snd oGe oLe clipRow]; intros Ha Hb; rewrite ?clipv_R; rnum; change (Ropp 1) with (-1);
  unfold Rmax, Rmin; repeat destruct Rle_dec; lra.
Qed.
Lemma clipRow_sub p : @rowOut R R_num p = false -> -1 <= fst (@clipRow R R_num p) /\ fst (@clipRow R R_num p) <= snd (@clipRow R R_num p) <= 1.
Proof.
  destruct p as [[a|] [b|]]; cbn [fst snd clipRow rowOut]; unfold ngtb; rnum; change (Ropp 1) with (-1); rewrite ?orb_false_iff; intros H; rewrite ?clipv_R.
  1: destruct H as [[H1 H2] H3]; apply Rltb_false in H1; apply Rltb_false in H2; apply Rltb_false in H3.
  2,3: apply Rltb_false in H. all: unfold Rmax, Rmin; repeat destruct Rle_dec; lra.
Qed.

Lemma pow2_52_pos : 0 < @nlit R R_num 1 4503599627370496.
Proof. rewrite nlit_R. lra. Qed.

(** if the volume ratio of a sub-box is at least 0.99, the box reaches far out in every direction *)
Lemma Rprod_le1 l : Forall (fun v => 0 <= v <= 2) l -> 0 <= Rprod l <= 2 ^ length l.
Proof. induction 1; cbn; [lra|]. change (fold_right Rmult 1 l) with (Rprod l). nra. Qed.
Lemma Rprod_factor l i : Forall (fun v => 0 <= v <= 2) l -> (i < length l)%nat -> Rprod l * 2 <= nth i l 0 * 2 ^ length l.
Proof.
  intros H. revert i. induction H as [|v l Hv H IH]; intros i Hi; [simpl in Hi; lia|]. pose proof (Rprod_le1 l H) as HP.
  change (Rprod (v :: l)) with (v * Rprod l). cbn [length pow]. destruct i; cbn [nth].
  - nra.
  - specialize (IH i ltac:(simpl in Hi; lia)). assert (0 <= nth i l 0) by (apply (proj1 (Forall_nth_iff _ _ 0) H); simpl in Hi; lia).
    assert (0 <= Rprod l) by lra. nra.
Qed.
Lemma nprod_R l : @nprod R R_num l = Rprod l.
Proof.
  unfold nprod. rnum. assert (H : forall a, fold_left Rmult l a = a * Rprod l).
  { induction l; intros v; cbn; [ring|]. rewrite IHl. change (fold_right Rmult 1 l) with (Rprod l). ring. }
  rewrite H. ring.
Qed.
Lemma volume_sides n b : sub_ok n b -> @nlit R R_num 99 100 <= @volRatio R R_num n b ->
  forall i, (i < n)%nat -> fst (nth i b (0,0)) <= 0 /\ 0 <= snd (nth i b (0,0)).
Proof.
  intros Hs Hv i Hi. unfold volRatio in Hv. rewrite nprod_R, nlit_R, nlit_R in Hv. rnum.
  pose proof Hs as [Hl Hs']. assert (HF : Forall (fun v => 0 <= v <= 2) (@boxDims R R_num b)).
  { unfold boxDims. apply Forall_map. eapply Forall_impl; [|exact Hs']. cbv beta. intros p Hp. rnum. lra. }
  assert (Hld : length (@boxDims R R_num b) = n) by (unfold boxDims; rewrite map_length; auto).
  pose proof (Rprod_factor _ i HF ltac:(lia)) as H. rewrite Hld in H.
  assert (E2 : IZR (2 ^ Z.of_nat n) = 2 ^ n) by (rewrite pow_IZR; reflexivity). rewrite E2 in Hv.
  assert (Hp : 0 < 2 ^ n) by (apply pow_lt; lra).
  assert (En : nth i (@boxDims R R_num b) 0 = snd (nth i b (0,0)) - fst (nth i b (0,0))).
  { unfold boxDims. rewrite (nth_indep _ 0 ((fun p : R * R => nsub (snd p) (fst p)) (0,0))) by (rewrite map_length; lia). rewrite (map_nth (fun p : R * R => nsub (snd p) (fst p))). reflexivity. }
  rewrite En in H. pose proof (sub_ok_nth n b i Hs Hi) as Hb.
  assert (H9 : 99/100 * 2 ^ n <= Rprod (boxDims b)).
  { replace (Rprod (boxDims b)) with (Rprod (boxDims b) / (2 ^ n / 1) * 2 ^ n) by (field; lra). apply Rmult_le_compat_r; lra. }
  assert (99/100*2 <= snd (nth i b (0,0)) - fst (nth i b (0,0))).
  { apply Rmult_le_reg_r with (2 ^ n); auto. nra. }
  lra.
Qed.

Section Result.
  Variable n : nat.
  Variable svd : list (list R) -> list (list R) * list R * list (list R).
  Variable Ms : list (tensor R).
  Variable errors : list R.
  Hypothesis Hn : (0 < n)%nat.
  Hypothesis HMl : length Ms = n.
  Hypothesis HMs : Forall (fun M => wf M /\ ndim M = n) Ms.
  Hypothesis Hel : length errors = n.

  Lemma dim_n : ndim (nth 0 Ms (mkT [] [])) = n.
  Proof. apply (proj1 (Forall_nth_iff _ _ (mkT [] [])) HMs). lia. Qed.

  (** no reported change is ever inverted or outside the unit box *)
  Lemma bounding_sub fs : blChanged (@boundingInterval R R_num svd Ms errors fs) = true -> blThrow (@boundingInterval R R_num svd Ms errors fs) = false ->
    sub_ok n (blBox (@boundingInterval R R_num svd Ms errors fs)).
  Proof.
    unfold boundingInterval, boundingIntervalW. rewrite dim_n. destruct (fold_left _ _ _) as [rows cs]. destruct (svd (map lA rows)) as [[U Sv] Vh].
    destruct (negb _); [discriminate|].
    match goal with |- context [existsb rowOut ?p] => set (ab1 := p) end.
    destruct (existsb rowOut ab1) eqn:Et; [cbn; discriminate|]. cbn [orb].
    match goal with |- context [if ?c then mkBL (map clipRow ab1) _ _ _ _ else _] => destruct c end.
    - cbn. intros _ _. assert (Hl : length ab1 = n) by (unfold ab1; rewrite passBounds_length; unfold linearCheck1; rewrite map_length, seq_length; auto).
      split; [rewrite map_length; auto|]. apply Forall_map. apply Forall_forall. intros p Hp. apply clipRow_sub.
      destruct (rowOut p) eqn:E; auto. assert (existsb rowOut ab1 = true) by (apply existsb_exists; eauto). congruence.
    - match goal with |- context [if ?c then _ else _] => destruct c end; cbn; discriminate.
  Qed.

  Variable x : list R.
  Hypothesis Hx : in_cube n x.
  Hypothesis Hroot : forall i, (i < n)%nat -> Rabs (cheb_eval (nth i Ms (mkT [] [])) x) <= nth i errors 0.
  Hypothesis Hsvd : svd_ok n svd.

  Lemma bounding_keep : let r := @boundingInterval R R_num svd Ms errors false in
    blThrow r = false /\ (blNan r = false -> inBox (blBox r) x).
  Proof.
    unfold boundingInterval, boundingIntervalW. rewrite dim_n.
    change (map scaleRow (map mkLRow (combine Ms errors))) with (rows0 Ms errors). rnum.
    pose proof (rows_ok n Ms errors Hn HMl HMs Hel x Hx Hroot) as HR. destruct (fold_left _ _ _) as [rows cs].
    destruct HR as (HR & Hcs & Hlc & Hlr). assert (Hcs1 : forall i, (i < n)%nat -> 1 <= nth i cs 0) by (intros i Hi; apply (proj1 (Forall_nth_iff _ _ 0) Hcs); lia).
    assert (Hz : forall k, (k < n)%nat -> -1 <= scaled n x cs k <= 1) by (intros; apply (scaled_cube n Ms errors Hn HMl Hel); auto).
    assert (Hsq : square n (map lA rows)).
    { split; [rewrite map_length; auto|]. apply Forall_map. eapply Forall_impl; [|exact HR]. intros r (H & _). auto. }
    pose proof (Hsvd _ Hsq) as HS. destruct (svd (map lA rows)) as [[U Sv] Vh]. rnum.
    destruct (negb (ngtb (nth 0 Sv 0) 0)) eqn:E0; [cbn; split; [reflexivity|discriminate]|].
    apply negb_false_iff in E0. unfold ngtb in E0. rnum. apply Rltb_true in E0.
    set (wc := ngtb _ _). set (w := widthToAdd _). set (center := map _ (seq 0 n)).
    pose (widthOf := fun err : list R => map (fun i => @nsum R R_num (map (fun k => Rabs (@mget R R_num (invMat n U Sv Vh) i k * nth k err 0)) (seq 0 n))) (seq 0 n)).
    assert (Hw : 0 <= w). { unfold w, widthToAdd. rnum. rewrite nmax_R. pose proof pow2_52_pos. pose proof (Rmax_r (nth (n - 1) Sv 0 / nth 0 Sv 0) (@n2 R R_num)) as H1. rewrite n2_R in H1 at 1. nra. }
    assert (Hwd : wc = true -> forall i, (i < n)%nat -> Rabs (scaled n x cs i - nth i center 0) <= nth i (widthOf (map lerr rows)) 0).
    { intros Ewc i Hi. assert (Hlast : 0 < nth (n - 1) Sv 0).
      { unfold wc, ngtb in Ewc. rnum. apply Rltb_true in Ewc. rewrite nlit_R in Ewc.
        pose proof (svd_nonneg _ _ _ HS (n - 1)%nat ltac:(lia)) as H0. cbn [fst snd] in H0. destruct (Rle_lt_or_eq_dec _ _ H0) as [H1|H1]; auto.
        rewrite <- H1 in Ewc. unfold Rdiv in Ewc. rewrite Rmult_0_l in Ewc. lra. }
      pose proof (svd_inverse n _ _ HS Hlast) as Hinv. cbn [fst snd] in Hinv.
      unfold center, widthOf. rewrite !nth_map_seq by auto. rewrite !nsum_seq. rnum.
      set (B := invMat n U Sv Vh) in *.
      assert (Ez : scaled n x cs i = sumn n (fun k => @mget R R_num B i k * sumn n (fun l => @mget R R_num (map lA rows) k l * scaled n x cs l))).
      { rewrite <- (sumn_delta n i (scaled n x cs)) by auto.
        transitivity (sumn n (fun k => sumn n (fun l => @mget R R_num B i l * @mget R R_num (map lA rows) l k * scaled n x cs k))).
        - apply sumn_ext. intros k Hk. rewrite <- Hinv by auto. rewrite sumn_scal_r. reflexivity.
        - rewrite sumn_swap. apply sumn_ext. intros k Hk. rewrite <- sumn_scal. apply sumn_ext. intros; ring. }
      rewrite Ez at 1. rewrite <- sumn_minus. eapply Rle_trans; [apply sumn_abs|]. apply sumn_le. intros k Hk.
      assert (Hrk : rowOK n (scaled n x cs) (nth k rows (mkRow [] 0 0 0 0))) by (apply (proj1 (Forall_nth_iff _ _ _) HR); lia).
      replace (nth k (map lc rows) 0) with (lc (nth k rows (mkRow [] 0 0 0 0))) by (rewrite <- (map_nth lc); reflexivity).
      replace (nth k (map lerr rows) 0) with (lerr (nth k rows (mkRow [] 0 0 0 0))) by (rewrite <- (map_nth lerr); reflexivity).
      unfold mget at 2. replace (nth k (map lA rows) []) with (lA (nth k rows (mkRow [] 0 0 0 0))) by (rewrite <- (map_nth lA); reflexivity).
      destruct Hrk as (_ & Hrk & _). rnum.
      replace (@mget R R_num B i k * sumn n (fun l => nth l (lA (nth k rows (mkRow [] 0 0 0 0))) 0 * scaled n x cs l) - - @mget R R_num B i k * lc (nth k rows (mkRow [] 0 0 0 0)))
        with (@mget R R_num B i k * (lc (nth k rows (mkRow [] 0 0 0 0)) + sumn n (fun l => nth l (lA (nth k rows (mkRow [] 0 0 0 0))) 0 * scaled n x cs l))) by ring.
      rewrite !Rabs_mult. apply Rmult_le_compat_l; [apply Rabs_pos|]. eapply Rle_trans; [exact Hrk|apply Rle_abs]. }
    assert (Hlin : forall i, (i < n)%nat -> oGe (scaled n x cs i) (fst (nth i (@linearCheck1 R R_num rows n) (None, None))) /\
                                      oLe (scaled n x cs i) (snd (nth i (@linearCheck1 R R_num rows n) (None, None)))).
    { intros i Hi. unfold linearCheck1. rewrite nth_map_seq by auto. apply (linCol_ok n); auto. }
    assert (Hll : length (@linearCheck1 R R_num rows n) = n) by (unfold linearCheck1; rewrite map_length, seq_length; auto).
    pose proof (passBounds_keep n wc center (widthOf (map lerr rows)) cs w _ x Hll Hw Hcs1 Hlin Hwd) as Hkeep.
    match goal with |- context [existsb rowOut ?p] => set (ab1 := p) end.
    change (forall i, (i < n)%nat -> oGe (nth i x 0) (fst (nth i ab1 (None, None))) /\ oLe (nth i x 0) (snd (nth i ab1 (None, None)))) in Hkeep.
    assert (Hl1 : length ab1 = n) by (unfold ab1; rewrite passBounds_length; auto).
    assert (Hxi : forall i, (i < n)%nat -> -1 <= nth i x 0 <= 1).
    { intros i Hi. destruct Hx as [Hxl Hxc]. apply (proj1 (Forall_nth_iff _ _ 0) Hxc). lia. }
    assert (Hthr : existsb rowOut ab1 = false).
    { destruct (existsb rowOut ab1) eqn:E; auto. apply existsb_exists in E. destruct E as (p & Hp & E).
      destruct (In_nth _ _ (None, None) Hp) as (i & Hi & Ep). rewrite Hl1 in Hi. specialize (Hkeep i Hi).
      rewrite Ep in Hkeep. rewrite (rowOut_false (nth i x 0) p) in E; try discriminate; try tauto; auto. }
    assert (Hbox : inBox (map clipRow ab1) x).
    { apply (Forall2_nth_iff _ _ _ 0 (0,0)). rewrite map_length, Hl1. destruct Hx as [Hxl _]. split; auto. rewrite Hxl. intros i Hi.
      rewrite (nth_indep _ (0,0) (clipRow (None, None))) by (rewrite map_length; lia). rewrite map_nth. specialize (Hkeep i Hi). apply clipRow_in; try tauto. auto. }
    rewrite Hthr. cbn [orb].
    destruct (Rltb (volRatio n (map clipRow ab1)) (nlit 99 100)) eqn:Ev; [split; [reflexivity|intros _; exact Hbox]|].
    rnum. apply Rltb_false in Ev.
    match goal with |- context [passBounds wc center ?wd cs w ?i2] => set (ab2 := passBounds wc center wd cs w i2) end.
    assert (Horig : inBox (if wc then map clipRow ab1 else map clipRow ab2) x).
    { destruct wc; auto.
      assert (Hcl : forall i, (i < n)%nat -> nth i (map clipRow ab1) (0,0) = clipRow (nth i ab1 (None, None))).
      { intros i Hi. rewrite (nth_indep _ (0,0) (clipRow (None, None))) by (rewrite map_length; lia). apply map_nth. }
      assert (Hs1 : sub_ok n (map clipRow ab1)).
      { split; [rewrite map_length; auto|]. apply Forall_map. apply Forall_forall. intros p Hp. apply clipRow_sub.
        destruct (rowOut p) eqn:E; auto. assert (existsb rowOut ab1 = true) by (apply existsb_exists; eauto). congruence. }
      pose proof (volume_sides n _ Hs1 Ev) as Hvol.
      assert (Hk2 : forall i, (i < n)%nat -> oGe (nth i x 0) (fst (nth i ab2 (None, None))) /\ oLe (nth i x 0) (snd (nth i ab2 (None, None)))).
      { intros i Hi. unfold ab2, passBounds. rewrite (nth_map_combine_seq _ _ _ (None, None)) by (rewrite !map_length; lia).
        rewrite (nth_indep _ (None, None) ((fun p : R * R => (Some (fst p), Some (snd p))) (0,0))) by (rewrite !map_length; lia).
        rewrite (map_nth (fun p : R * R => (Some (fst p), Some (snd p)))). cbn [fst snd option_map oGe oLe]. rnum.
        specialize (Hvol i Hi). specialize (Hcs1 i Hi). apply (Forall2_nth_iff _ _ _ 0 (0,0)) in Hbox. destruct Hbox as [_ Hbox].
        destruct Hx as [Hxl _]. specialize (Hbox i ltac:(lia)). nra. }
      assert (Hl2 : length ab2 = n) by (unfold ab2; rewrite passBounds_length, !map_length; auto).
      apply (Forall2_nth_iff _ _ _ 0 (0,0)). rewrite map_length, Hl2. destruct Hx as [Hxl _]. split; auto. rewrite Hxl. intros i Hi.
      rewrite (nth_indep _ (0,0) (clipRow (None, None))) by (rewrite map_length; lia). rewrite map_nth. specialize (Hk2 i Hi). apply clipRow_in; try tauto. auto. }
    match goal with |- context [if ?c then _ else _] => destruct c end; (split; [reflexivity|intros _; exact Horig]).
  Qed.
End Result.

(** ** The added width *)
Lemma fold_scaleCol_sq n l : forall rows cs, Forall (fun r => length (lA r) = n) rows ->
  let '(rows', _) := fold_left (@scaleCol R R_num) l (rows, cs) in Forall (fun r => length (lA r) = n) rows' /\ length rows' = length rows.
Proof.
  induction l; intros rows cs H; cbn [fold_left]; auto.
  unfold scaleCol at 2. destruct (ngtb _ _).
  - match goal with |- context [fold_left scaleCol l (?r, ?c)] => set (r' := r); set (c' := c) end.
    assert (H' : Forall (fun r => length (lA r) = n) r').
    { unfold r'. apply Forall_map. eapply Forall_impl; [|exact H]. intros r Hr. cbn [lA]. rewrite upd_length; auto. }
    specialize (IHl r' c' H'). destruct (fold_left scaleCol l (r', c')) as [r2 c2]. destruct IHl as [A B]. split; auto. rewrite B. unfold r'. apply map_length.
  - apply IHl; auto.
Qed.
Lemma scaled_square n Ms errors : length Ms = n -> Forall (fun M => wf M /\ ndim M = n) Ms -> length errors = n ->
  square n (map lA (fst (fold_left (@scaleCol R R_num) (seq 0 n) (rows0 Ms errors, repeat 1 n)))).
Proof.
  intros HM HMs He. pose proof (fold_scaleCol_sq n (seq 0 n) (rows0 Ms errors) (repeat 1 n)) as H.
  assert (H0 : Forall (fun r => length (lA r) = n) (rows0 Ms errors)).
  { unfold rows0. rewrite !Forall_map. apply Forall_forall. intros [M e] Hin. apply in_combine_l in Hin. rewrite Forall_forall in HMs. destruct (HMs M Hin) as [_ Hd].
    unfold scaleRow. destruct (ngtb _ _); cbn [lA mkLRow]; rewrite ?map_length, getLinearTerms_length; auto. }
  specialize (H H0). destruct (fold_left _ _ _) as [rows cs]. destruct H as [H1 H2]. cbn [fst]. split.
  - rewrite map_length, H2. unfold rows0. rewrite !map_length, combine_length. lia.
  - apply Forall_map. auto.
Qed.
Lemma bounding_width n svd Ms errors fs : (0 < n)%nat -> length Ms = n -> Forall (fun M => wf M /\ ndim M = n) Ms -> length errors = n -> svd_ok n svd ->
  @boundingInterval R R_num svd Ms errors fs = boundingIntervalW (fun _ => 2 * / 2 ^ 52) svd Ms errors fs.
Proof.
  intros Hn HM HMs He Hsvd. unfold boundingInterval, boundingIntervalW. rewrite (dim_n n Ms errors) by auto.
  set (er := if fs then _ else _). assert (Her : length er = n) by (unfold er; destruct fs; rewrite ?map_length; auto). clearbody er.
  change (map scaleRow (map mkLRow (combine Ms er))) with (rows0 Ms er). change (repeat n1 n) with (repeat 1 n).
  pose proof (scaled_square n Ms er HM HMs Her) as Hsq. destruct (fold_left _ _ _) as [rows cs]. cbn [fst] in Hsq.
  pose proof (Hsvd _ Hsq) as HS. destruct (svd (map lA rows)) as [[U Sv] Vh]. rnum.
  destruct (negb (ngtb (nth 0 Sv 0) 0)) eqn:E0; auto.
  assert (Ew : @widthToAdd R R_num (nth (n - 1) Sv 0 / nth 0 Sv 0) = 2 * / 2 ^ 52).
  { apply negb_false_iff in E0. unfold ngtb in E0. rnum. apply Rltb_true in E0.
    pose proof (svd_sorted _ _ _ HS 0%nat (n - 1)%nat ltac:(lia) ltac:(lia)) as H. cbn [fst snd] in H.
    unfold widthToAdd. rewrite nmax_R, n2_R, nlit_R. rnum. rewrite Rmax_right.
    - replace 4503599627370496 with (2 ^ 52) by lra. unfold Rdiv. rewrite Rmult_1_l. reflexivity.
    - apply Rmult_le_reg_r with (nth 0 Sv 0); auto. unfold Rdiv. rewrite Rmult_assoc, Rinv_l by lra. lra. }
  rewrite Ew. reflexivity.
Qed.

(** ** The NaN case *)
Lemma nan_flags svd Ms errors fs : blNan (@boundingInterval R R_num svd Ms errors fs) = true ->
  blChanged (@boundingInterval R R_num svd Ms errors fs) = false /\ blThrow (@boundingInterval R R_num svd Ms errors fs) = false.
Proof.
  unfold boundingInterval, boundingIntervalW. destruct (fold_left _ _ _) as [rows cs]. destruct (svd (map lA rows)) as [[U Sv] Vh].
  destruct (negb _); [auto|]. match goal with |- context [if ?c then _ else _] => destruct c end; [discriminate|].
  match goal with |- context [if ?c then _ else _] => destruct c end; discriminate.
Qed.
Definition noRow : lrow R := mkRow [] 0 0 0 0.
Lemma scaleRow_zero r k : nth k (lA (@scaleRow R R_num r)) 0 = 0 <-> nth k (lA r) 0 = 0.
Proof.
  unfold scaleRow. destruct (ngtb _ _); [|tauto]. cbn [lA]. rnum. rewrite nth_map_div. pose proof (Rpow2fl_pos (Rabs (@maxAbs R R_num (lA r)))).
  set (s := Rpow2fl _) in *. clearbody s. split; intros E.
  - replace (nth k (lA r) 0) with (nth k (lA r) 0 / s * s) by (field; lra). rewrite E. ring.
  - rewrite E. unfold Rdiv. ring.
Qed.
Lemma scaleCols_zero l : forall rows cs j k, (j < length rows)%nat ->
  nth k (lA (nth j (fst (fold_left (@scaleCol R R_num) l (rows, cs))) noRow)) 0 = 0 <-> nth k (lA (nth j rows noRow)) 0 = 0.
Proof.
  induction l as [|i l IH]; intros rows cs j k Hj; cbn [fold_left]; [tauto|]. unfold scaleCol at 2. destruct (ngtb _ _); [|apply IH; auto].
  rewrite IH by (rewrite map_length; auto). match goal with |- context [map ?f rows] => set (F := f) end.
  rewrite (nth_indep _ noRow (F noRow)) by (rewrite map_length; auto). rewrite map_nth. unfold F. cbn [lA]. rnum. set (r := nth j rows noRow).
  pose proof (Rpow2fl_pos (Rabs (@maxAbs R R_num (map (fun r => nth i (lA r) 0) rows)))) as Hs. set (s := Rpow2fl _) in *. clearbody s.
  destruct (Nat.lt_ge_cases i (length (lA r))) as [Hi|Hi].
  - destruct (Nat.eq_dec k i) as [->|Hk]; [rewrite nth_upd_eq by auto|rewrite nth_upd_neq by auto; tauto].
    split; intros E; [|rewrite E; ring]. replace (nth i (lA r) 0) with (nth i (lA r) 0 * (1 / s) * s) by (field; lra). rewrite E. ring.
  - destruct (Nat.eq_dec k i) as [->|Hk]; [|rewrite nth_upd_neq by auto; tauto]. rewrite !nth_overflow by (rewrite ?upd_length; auto). tauto.
Qed.
Lemma svd_zero n A usv : (0 < n)%nat -> is_svd n A usv ->
  (nth 0 (snd (fst usv)) 0 <= 0 <-> forall i l, (i < n)%nat -> (l < n)%nat -> @mget R R_num A i l = 0).
Proof.
  intros Hn [HA HU HV HV2 H0 HS]. split.
  - intros H i l Hi Hl. rewrite HA by auto. apply sumn_zero. intros m Hm. pose proof (H0 m Hm). pose proof (HS 0%nat m ltac:(lia) Hm).
    assert (E : nth m (snd (fst usv)) 0 = 0) by lra. rewrite E. ring.
  - intros HZ. assert (E : nth 0 (snd (fst usv)) 0 = 0); [|lra].
    assert (H1 : forall l, (l < n)%nat -> nth 0 (snd (fst usv)) 0 * @mget R R_num (snd usv) 0 l = 0).
    { intros l Hl. transitivity (sumn n (fun i => @mget R R_num (fst (fst usv)) i 0 * @mget R R_num A i l)).
      - symmetry. transitivity (sumn n (fun i => sumn n (fun m => nth m (snd (fst usv)) 0 * @mget R R_num (snd usv) m l * (@mget R R_num (fst (fst usv)) i 0 * @mget R R_num (fst (fst usv)) i m)))).
        { apply sumn_ext. intros i Hi. rewrite HA by auto. rewrite <- sumn_scal. apply sumn_ext. intros; ring. }
        rewrite sumn_swap. transitivity (sumn n (fun m => delta 0 m * (nth m (snd (fst usv)) 0 * @mget R R_num (snd usv) m l))); [|apply (sumn_delta n 0 (fun m => nth m (snd (fst usv)) 0 * @mget R R_num (snd usv) m l)); auto].
        apply sumn_ext. intros m Hm. rewrite sumn_scal, HU by auto. ring.
      - apply sumn_zero. intros i Hi. rewrite HZ by auto. ring. }
    pose proof (HV2 0%nat 0%nat Hn Hn) as H2. unfold delta in H2. rewrite Nat.eqb_refl in H2.
    rewrite <- (Rmult_1_r (nth 0 _ _)). rewrite <- H2. rewrite <- sumn_scal. apply sumn_zero. intros k Hk. specialize (H1 k Hk).
    rewrite <- Rmult_assoc, H1. ring.
Qed.
Lemma nan_iff n svd Ms errors : (0 < n)%nat -> length Ms = n -> Forall (fun M => wf M /\ ndim M = n) Ms -> length errors = n -> svd_ok n svd ->
  (blNan (@boundingInterval R R_num svd Ms errors false) = true <->
   forall i k, (i < n)%nat -> (k < n)%nat -> nth k (@getLinearTerms R R_num (nth i Ms (mkT [] []))) 0 = 0).
Proof.
  intros Hn HM HMs He Hsvd. unfold boundingInterval, boundingIntervalW. rewrite (dim_n n Ms errors) by auto.
  change (map scaleRow (map mkLRow (combine Ms errors))) with (rows0 Ms errors). change (repeat n1 n) with (repeat 1 n).
  pose proof (scaled_square n Ms errors HM HMs He) as Hsq.
  assert (Hlr : length (rows0 Ms errors) = n) by (unfold rows0; rewrite !map_length, combine_length; lia).
  assert (HZ : (forall i k, (i < n)%nat -> (k < n)%nat -> nth k (@getLinearTerms R R_num (nth i Ms (mkT [] []))) 0 = 0) <->
    forall i l, (i < n)%nat -> (l < n)%nat -> @mget R R_num (map lA (fst (fold_left (@scaleCol R R_num) (seq 0 n) (rows0 Ms errors, repeat 1 n)))) i l = 0).
  { assert (HH : forall i k, (i < n)%nat -> @mget R R_num (map lA (fst (fold_left (@scaleCol R R_num) (seq 0 n) (rows0 Ms errors, repeat 1 n)))) i k = 0 <->
      nth k (@getLinearTerms R R_num (nth i Ms (mkT [] []))) 0 = 0).
    { intros i k Hi. unfold mget. change (@nil R) with (lA noRow). rewrite map_nth. rnum. rewrite scaleCols_zero by lia.
      unfold rows0. rewrite map_map. set (g := fun x => scaleRow (mkLRow x)).
      rewrite (nth_indep _ noRow (g (mkT [] [], 0))) by (rewrite map_length, combine_length; lia). rewrite map_nth, combine_nth by lia.
      unfold g. rewrite scaleRow_zero. cbn [mkLRow lA]. tauto. }
    split; intros H i k Hi Hk; apply HH; auto. }
  rewrite HZ. clear HZ. destruct (fold_left _ _ _) as [rows cs]. cbn [fst] in *. pose proof (Hsvd _ Hsq) as HS. rewrite <- (svd_zero n _ _ Hn HS).
  destruct (svd (map lA rows)) as [[U Sv] Vh]. cbn [fst snd]. unfold ngtb at 1. rnum.
  destruct (Rltb 0 (nth 0 Sv 0)) eqn:E; cbn [negb].
  - apply Rltb_true in E. split; [|intros; lra].
    match goal with |- context [if ?c then _ else _] => destruct c end; [discriminate|].
    match goal with |- context [if ?c then _ else _] => destruct c end; discriminate.
  - apply Rltb_false in E. cbn. tauto.
Qed.
