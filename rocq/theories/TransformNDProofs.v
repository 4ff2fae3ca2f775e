(** * The n-D transform acts along one axis (any arithmetic), and its meaning (reals) *)
From Coq Require Import Reals List Lia Lra Arith Bool ZArith.
From Verif Require Import Num Tensor RSum Cheb PolySpec TransformModel TransformProofs TransformExactProofs.
Import ListNotations.

(** ** Scatter / transpose *)
Lemma scatter_acc_notin (order idx acc : list nat) j :
  ~ In j order -> nth j (fold_left (fun a p => upd a (fst p) (snd p)) (combine order idx) acc) 0 = nth j acc 0.
Proof.
  revert idx acc; induction order as [|o order IH]; intros idx acc Hn; simpl; auto.
  destruct idx as [|i idx]; simpl; auto. rewrite IH by (simpl in Hn; tauto).
  apply nth_upd_neq. simpl in Hn. intros E; apply Hn; auto.
Qed.
Lemma scatter_acc_length (l : list (nat * nat)) acc :
  length (fold_left (fun a p => upd a (fst p) (snd p)) l acc) = length acc.
Proof. revert acc; induction l; intros acc; simpl; auto. rewrite IHl, upd_length; auto. Qed.
Lemma scatter_acc_nth (order idx acc : list nat) k :
  NoDup order -> Forall (fun o => o < length acc) order -> length idx = length order -> k < length order ->
  nth (nth k order 0) (fold_left (fun a p => upd a (fst p) (snd p)) (combine order idx) acc) 0 = nth k idx 0.
Proof.
  revert idx acc k; induction order as [|o order IH]; intros [|i idx] acc k Hnd Hf Hl Hk; simpl in *; try lia.
  inversion Hnd; subst. inversion Hf; subst. destruct k.
  - rewrite scatter_acc_notin by auto. apply nth_upd_eq; auto.
  - apply IH; auto; try lia. eapply Forall_impl; [|eassumption]. intros a Ha. rewrite upd_length. auto.
Qed.
Lemma scatter_length order idx : length (scatter order idx) = length order.
Proof. unfold scatter. rewrite scatter_acc_length, repeat_length; auto. Qed.
Lemma scatter_nth order idx k :
  NoDup order -> Forall (fun o => o < length order) order -> length idx = length order -> k < length order ->
  nth (nth k order 0) (scatter order idx) 0 = nth k idx 0.
Proof. intros. apply scatter_acc_nth; auto. rewrite repeat_length; auto. Qed.

(** the axis order used by TransformChebInPlaceND *)
Definition ord (d n : nat) : list nat := d :: seq 0 d ++ seq (d + 1) (n - (d + 1)).
Lemma ord_length d n : d < n -> length (ord d n) = n.
Proof. intros. unfold ord. simpl. rewrite app_length, !seq_length. lia. Qed.
Lemma ord_nth d n k : d < n -> k < n ->
  nth k (ord d n) 0 = if Nat.eqb k 0 then d else if Nat.leb k d then k - 1 else k.
Proof.
  intros Hd Hk. unfold ord. destruct k; cbn [nth Nat.eqb]; auto. destruct (Nat.leb_spec (S k) d).
  - rewrite app_nth1 by (rewrite seq_length; lia). rewrite seq_nth by lia. lia.
  - rewrite app_nth2 by (rewrite seq_length; lia). rewrite seq_length, seq_nth by lia. lia.
Qed.
Lemma ord_inv_nth d n i : d < n -> i < n ->
  exists k, k < n /\ nth k (ord d n) 0 = i /\ k = (if Nat.eqb i d then 0 else if Nat.ltb i d then S i else i).
Proof.
  intros Hd Hi. exists (if Nat.eqb i d then 0 else if Nat.ltb i d then S i else i).
  destruct (Nat.eqb_spec i d); [|destruct (Nat.ltb_spec i d)]; (split; [lia|]; split; [|reflexivity]);
    rewrite ord_nth by lia.
  - simpl. auto.
  - simpl Nat.eqb. cbv iota. destruct (Nat.leb_spec (S i) d); lia.
  - destruct (Nat.eqb_spec i 0); [lia|]. destruct (Nat.leb_spec i d); lia.
Qed.
Lemma ord_lt d n : d < n -> Forall (fun o => o < n) (ord d n).
Proof.
  intros H. apply Forall_forall. intros x Hx. destruct (In_nth _ _ 0 Hx) as (k & Hk & <-).
  rewrite ord_length in Hk by auto. rewrite ord_nth by auto.
  destruct (Nat.eqb_spec k 0); [lia|]. destruct (Nat.leb_spec k d); lia.
Qed.
Lemma ord_NoDup d n : d < n -> NoDup (ord d n).
Proof.
  intros H. apply (NoDup_nth _ 0). intros i j. rewrite ord_length by auto. intros Hi Hj.
  rewrite !ord_nth by auto.
  destruct (Nat.eqb_spec i 0), (Nat.eqb_spec j 0), (Nat.leb_spec i d), (Nat.leb_spec j d); lia.
Qed.
Lemma scatter_ord d n idx i : d < n -> length idx = n -> i < n ->
  nth i (scatter (ord d n) idx) 0 = nth (if Nat.eqb i d then 0 else if Nat.ltb i d then S i else i) idx 0.
Proof.
  intros Hd Hl Hi. destruct (ord_inv_nth d n i Hd Hi) as (k & Hk & E & ->). rewrite <- E at 1.
  apply scatter_nth; rewrite ?ord_length; auto using ord_NoDup, ord_lt.
Qed.

(** inverse order *)
Definition bord (d n : nat) : list nat := scatter (ord d n) (seq 0 n).
Lemma bord_length d n : d < n -> length (bord d n) = n.
Proof. intros. unfold bord. rewrite scatter_length, ord_length; auto. Qed.
Lemma bord_nth d n i : d < n -> i < n -> nth i (bord d n) 0 = if Nat.eqb i d then 0 else if Nat.ltb i d then S i else i.
Proof.
  intros. unfold bord. rewrite scatter_ord; rewrite ?seq_length; auto.
  destruct (Nat.eqb_spec i d); [|destruct (Nat.ltb_spec i d)]; rewrite seq_nth by lia; auto.
Qed.
Lemma bord_NoDup d n : d < n -> NoDup (bord d n).
Proof.
  intros H. apply (NoDup_nth _ 0). intros i j. rewrite bord_length by auto. intros Hi Hj.
  rewrite !bord_nth by auto.
  destruct (Nat.eqb_spec i d), (Nat.eqb_spec j d), (Nat.ltb_spec i d), (Nat.ltb_spec j d); lia.
Qed.
Lemma bord_lt d n : d < n -> Forall (fun o => o < n) (bord d n).
Proof.
  intros H. apply Forall_forall. intros x Hx. destruct (In_nth _ _ 0 Hx) as (k & Hk & <-).
  rewrite bord_length in Hk by auto. rewrite bord_nth by auto.
  destruct (Nat.eqb_spec k d); [lia|]. destruct (Nat.ltb_spec k d); lia.
Qed.
Lemma scatter_bord d n idx k : d < n -> length idx = n -> k < n ->
  nth (if Nat.eqb k d then 0 else if Nat.ltb k d then S k else k) (scatter (bord d n) idx) 0 = nth k idx 0.
Proof.
  intros Hd Hl Hk. rewrite <- bord_nth with (n := n) by auto.
  apply scatter_nth; rewrite ?bord_length; auto using bord_NoDup, bord_lt.
Qed.

Lemma nth_ext0 (l1 l2 : list nat) : length l1 = length l2 ->
  (forall i, i < length l1 -> nth i l1 0 = nth i l2 0) -> l1 = l2.
Proof. intros. apply nth_ext with (d := 0) (d' := 0); auto. Qed.

Lemma scatter_back d n idx : d < n -> length idx = n -> scatter (ord d n) (scatter (bord d n) idx) = idx.
Proof.
  intros Hd Hl. apply nth_ext0.
  - rewrite scatter_length, ord_length; auto.
  - intros i Hi. rewrite scatter_length, ord_length in Hi by auto.
    rewrite scatter_ord; auto; [|rewrite scatter_length, bord_length; auto].
    apply scatter_bord; auto.
Qed.
Lemma scatter_ord_upd d n idx k : d < n -> length idx = n ->
  scatter (ord d n) (upd idx 0 k) = upd (scatter (ord d n) idx) d k.
Proof.
  intros Hd Hl. apply nth_ext0.
  - rewrite upd_length, !scatter_length; auto.
  - intros i Hi. rewrite scatter_length, ord_length in Hi by auto.
    rewrite scatter_ord; auto; [|rewrite upd_length; auto].
    rewrite (nth_upd (scatter (ord d n) idx)) by (rewrite scatter_length, ord_length; lia).
    rewrite scatter_ord by auto.
    destruct (Nat.eqb_spec i d).
    + apply nth_upd_eq. lia.
    + destruct (Nat.ltb_spec i d); apply nth_upd_neq; lia.
Qed.
Lemma nth0_scatter_bord d n idx : d < n -> length idx = n -> nth 0 (scatter (bord d n) idx) 0 = nth d idx 0.
Proof.
  intros Hd Hl. pose proof (scatter_bord d n idx d Hd Hl Hd) as H. rewrite Nat.eqb_refl in H. auto.
Qed.

Lemma inrange_iff s idx : inrange s idx <-> length idx = length s /\ forall i, i < length s -> nth i idx 0 < nth i s 0.
Proof.
  split.
  - intros H. split; [apply inrange_length; auto|]. intros; apply inrange_nth; auto.
  - revert idx; induction s; intros [|k idx] [Hl H]; simpl in *; try lia; constructor.
    + apply (H 0); lia.
    + apply IHs. split; [lia|]. intros i Hi. apply (H (S i)); lia.
Qed.

Section ND.
  Context {T : Type} {NT : Num T}.

  (** spec: apply a 1-D map to every fibre along axis [d] *)
  Definition apply_axis (F : list T -> list T) (d : nat) (t : tensor T) : tensor T :=
    tbuild (upd (shp t) d (length (F (fibre t d (repeat 0 (ndim t))))))
           (fun idx => g (F (fibre t d idx)) (nth d idx 0)).

  Lemma map_nth_ord s d k0 : d < length s ->
    map (fun o => nth o (upd (map (fun o => nth o s 0) (ord d (length s))) 0 k0) 0) (bord d (length s)) = upd s d k0.
  Proof.
    intros Hd. apply nth_ext0.
    - rewrite map_length, bord_length, upd_length; auto.
    - intros i Hi. rewrite map_length, bord_length in Hi by auto.
      rewrite nth_indep with (d' := (fun o => nth o (upd (map (fun o => nth o s 0) (ord d (length s))) 0 k0) 0) 0)
        by (rewrite map_length, bord_length; auto).
      rewrite (map_nth (fun o => nth o (upd (map (fun o => nth o s 0) (ord d (length s))) 0 k0) 0)).
      rewrite bord_nth by auto. rewrite (nth_upd s) by auto.
      destruct (Nat.eqb_spec i d).
      + apply nth_upd_eq. rewrite map_length, ord_length; lia.
      + assert (Hg : forall j, 0 < j < length s -> nth j (upd (map (fun o => nth o s 0) (ord d (length s))) 0 k0) 0 = nth (nth j (ord d (length s)) 0) s 0).
        { intros j Hj. rewrite nth_upd_neq by lia.
          rewrite nth_indep with (d' := (fun o => nth o s 0) 0) by (rewrite map_length, ord_length; lia).
          rewrite (map_nth (fun o => nth o s 0)). reflexivity. }
        destruct (Nat.ltb_spec i d); rewrite Hg by lia; rewrite ord_nth by lia.
        * cbn [Nat.eqb]. destruct (Nat.leb_spec (S i) d); [f_equal; lia|lia].
        * destruct (Nat.eqb_spec i 0); [lia|]. destruct (Nat.leb_spec i d); [lia|auto].
  Qed.

  Lemma inrange_bord s d idx : d < length s -> inrange s idx ->
    inrange (map (fun o => nth o s 0) (ord d (length s))) (scatter (bord d (length s)) idx).
  Proof.
    intros Hd H. apply inrange_iff in H. destruct H as [Hl Hi]. apply inrange_iff.
    rewrite scatter_length, bord_length, map_length, ord_length by auto. split; auto.
    intros k Hk.
    rewrite (nth_indep (map _ _) 0 (nth 0 s 0)) by (rewrite map_length, ord_length; auto).
    rewrite (map_nth (fun o => nth o s 0)).
    pose proof (proj1 (Forall_nth (fun o => o < length s) (ord d (length s))) (ord_lt d (length s) Hd) k 0 ltac:(rewrite ord_length; auto)) as Ho.
    rewrite <- (scatter_nth (ord d (length s)) (scatter (bord d (length s)) idx) k);
      rewrite ?ord_length, ?scatter_length, ?bord_length; auto using ord_NoDup, ord_lt.
    rewrite scatter_back by auto. apply Hi; auto.
  Qed.

  Lemma fibre_transpose t d idx : d < ndim t -> length idx = ndim t ->
    inrange (upd (map (fun o => nth o (shp t) 0) (ord d (ndim t))) 0 1) (upd idx 0 0) ->
    fibre (transpose t (ord d (ndim t))) 0 idx = fibre t d (scatter (ord d (ndim t)) idx).
  Proof.
    intros Hd Hl Hr. unfold fibre, transpose. rewrite !shp_tbuild.
    assert (E0 : nth 0 (map (fun o => nth o (shp t) 0) (ord d (ndim t))) 0 = nth d (shp t) 0) by reflexivity.
    rewrite E0. apply map_ext_in. intros k Hk. apply in_seq in Hk.
    rewrite tget_tbuild.
    - f_equal. apply scatter_ord_upd; auto.
    - replace (upd idx 0 k) with (upd (upd idx 0 0) 0 k) by apply upd_upd.
      replace (map (fun o => nth o (shp t) 0) (ord d (ndim t))) with
        (upd (upd (map (fun o => nth o (shp t) 0) (ord d (ndim t))) 0 1) 0 (nth d (shp t) 0)) at 1
        by (rewrite upd_upd; reflexivity).
      apply inrange_upd; auto. lia.
  Qed.

  (** length of the output depends only on the length of the input *)
  Definition uniform (F : list T -> list T) : Prop := forall c1 c2, length c1 = length c2 -> length (F c1) = length (F c2).

  Lemma inrange_upd_shrink s idx d k : inrange (upd s d k) idx -> d < length s -> inrange (upd s d 1) (upd idx d 0).
  Proof.
    intros H Hd. replace (upd s d 1) with (upd (upd s d k) d 1) by apply upd_upd. apply inrange_upd; auto.
  Qed.

  Theorem transform_axis F d t : uniform F -> d < ndim t ->
    transpose (apply_axis0 F (transpose t (ord d (ndim t)))) (bord d (ndim t)) = apply_axis F d t.
  Proof.
    intros HF Hd. unfold apply_axis. unfold transpose at 1.
    set (A := transpose t (ord d (ndim t))).
    assert (HA : ndim A = ndim t) by (unfold A, ndim at 1, transpose; rewrite shp_tbuild, map_length, ord_length; auto).
    assert (HlF : forall r1 r2, length (F (fibre A 0 r1)) = length (F (fibre t d r2))).
    { intros. apply HF. rewrite !fibre_length. reflexivity. }
    assert (Hs : map (fun o => nth o (shp (apply_axis0 F A)) 0) (bord d (ndim t)) = upd (shp t) d (length (F (fibre t d (repeat 0 (ndim t)))))).
    { unfold apply_axis0. rewrite shp_tbuild. rewrite (HlF _ (repeat 0 (ndim t))).
      unfold A, transpose. rewrite shp_tbuild. apply (map_nth_ord (shp t) d); auto. }
    rewrite Hs. unfold tbuild. f_equal. apply map_ext_in. intros idx Hin. apply in_indices in Hin.
    pose proof (inrange_length _ _ Hin) as Hl. rewrite upd_length in Hl. fold (ndim t) in Hl.
    set (L := length (F (fibre t d (repeat 0 (ndim t))))) in *.
    assert (HR : inrange (shp (apply_axis0 F A)) (scatter (bord d (ndim t)) idx)).
    { unfold apply_axis0. rewrite shp_tbuild. rewrite (HlF _ (repeat 0 (ndim t))). fold L.
      pose proof (inrange_bord (upd (shp t) d L) d idx ltac:(rewrite upd_length; auto) Hin) as HB.
      rewrite upd_length in HB. fold (ndim t) in HB.
      replace (upd (shp A) 0 L) with (map (fun o => nth o (upd (shp t) d L) 0) (ord d (ndim t))); auto.
      unfold A, transpose. rewrite shp_tbuild. unfold ord. simpl. f_equal.
      - apply nth_upd_eq; auto.
      - apply map_ext_in. intros o Ho. apply nth_upd_neq. apply in_app_or in Ho. rewrite !in_seq in Ho. lia. }
    unfold apply_axis0. rewrite tget_tbuild by exact HR.
    rewrite nth0_scatter_bord by auto. f_equal. f_equal.
    unfold A. rewrite fibre_transpose; auto.
    - rewrite scatter_back by auto. reflexivity.
    - rewrite scatter_length, bord_length; auto.
    - unfold apply_axis0 in HR. rewrite shp_tbuild in HR. apply inrange_upd_shrink in HR; auto.
    fold (ndim A). lia. Qed.

  Lemma apply_axis0_eq F t : apply_axis0 F t = apply_axis F 0 t.
  Proof. reflexivity. Qed.
End ND.

(** ** The output length of the 1-D transforms does not depend on the coefficients (any arithmetic) *)
Section Len.
  Context {T : Type} {NT : Num T}.

  Lemma put_fst c1 c2 i v (p1 p2 : list T * list T) : fst p1 = fst p2 -> fst (put c1 i v p1) = fst (put c2 i v p2).
  Proof. unfold put; simpl. intros ->; auto. Qed.
  Lemma fold_put_fst c1 c2 (v : nat -> T) l : forall (p1 p2 : list T * list T), fst p1 = fst p2 ->
    fst (fold_left (fun p i => put c1 i (v i) p) l p1) = fst (fold_left (fun p i => put c2 i (v i) p) l p2).
  Proof. induction l; intros p1 p2 H; simpl; auto. apply IHl. apply put_fst; auto. Qed.
  Lemma put_len c i v (p : list T * list T) : length (snd (put c i v p)) = length (snd p).
  Proof. unfold put; simpl. apply upd_length. Qed.
  Lemma fold_put_len c (v : nat -> T) l : forall (p : list T * list T),
    length (snd (fold_left (fun p i => put c i (v i) p) l p)) = length (snd p).
  Proof. induction l; intros p; simpl; auto. rewrite IHl. apply put_len. Qed.

  Definition tcore (st : @tst T) := (t1 st, t2 st, t3 st, mr st).
  Lemma tstep_core alpha beta s1 s2 c1 c2 : tcore s1 = tcore s2 ->
    tcore (tstep alpha beta s1 c1) = tcore (tstep alpha beta s2 c2).
  Proof.
    destruct s1 as [a1 a2 a3 b1 m1], s2 as [a1' a2' a3' b2 m2]. unfold tcore; cbn [t1 t2 t3 mr]. intros E. injection E as -> -> -> ->.
    unfold tstep; cbn [t1 t2 t3 mr tc]. set (k := ngtb _ _).
    f_equal. f_equal. f_equal.
    assert (H : forall (b : bool) i v (p1 p2 : list T * list T), fst p1 = fst p2 ->
       fst (if b then put c1 i v p1 else p1) = fst (if b then put c2 i v p2 else p2)).
    { intros [] *; auto using put_fst. }
    apply H. apply put_fst. apply fold_put_fst. apply H. apply put_fst. reflexivity.
  Qed.
  Lemma tstep_tc_len alpha beta s c : length (tc (tstep alpha beta s c)) = length (tc s).
  Proof.
    unfold tstep; cbn [tc]. set (k := ngtb _ _).
    assert (H : forall (b : bool) i v (p : list T * list T), length (snd (if b then put c i v p else p)) = length (snd p)).
    { intros [] *; auto using put_len. }
    rewrite H, put_len, fold_put_len, H, put_len. reflexivity.
  Qed.
  Lemma trun_core alpha beta l1 : forall l2 s1 s2, length l1 = length l2 -> tcore s1 = tcore s2 ->
    tcore (fold_left (tstep alpha beta) l1 s1) = tcore (fold_left (tstep alpha beta) l2 s2).
  Proof.
    induction l1; intros [|b l2] s1 s2 Hl Hs; simpl in *; try lia; auto.
    apply IHl1; [lia|]. apply tstep_core; auto.
  Qed.
  Lemma trun_len alpha beta l : forall s, length (tc (fold_left (tstep alpha beta) l s)) = length (tc s).
  Proof. induction l; intros s; simpl; auto. rewrite IHl. apply tstep_tc_len. Qed.

  Lemma transform1D_uniform alpha beta : uniform (fun c : list T => transform1D c alpha beta).
  Proof.
    intros c1 c2 Hl. unfold transform1D. rewrite !firstn_length, !trun_len. cbn [tc]. rewrite !upd_length, !repeat_length.
    f_equal; auto. rewrite Hl.
    assert (H : tcore (fold_left (tstep alpha beta) (skipn 2 c1)
        (mkTst (upd (repeat n0 (length c2)) 0 n1) (upd (upd (repeat n0 (length c2)) 0 beta) 1 alpha) (repeat n0 (length c2))
         (upd (upd (upd (repeat n0 (length c2)) 0 (g c1 0)) 0 (g (upd (repeat n0 (length c2)) 0 (g c1 0)) 0 + beta * g c1 1)%num) 1
            (g (upd (upd (repeat n0 (length c2)) 0 (g c1 0)) 0 (g (upd (repeat n0 (length c2)) 0 (g c1 0)) 0 + beta * g c1 1)%num) 1 + alpha * g c1 1)%num) 2))
       = tcore (fold_left (tstep alpha beta) (skipn 2 c2)
        (mkTst (upd (repeat n0 (length c2)) 0 n1) (upd (upd (repeat n0 (length c2)) 0 beta) 1 alpha) (repeat n0 (length c2))
         (upd (upd (upd (repeat n0 (length c2)) 0 (g c2 0)) 0 (g (upd (repeat n0 (length c2)) 0 (g c2 0)) 0 + beta * g c2 1)%num) 1
            (g (upd (upd (repeat n0 (length c2)) 0 (g c2 0)) 0 (g (upd (repeat n0 (length c2)) 0 (g c2 0)) 0 + beta * g c2 1)%num) 1 + alpha * g c2 1)%num) 2))).
    { apply trun_core; [rewrite !skipn_length; lia | reflexivity]. }
    unfold tcore in H. injection H as _ _ _ H. exact H.
  Qed.

  Definition fst3 (p : list T * list T * list T) := fst p.
  Lemma putE_fst c1 c2 i v e (p1 p2 : list T * list T * list T) : fst p1 = fst p2 -> fst (putE c1 i v e p1) = fst (putE c2 i v e p2).
  Proof. destruct p1 as [[a b] t], p2 as [[a' b'] t']. simpl. intros H; injection H as -> ->; auto. Qed.
  Lemma putE_len c i v e (p : list T * list T * list T) : length (snd (putE c i v e p)) = length (snd p).
  Proof. destruct p as [[a b] t]. simpl. apply upd_length. Qed.
  Lemma fold_fst (h1 h2 : list T * list T * list T -> nat -> list T * list T * list T) l :
    (forall i p1 p2, fst p1 = fst p2 -> fst (h1 p1 i) = fst (h2 p2 i)) ->
    forall p1 p2, fst p1 = fst p2 -> fst (fold_left h1 l p1) = fst (fold_left h2 l p2).
  Proof. intros H. induction l; intros p1 p2 E; simpl; auto. Qed.
  Lemma fold_len (h : list T * list T * list T -> nat -> list T * list T * list T) l :
    (forall i p, length (snd (h p i)) = length (snd p)) -> forall p, length (snd (fold_left h l p)) = length (snd p).
  Proof. intros H. induction l; intros p; simpl; auto. rewrite IHl; auto. Qed.

  Definition ecore (st : @est T) := (e1 st, e2 st, e3 st, f1 st, f2 st, f3 st, er st).
  Lemma estep_core alpha beta s1 s2 c1 c2 : ecore s1 = ecore s2 ->
    ecore (estep alpha beta s1 c1) = ecore (estep alpha beta s2 c2).
  Proof.
    destruct s1 as [a1 a2 a3 b1 b2 b3 x1 m1], s2 as [a1' a2' a3' b1' b2' b3' x2 m2].
    unfold ecore; cbn [e1 e2 e3 f1 f2 f3 er]. intros E. injection E as -> -> -> -> -> -> ->.
    unfold estep; cbn [e1 e2 e3 f1 f2 f3 er ec].
    repeat match goal with |- context [let '(_, _) := ?e in _] => 
      match e with Split _ => destruct e as [? ?] | TwoProdWithSplit _ _ _ _ => destruct e as [? ?] | TwoSum _ _ => destruct e as [? ?] end end.
    match goal with |- context [putE c1 m2 ?v ?e ?p] => set (q1 := putE c1 m2 v e p) end.
    match goal with |- context [putE c2 m2 ?v ?e ?p] => set (q2 := putE c2 m2 v e p) end.
    assert (H : fst q1 = fst q2).
    { unfold q1, q2. clear q1 q2. apply putE_fst. apply putE_fst. apply fold_fst.
      - intros i p1 p2 Hp. destruct (TwoSum _ _). destruct (TwoProdWithSplit _ _ _ _). destruct (TwoProdWithSplit _ _ _ _).
        destruct (TwoSum _ _). destruct (TwoSum _ _). apply putE_fst; auto.
      - destruct (Nat.ltb _ _).
        + repeat match goal with |- context [let '(_, _) := ?e in _] => destruct e as [? ?] end.
          apply putE_fst. apply putE_fst. reflexivity.
        + apply putE_fst. reflexivity. }
    clearbody q1 q2. destruct q1 as [[u1 u2] u3], q2 as [[w1 w2] w3]. simpl in H. injection H as -> ->.
    cbn [e1 e2 e3 f1 f2 f3 er ec]. reflexivity.
  Qed.

  Lemma sstep_core bs s1 s2 c1 c2 : ecore s1 = ecore s2 ->
    ecore (sstep bs s1 c1) = ecore (sstep bs s2 c2).
  Proof.
    destruct s1 as [a1 a2 a3 b1 b2 b3 x1 m1], s2 as [a1' a2' a3' b1' b2' b3' x2 m2].
    unfold ecore; cbn [e1 e2 e3 f1 f2 f3 er]. intros E. injection E as -> -> -> -> -> -> ->.
    unfold sstep; cbn [e1 e2 e3 f1 f2 f3 er ec].
    repeat match goal with |- context [let '(_, _) := ?e in _] => 
      match e with TwoSum _ _ => destruct e as [? ?] end end.
    match goal with |- context [putE c1 m2 ?v ?e ?p] => set (q1 := putE c1 m2 v e p) end.
    match goal with |- context [putE c2 m2 ?v ?e ?p] => set (q2 := putE c2 m2 v e p) end.
    assert (H : fst q1 = fst q2).
    { unfold q1, q2. clear q1 q2. apply putE_fst. apply putE_fst. apply fold_fst.
      - intros i p1 p2 Hp. destruct (TwoSum _ _). destruct (TwoSum _ _). destruct (TwoSum _ _). apply putE_fst; auto.
      - destruct (Nat.ltb _ _).
        + repeat match goal with |- context [let '(_, _) := ?e in _] => destruct e as [? ?] end.
          apply putE_fst. apply putE_fst. reflexivity.
        + apply putE_fst. reflexivity. }
    clearbody q1 q2. destruct q1 as [[u1 u2] u3], q2 as [[w1 w2] w3]. simpl in H. injection H as -> ->.
    cbn [e1 e2 e3 f1 f2 f3 er ec]. reflexivity.
  Qed.
  Lemma estep_len alpha beta s c : length (ec (estep alpha beta s c)) = length (ec s).
  Proof.
    unfold estep.
    repeat match goal with |- context [let '(_, _) := ?e in _] => 
      match e with Split _ => destruct e as [? ?] | TwoProdWithSplit _ _ _ _ => destruct e as [? ?] | TwoSum _ _ => destruct e as [? ?] end end.
    match goal with |- context [putE c (er s) ?v ?e ?p] => set (q1 := putE c (er s) v e p) end.
    assert (H : length (snd q1) = length (ec s)).
    { unfold q1. rewrite putE_len, putE_len, fold_len.
      - destruct (Nat.ltb _ _).
        + repeat match goal with |- context [let '(_, _) := ?e in _] => destruct e as [? ?] end.
          rewrite !putE_len. reflexivity.
        + rewrite putE_len. reflexivity.
      - intros i p.
        repeat match goal with |- context [let '(_, _) := ?e in _] => destruct e as [? ?] end.
        apply putE_len. }
    clearbody q1. destruct q1 as [[u1 u2] u3]. exact H.
  Qed.
  Lemma sstep_len bs s c : length (ec (sstep bs s c)) = length (ec s).
  Proof.
    unfold sstep.
    repeat match goal with |- context [let '(_, _) := ?e in _] => 
      match e with TwoSum _ _ => destruct e as [? ?] end end.
    match goal with |- context [putE c (er s) ?v ?e ?p] => set (q1 := putE c (er s) v e p) end.
    assert (H : length (snd q1) = length (ec s)).
    { unfold q1. rewrite putE_len, putE_len, fold_len.
      - destruct (Nat.ltb _ _).
        + repeat match goal with |- context [let '(_, _) := ?e in _] => destruct e as [? ?] end.
          rewrite !putE_len. reflexivity.
        + rewrite putE_len. reflexivity.
      - intros i p.
        repeat match goal with |- context [let '(_, _) := ?e in _] => destruct e as [? ?] end.
        apply putE_len. }
    clearbody q1. destruct q1 as [[u1 u2] u3]. exact H.
  Qed.
  Lemma erun_core (f : @est T -> T -> @est T) :
    (forall s1 s2 c1 c2, ecore s1 = ecore s2 -> ecore (f s1 c1) = ecore (f s2 c2)) ->
    forall l1 l2 s1 s2, length l1 = length l2 -> ecore s1 = ecore s2 ->
    ecore (fold_left f l1 s1) = ecore (fold_left f l2 s2).
  Proof.
    intros Hf. induction l1; intros [|b l2] s1 s2 Hl Hs; simpl in *; try lia; auto.
  Qed.
  Lemma erun_len (f : @est T -> T -> @est T) : (forall s c, length (ec (f s c)) = length (ec s)) ->
    forall l s, length (ec (fold_left f l s)) = length (ec s).
  Proof. intros Hf. induction l; intros s; simpl; auto. rewrite IHl. apply Hf. Qed.

  Lemma ecore_er s1 s2 : ecore s1 = ecore s2 -> er s1 = er s2.
  Proof. unfold ecore. intros H. injection H; auto. Qed.

  Lemma transformEF_uniform alpha beta : uniform (fun c : list T => transform1DErrorFree c alpha beta).
  Proof.
    intros c1 c2 Hl. unfold transform1DErrorFree, transform1DErrorFreeSplit. destruct (neqb _ _ && neqb _ _).
    - rewrite !firstn_length. rewrite !(erun_len _ (sstep_len _)). cbn [ec]. rewrite !upd_length, !repeat_length.
      f_equal; auto. rewrite Hl. apply ecore_er. apply erun_core; [intros; apply sstep_core; auto | rewrite !skipn_length; lia | reflexivity].
    - rewrite !firstn_length. rewrite !(erun_len _ (estep_len _ _)). cbn [ec]. rewrite !upd_length, !repeat_length.
      f_equal; auto. rewrite Hl. apply ecore_er. apply erun_core; [intros; apply estep_core; auto | rewrite !skipn_length; lia | reflexivity].
  Qed.
  Lemma transform1Dx_uniform exact alpha beta : uniform (fun c : list T => transform1Dx exact c alpha beta).
  Proof. intros c1 c2 H. destruct exact; [apply transformEF_uniform | apply transform1D_uniform]; auto. Qed.
  Lemma transform1Dx_le exact c (alpha beta : T) : length (transform1Dx exact c alpha beta) <= length c.
  Proof.
    destruct exact; simpl; unfold transform1DErrorFree, transform1DErrorFreeSplit, transform1D; [destruct (neqb _ _ && neqb _ _)|];
      rewrite firstn_length, ?trun_len, ?(erun_len _ (sstep_len _)), ?(erun_len _ (estep_len _ _)); cbn [ec tc];
      rewrite ?upd_length, ?repeat_length; lia.
  Qed.

  (** the n-D transform, along any axis, in any arithmetic *)
  Theorem transformND_eq (t : tensor T) d alpha beta exact : d < ndim t ->
    transformND t d alpha beta exact =
    if (neqb alpha n1 && neqb beta n0) || Nat.eqb (nth d (shp t) 0) 1 then t
    else apply_axis (fun c => transform1Dx exact c alpha beta) d t.
  Proof.
    intros Hd. unfold transformND. destruct (_ || _); auto.
    destruct (Nat.eqb_spec d 0).
    - subst. reflexivity.
    - apply (transform_axis (fun c => transform1Dx exact c alpha beta) d t); auto. apply transform1Dx_uniform.
  Qed.
End Len.

Local Open Scope R_scope.

(** ** Meaning over the reals *)
(** bound on what dropping negligible entries can do to a polynomial with N coefficients *)
Definition drop (exact : bool) (N : nat) : R :=
  if exact then tau32 * (3 * (INR (N - 1) * INR (N - 2) / 2) + 1) else tau16 * (INR (N - 1) * INR (N - 2) / 2).
Lemma drop_nonneg exact N : 0 <= drop exact N.
Proof.
  pose proof tau16_pos. pose proof tau32_pos. pose proof (pos_INR (N - 1)). pose proof (pos_INR (N - 2)).
  assert (0 <= INR (N - 1) * INR (N - 2)) by (apply Rmult_le_pos; auto).
  destruct exact; simpl; apply Rmult_le_pos; lra.
Qed.

Lemma transform1Dx_bound exact c alpha beta x : (2 <= length c)%nat ->
  -1 <= x <= 1 -> -1 <= alpha * x + beta <= 1 ->
  Rabs (cheb1 (@transform1Dx R R_num exact c alpha beta) x - cheb1 c (alpha * x + beta))
    <= drop exact (length c) * sumn (length c) (fun j => Rabs (nth j c 0)).
Proof. destruct exact; [apply transformEF_bound | apply transform1D_bound]. Qed.
Lemma transform1Dx_exact exact c alpha beta x : (2 <= length c)%nat ->
  length (@transform1Dx R R_num exact c alpha beta) = length c ->
  cheb1 (@transform1Dx R R_num exact c alpha beta) x = cheb1 c (alpha * x + beta).
Proof. destruct exact; [apply transformEF_exact | apply transform1D_exact]. Qed.
Lemma transform1Dx_len exact c alpha beta : (2 <= length c)%nat ->
  (2 <= length (@transform1Dx R R_num exact c alpha beta) <= length c)%nat.
Proof.
  intros H. destruct exact; [apply length_transformEF; auto|].
  destruct (length_transform1D c alpha beta H) as [E Hm]. simpl. rewrite E. auto.
Qed.

Lemma fibre_upd (t : tensor R) d r k : fibre t d (upd r d k) = fibre t d r.
Proof. unfold fibre. apply map_ext. intros. rewrite upd_upd. reflexivity. Qed.
Lemma Forall_nth_upd1 s d k : Forall (fun n => (1 <= n)%nat) s -> (1 <= k)%nat -> Forall (fun n => (1 <= n)%nat) (upd s d k).
Proof. intros. apply Forall_upd; auto. Qed.

Lemma fibre_apply_axis F d (t : tensor R) r : uniform F -> (d < ndim t)%nat ->
  inrange (upd (shp t) d 1%nat) r ->
  fibre (apply_axis F d t) d r = F (fibre t d r).
Proof.
  intros HF Hd Hr. apply nth_ext with (d := 0) (d' := 0).
  - rewrite fibre_length. unfold apply_axis. rewrite shp_tbuild, nth_upd_eq by auto. apply HF. rewrite !fibre_length; auto.
  - intros k Hk. rewrite fibre_length in Hk. unfold apply_axis in Hk. rewrite shp_tbuild, nth_upd_eq in Hk by auto.
    change 0 with (@n0 R R_num) at 1. rewrite fibre_nth by (unfold apply_axis; rewrite shp_tbuild, nth_upd_eq; auto).
    unfold apply_axis. rewrite tget_tbuild.
    + rewrite fibre_upd. rewrite nth_upd_eq; [reflexivity|].
      apply inrange_length in Hr. rewrite upd_length in Hr. unfold ndim in Hd. lia.
    + replace (upd (shp t) d (length (F (fibre t d (repeat 0%nat (ndim t))))))
        with (upd (upd (shp t) d 1%nat) d (length (F (fibre t d (repeat 0%nat (ndim t)))))) by apply upd_upd.
      apply inrange_upd; auto.
Qed.

Lemma upd_same_nth (x : list R) d v : (d < length x)%nat -> nth d (upd x d v) 0 = v.
Proof. intros. apply nth_upd_eq; auto. Qed.
Lemma upd_app_R (x : list R) d u v : upd (upd x d u) d v = upd x d v.
Proof. apply upd_upd. Qed.

Lemma cube_upd x d v n : in_cube n x -> -1 <= v <= 1 -> in_cube n (upd x d v).
Proof. intros [Hl Hf] Hv. split; [rewrite upd_length; auto | apply Forall_upd; auto]. Qed.
Lemma cube_nth x d n : in_cube n x -> (d < n)%nat -> -1 <= nth d x 0 <= 1.
Proof. intros [Hl Hf] Hd. apply (proj1 (Forall_nth _ x) Hf d 0). lia. Qed.

Lemma wf_apply_axis F d (t : tensor R) : wf t -> (1 <= length (F (fibre t d (repeat 0%nat (ndim t)))))%nat -> wf (apply_axis F d t).
Proof.
  intros [_ Hs] HF. apply wf_tbuild. apply Forall_nth_upd1; auto.
Qed.

Definition transformND_spec_bound (t : tensor R) (d : nat) (exact : bool) : R :=
  drop exact (nth d (shp t) 0%nat) * sumabs t.

Lemma apply_axis_bound exact d (t : tensor R) alpha beta x :
  (d < ndim t)%nat -> (2 <= nth d (shp t) 0)%nat -> in_cube (ndim t) x ->
  -1 <= alpha * nth d x 0 + beta <= 1 ->
  Rabs (cheb_eval (apply_axis (fun c => @transform1Dx R R_num exact c alpha beta) d t) x
        - cheb_eval t (upd x d (alpha * nth d x 0 + beta)))
   <= drop exact (nth d (shp t) 0%nat) * sumabs t.
Proof.
  intros Hd HN Hx Hy. pose proof Hx as [Hl Hf].
  set (F := fun c => @transform1Dx R R_num exact c alpha beta).
  assert (HU : uniform F) by apply transform1Dx_uniform.
  rewrite (cheb_eval_axis _ x d); [|unfold apply_axis; rewrite shp_tbuild, upd_length; auto | unfold apply_axis; rewrite shp_tbuild, upd_length; auto].
  rewrite (cheb_eval_axis t _ d); auto; [|rewrite upd_length; auto].
  assert (Es : upd (shp (apply_axis F d t)) d 1%nat = upd (shp t) d 1%nat) by (unfold apply_axis; rewrite shp_tbuild; apply upd_upd).
  rewrite Es, upd_same_nth by (unfold ndim in *; lia).
  rewrite <- sumidx_minus, (sumabs_axis t d Hd), <- sumidx_scal.
  eapply Rle_trans; [apply sumidx_abs|]. apply sumidx_le. intros r Hr.
  rewrite fibre_apply_axis by auto. rewrite upd_app_R, <- Rmult_minus_distr_r, Rabs_mult.
  pose proof (transform1Dx_bound exact (fibre t d r) alpha beta (nth d x 0)) as HB.
  rewrite fibre_length in HB. specialize (HB HN (cube_nth x d _ Hx Hd) Hy). fold (F (fibre t d r)) in HB.
  assert (HC : Rabs (basis chebT (upd r d 0%nat) (upd x d 0)) <= 1).
  { apply chebasis_bound. apply Forall_upd; auto. lra. }
  pose proof (Rabs_pos (basis chebT (upd r d 0%nat) (upd x d 0))).
  pose proof (Rabs_pos (cheb1 (F (fibre t d r)) (nth d x 0) - cheb1 (fibre t d r) (alpha * nth d x 0 + beta))).
  nra.
Qed.

Lemma apply_axis_exact exact d (t : tensor R) alpha beta x :
  (d < ndim t)%nat -> (2 <= nth d (shp t) 0)%nat -> length x = ndim t ->
  shp (apply_axis (fun c => @transform1Dx R R_num exact c alpha beta) d t) = shp t ->
  cheb_eval (apply_axis (fun c => @transform1Dx R R_num exact c alpha beta) d t) x
     = cheb_eval t (upd x d (alpha * nth d x 0 + beta)).
Proof.
  intros Hd HN Hl Hsh.
  set (F := fun c => @transform1Dx R R_num exact c alpha beta) in *.
  assert (HU : uniform F) by apply transform1Dx_uniform.
  rewrite (cheb_eval_axis _ x d); [| rewrite Hsh; auto | rewrite Hsh; auto].
  rewrite (cheb_eval_axis t _ d); auto; [|rewrite upd_length; auto].
  rewrite Hsh, upd_same_nth by (unfold ndim in *; lia). apply sumidx_ext. intros r Hr.
  rewrite fibre_apply_axis by auto. rewrite upd_app_R. f_equal.
  apply transform1Dx_exact; rewrite ?fibre_length; auto.
  unfold apply_axis in Hsh. rewrite shp_tbuild in Hsh.
  assert (E : nth d (upd (shp t) d (length (F (fibre t d (repeat 0%nat (ndim t)))))) 0%nat = nth d (shp t) 0%nat) by (rewrite Hsh; auto).
  rewrite nth_upd_eq in E by auto. rewrite <- E. apply HU. rewrite !fibre_length; auto.
Qed.

(** an axis of size 1 carries no dependence on its coordinate *)
Lemma cheb_eval_axis1 t x d v : (d < ndim t)%nat -> length x = ndim t -> nth d (shp t) 0%nat = 1%nat ->
  cheb_eval t (upd x d v) = cheb_eval t x.
Proof.
  intros Hd Hl H1. rewrite (cheb_eval_axis t x d), (cheb_eval_axis t (upd x d v) d); auto; [|rewrite upd_length; auto].
  apply sumidx_ext. intros r Hr. rewrite upd_app_R. f_equal. unfold cheb1. rewrite !fibre_length, H1. cbn [sumn]. rewrite !chebT_0. reflexivity.
Qed.

Lemma axis_pos (t : tensor R) d : wf t -> (d < ndim t)%nat -> (1 <= nth d (shp t) 0)%nat.
Proof. intros [_ Hf] Hd. apply (proj1 (Forall_nth _ (shp t)) Hf d 0%nat). auto. Qed.

Lemma transformND_bound exact d (t : tensor R) alpha beta x : wf t ->
  (d < ndim t)%nat -> in_cube (ndim t) x -> -1 <= alpha * nth d x 0 + beta <= 1 ->
  Rabs (cheb_eval (@transformND R R_num t d alpha beta exact) x - cheb_eval t (upd x d (alpha * nth d x 0 + beta)))
   <= drop exact (nth d (shp t) 0%nat) * sumabs t.
Proof.
  intros Hw Hd Hx Hy. pose proof Hx as [Hl Hf]. rewrite transformND_eq by auto. rnum.
  assert (Hnn : 0 <= drop exact (nth d (shp t) 0%nat) * sumabs t).
  { apply Rmult_le_pos; [apply drop_nonneg|]. rewrite sumabs_sumidx. apply sumidx_nonneg. intros; apply Rabs_pos. }
  destruct (Reqb alpha 1 && Reqb beta 0) eqn:K; [|destruct (Nat.eqb_spec (nth d (shp t) 0%nat) 1)]; cbn [orb].
  - apply andb_true_iff in K. destruct K as [Ka Kb]. apply Reqb_true in Ka, Kb. subst.
    replace (1 * nth d x 0 + 0) with (nth d x 0) by ring. rewrite upd_nth. rewrite Rminus_diag_eq, Rabs_R0; auto.
  - rewrite cheb_eval_axis1 by auto. rewrite Rminus_diag_eq, Rabs_R0; auto.
  - pose proof (axis_pos t d Hw Hd). apply apply_axis_bound; auto; lia.
Qed.

Lemma transformND_exact exact d (t : tensor R) alpha beta x : wf t ->
  (d < ndim t)%nat -> length x = ndim t ->
  shp (@transformND R R_num t d alpha beta exact) = shp t ->
  cheb_eval (@transformND R R_num t d alpha beta exact) x = cheb_eval t (upd x d (alpha * nth d x 0 + beta)).
Proof.
  intros Hw Hd Hl. rewrite transformND_eq by auto. rnum.
  destruct (Reqb alpha 1 && Reqb beta 0) eqn:K; [|destruct (Nat.eqb_spec (nth d (shp t) 0%nat) 1)]; cbn [orb]; intros Hsh.
  - apply andb_true_iff in K. destruct K as [Ka Kb]. apply Reqb_true in Ka, Kb. subst.
    replace (1 * nth d x 0 + 0) with (nth d x 0) by ring. rewrite upd_nth. reflexivity.
  - rewrite cheb_eval_axis1 by auto. reflexivity.
  - pose proof (axis_pos t d Hw Hd). apply apply_axis_exact; auto; lia.
Qed.

(** shapes: only axis d may change, and it never grows; well-formedness is kept *)
Lemma transformND_shape exact d (t : tensor R) alpha beta : wf t -> (d < ndim t)%nat ->
  wf (@transformND R R_num t d alpha beta exact) /\
  exists k, (1 <= k <= nth d (shp t) 0)%nat /\ shp (@transformND R R_num t d alpha beta exact) = upd (shp t) d k.
Proof.
  intros Hw Hd. rewrite transformND_eq by auto. pose proof (axis_pos t d Hw Hd).
  destruct (_ || _) eqn:K.
  - split; auto. exists (nth d (shp t) 0%nat). rewrite upd_nth. split; auto.
  - apply orb_false_iff in K. destruct K as [_ K]. apply Nat.eqb_neq in K.
    pose proof (transform1Dx_len exact (fibre t d (repeat 0%nat (ndim t))) alpha beta) as HL.
    rewrite fibre_length in HL. specialize (HL ltac:(lia)).
    split.
    + apply wf_apply_axis; auto. lia.
    + eexists. split; [|unfold apply_axis; rewrite shp_tbuild; reflexivity]. lia.
Qed.
