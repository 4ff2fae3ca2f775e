(** * The n-D quadratic check: every face is examined, or is degenerate or indefinite *)
From Coq Require Import List Arith Bool ZArith Reals Lra Lia Sorted.
From Verif Require Import Num RSum Cheb Tensor PolySpec TransformModel TransformChebProofs PartProofs IntervalProofs LinearProofs QuadModel QuadDescent QuadProofs QuadNdProofs.
Import ListNotations.
Local Open Scope R_scope.

(** ** What is asked of matrix_rank and of the symmetric linear solver *)
Definition entry (A : list (list R)) (i j : nat) : R := nth j (nth i A []) 0.
Definition symmetricMatrix (m : nat) (A : list (list R)) : Prop :=
  length A = m /\ Forall (fun r => length r = m) A /\ forall i j, (i < m)%nat -> (j < m)%nat -> entry A i j = entry A j i.
(** For symmetric m x m matrices, 1 <= m <= n: the rank test says "not full" only for singular
    matrices, and the solver solves every system whose matrix has full rank according to the test. *)
Definition sym_solver_ok (n : nat) (rank_full : list (list R) -> bool) (solve : list (list R) -> list R -> list R) : Prop :=
  forall m A, (1 <= m <= n)%nat -> symmetricMatrix m A ->
    (rank_full A = false -> exists v, length v = m /\ (exists i, (i < m)%nat /\ nth i v 0 <> 0) /\
                                     forall i, (i < m)%nat -> sumn m (fun j => entry A i j * nth j v 0) = 0) /\
    (rank_full A = true -> forall b, length b = m -> length (solve A b) = m /\
                                     forall i, (i < m)%nat -> sumn m (fun j => entry A i j * nth j (solve A b) 0) = nth i b 0).

(** ** Lists of positions *)
Lemma filter_all {A} (p : A -> bool) l : forallb p l = true -> filter p l = l.
Proof. induction l; simpl; auto. intros H. apply andb_true_iff in H. destruct H as [-> H]. rewrite IHl; auto. Qed.
Lemma sum_positions (f : nat -> R) (L : list nat) : sumn (length L) (fun a => f (nth a L 0%nat)) = Rsum (map f L).
Proof. rewrite Rsum_nth, map_length. apply sumn_ext. intros a Ha. rewrite nth_indep with (d' := f 0%nat) by (rewrite map_length; auto). rewrite map_nth. auto. Qed.
Lemma sum_two (p : nat -> bool) (f : nat -> R) n :
  sumn n f = Rsum (map f (filter (fun i => negb (p i)) (seq 0 n))) + Rsum (map f (filter p (seq 0 n))).
Proof. rewrite <- Rsum_map_seq. induction (seq 0 n) as [|a l IH]; simpl; [ring|]. destruct (p a); simpl; rewrite IH; ring. Qed.

Definition assign (keys : list nat) (vals : list R) (base : list R) : list R := fold_left (fun X p => upd X (fst p) (snd p)) (combine keys vals) base.
Lemma assign_len keys : forall vals base, length (assign keys vals base) = length base.
Proof. unfold assign. induction keys; intros [|v vals] base; simpl; auto. rewrite IHkeys, upd_length. auto. Qed.
Lemma assign_other keys k : forall vals base, ~ In k keys -> nth k (assign keys vals base) 0 = nth k base 0.
Proof.
  unfold assign. induction keys as [|a keys IH]; intros [|v vals] base H; simpl; auto. rewrite IH by (intros X; apply H; right; auto).
  apply nth_upd_neq. intros ->. apply H. left; auto.
Qed.
Lemma assign_key keys : forall vals base a, NoDup keys -> length vals = length keys -> Forall (fun k => k < length base)%nat keys -> (a < length keys)%nat ->
  nth (nth a keys 0%nat) (assign keys vals base) 0 = nth a vals 0.
Proof.
  induction keys as [|k keys IH]; intros [|v vals] base a Hn Hl Hf Ha; simpl in *; try lia. inversion Hn; subst. inversion Hf; subst.
  destruct a.
  - change (nth k (assign keys vals (upd base k v)) 0 = v). rewrite assign_other by auto. apply nth_upd_eq; auto.
  - change (nth (nth a keys 0%nat) (assign keys vals (upd base k v)) 0 = nth a vals 0). apply IH; auto; [|lia]. eapply Forall_impl; [|exact H4]. intros; rewrite upd_length; auto.
Qed.
Lemma scatter_assign n fixed X0 unfixed X_ : @scatter R R_num n fixed X0 unfixed X_ = assign unfixed X_ (assign fixed X0 (repeat 0 n)).
Proof. reflexivity. Qed.

Lemma in_sides l : Forall (fun v => v = -1 \/ v = 1) l -> In l (@sides R R_num (length l)).
Proof.
  induction 1 as [|v l Hv Hl IH]; [left; auto|]. simpl. rewrite !in_app_iff. rnum. change (Ropp 1) with (-1). destruct Hv as [->| ->].
  - left. apply in_map. auto.
  - right; left. apply in_map. auto.
Qed.
Lemma signChange_true (d : list R) : @signChange R R_num d = true -> exists a b, In a d /\ In b d /\ a < 0 /\ 0 < b.
Proof.
  induction d as [|x [|y d] IH]; [discriminate|discriminate|]. intros H. change (nltb (x * y) 0 || @signChange R R_num (y :: d) = true) in H. apply orb_true_iff in H. destruct H as [H|H].
  - cbn [nltb R_num] in H. apply Rltb_true in H. destruct (Rlt_dec x 0) as [Hx|Hx].
    + exists x, y. split; [simpl; auto|]. split; [simpl; auto|]. split; nra.
    + apply Rnot_lt_le in Hx. destruct (Req_EM_T x 0) as [->|]; [rewrite Rmult_0_l in H; lra|]. assert (0 < x) by lra. exists y, x. split; [simpl; auto|]. split; [simpl; auto|]. split; nra.
  - destruct (IH H) as (a & b & Ha & Hb & H1 & H2). exists a, b. repeat split; simpl; auto; simpl in *; tauto.
Qed.
Lemma insideC_free (l : list R) : Forall (fun v => -1 < v < 1) l -> forallb (@insideC R R_num) l = true.
Proof. intros H. apply forallb_forall. rewrite Forall_forall in H. intros v Hv. specialize (H v Hv). unfold insideC. rnum. apply andb_true_iff. rewrite !Rleb_true. lra. Qed.

Section Faces.
  Variable M : tensor R.
  Variable rank_full : list (list R) -> bool.
  Variable solve : list (list R) -> list R -> list R.
  Let n := ndim M.
  Hypothesis Hor : sym_solver_ok n rank_full solve.
  Definition candN (X : vec) : Prop := exists pt, In pt (@ndPoints R R_num rank_full solve M) /\ forall i, (i < n)%nat -> X i = nth i pt 0.

  Lemma HN_diag i : (i < n)%nat -> HN M i i = 4 * nth i (@ndP R R_num M) 0.
  Proof. intros. rewrite HN_nth by auto. rewrite Nat.eqb_refl. auto. Qed.

  (** the submatrix for a list of variables *)
  Lemma sub_entry L i j : (i < length L)%nat -> (j < length L)%nat -> entry (@submat R R_num (ndA M) L L) i j = HN M (nth i L 0%nat) (nth j L 0%nat).
  Proof.
    intros Hi Hj. unfold entry, submat. rewrite nth_indep with (d' := map (fun j => mij (ndA M) 0 j) L) by (rewrite map_length; auto).
    rewrite (map_nth (fun i => map (fun j => mij (ndA M) i j) L)). rewrite nth_indep with (d' := mij (ndA M) (nth i L 0%nat) 0) by (rewrite map_length; auto).
    rewrite (map_nth (fun j => mij (ndA M) (nth i L 0%nat) j)). reflexivity.
  Qed.
  Lemma sub_sym L : Forall (fun k => k < n)%nat L -> symmetricMatrix (length L) (@submat R R_num (ndA M) L L).
  Proof.
    intros HL. split; [unfold submat; rewrite map_length; auto|]. split.
    - apply Forall_forall. intros r Hr. unfold submat in Hr. apply in_map_iff in Hr. destruct Hr as (i & <- & _). rewrite map_length. auto.
    - intros i j Hi Hj. rewrite !sub_entry by auto. rewrite Forall_forall in HL. apply HN_sym; apply HL, nth_In; auto.
  Qed.

  Section OneFace.
    Variable s : vec.
    Hypothesis Hs : cubev n s.
    Let F := filter (fun i => negb (isfree s i)) (seq 0 n).
    Let U := filter (isfree s) (seq 0 n).
    Lemma U_in i : In i U <-> (i < n)%nat /\ free s i.
    Proof. unfold U. rewrite filter_In, in_seq, isfree_iff. split; intros []; split; auto; lia. Qed.
    Lemma F_in i : In i F <-> (i < n)%nat /\ ~ free s i.
    Proof.
      unfold F. rewrite filter_In, in_seq, <- isfree_iff, negb_true_iff. split; intros [H1 H2]; split; try lia.
      - rewrite H2. discriminate.
      - destruct (isfree s i); congruence.
    Qed.
    Lemma U_nd : NoDup U. Proof. apply NoDup_filter, seq_NoDup. Qed.
    Lemma F_nd : NoDup F. Proof. apply NoDup_filter, seq_NoDup. Qed.
    Lemma U_lt : Forall (fun k => k < n)%nat U.
    Proof. apply Forall_forall. intros i Hi. apply U_in in Hi. tauto. Qed.
    Lemma F_lt : Forall (fun k => k < n)%nat F.
    Proof. apply Forall_forall. intros i Hi. apply F_in in Hi. tauto. Qed.
    Lemma unfixed_U : unfixedOf n F = U.
    Proof.
      unfold unfixedOf, U. apply filter_ext_in. intros i Hi. apply in_seq in Hi. destruct (isfree s i) eqn:E.
      - apply negb_true_iff. destruct (existsb (Nat.eqb i) F) eqn:E'; auto. apply existsb_exists in E'. destruct E' as (j & Hj & Ej). apply Nat.eqb_eq in Ej. subst j.
        apply F_in in Hj. apply isfree_iff in E. tauto.
      - apply negb_false_iff. apply existsb_exists. exists i. rewrite Nat.eqb_refl. split; auto. apply F_in. rewrite <- isfree_iff, E. split; [lia|discriminate].
    Qed.
    Lemma F_sides : In (map s F) (@sides R R_num (length F)).
    Proof.
      rewrite <- (map_length s F). apply in_sides. apply Forall_forall. intros v Hv. apply in_map_iff in Hv. destruct Hv as (i & <- & Hi). apply F_in in Hi.
      eapply edge_dec; eauto; tauto.
    Qed.

    (** a kernel vector of the submatrix gives a direction in which the form is linear *)
    Lemma sing_face v : length v = length U -> (exists i, (i < length U)%nat /\ nth i v 0 <> 0) ->
      (forall i, (i < length U)%nat -> sumn (length U) (fun j => entry (@submat R R_num (ndA M) U U) i j * nth j v 0) = 0) ->
      exists w, (forall i, (i < n)%nat -> ~ free s i -> w i = 0) /\ (exists i, (i < n)%nat /\ w i <> 0) /\ (forall i, (i < n)%nat -> free s i -> mulv n (HN M) w i = 0).
    Proof.
      intros Hl (a & Ha & Hna) Hk. set (w := assign U v (repeat 0 n)).
      assert (Hlt : Forall (fun k => k < length (repeat 0%R n))%nat U) by (rewrite repeat_length; apply U_lt).
      assert (Hw : forall b, (b < length U)%nat -> nth (nth b U 0%nat) w 0 = nth b v 0) by (intros; apply assign_key; auto; apply U_nd).
      exists (fun i => nth i w 0). split; [|split].
      - intros i Hi Hf. unfold w. rewrite assign_other; [apply nth_repeat|]. rewrite U_in. tauto.
      - exists (nth a U 0%nat). split; [apply (proj1 (Forall_forall _ _) U_lt), nth_In; auto|]. rewrite Hw; auto.
      - intros i Hi Hf. assert (HiU : In i U) by (apply U_in; auto). destruct (In_nth _ _ 0%nat HiU) as (b & Hb & Eb).
        unfold mulv. rewrite (sum_two (isfree s)). fold F U. rewrite (Rsum_map_ext (fun j => HN M i j * nth j w 0) (fun _ => 0) F).
        + assert (Z : forall l : list nat, Rsum (map (fun _ => 0) l) = 0) by (induction l; simpl; lra). rewrite Z, Rplus_0_l.
          rewrite <- sum_positions. eapply eq_trans; [|exact (Hk b Hb)]. apply sumn_ext. intros j Hj. cbn beta. rewrite sub_entry by auto. rewrite (Hw j Hj), Eb. auto.
        + intros j Hj. apply F_in in Hj. unfold w. rewrite assign_other; [rewrite nth_repeat; ring|]. rewrite U_in. tauto.
    Qed.

    (** the point built from a solution of the reduced system is stationary on the face *)
    Lemma stat_face X_ : length X_ = length U ->
      (forall i, (i < length U)%nat -> sumn (length U) (fun j => entry (@submat R R_num (ndA M) U U) i j * nth j X_ 0)
         = - BN M (nth i U 0%nat) - Rsum (map (fun j => HN M (nth i U 0%nat) j * s j) F)) ->
      let X := fun i => nth i (@scatter R R_num n F (map s F) U X_) 0 in
      (forall i, (i < n)%nat -> ~ free s i -> X i = s i) /\ (forall i, (i < n)%nat -> free s i -> BN M i + mulv n (HN M) X i = 0) /\
      (forall a, (a < length U)%nat -> X (nth a U 0%nat) = nth a X_ 0).
    Proof.
      intros Hl Hk X.
      assert (HltF : Forall (fun k => k < length (repeat 0%R n))%nat F) by (rewrite repeat_length; apply F_lt).
      assert (HltU : Forall (fun k => k < length (assign F (map s F) (repeat 0%R n)))%nat U) by (rewrite assign_len, repeat_length; apply U_lt).
      assert (HXU : forall a, (a < length U)%nat -> X (nth a U 0%nat) = nth a X_ 0).
      { intros a Ha. unfold X. rewrite scatter_assign. apply assign_key; auto. apply U_nd. }
      assert (HXF : forall i, (i < n)%nat -> ~ free s i -> X i = s i).
      { intros i Hi Hf. unfold X. rewrite scatter_assign, assign_other by (rewrite U_in; tauto).
        assert (HiF : In i F) by (apply F_in; auto). destruct (In_nth _ _ 0%nat HiF) as (b & Hb & Eb). rewrite <- Eb. rewrite assign_key; auto; [|apply F_nd|apply map_length].
        rewrite nth_indep with (d' := s 0%nat) by (rewrite map_length; auto). rewrite map_nth. auto. }
      split; [exact HXF|]. split; [|exact HXU]. intros i Hi Hf.
      assert (HiU : In i U) by (apply U_in; auto). destruct (In_nth _ _ 0%nat HiU) as (b & Hb & Eb).
      specialize (Hk b Hb). rewrite Eb in Hk. unfold mulv. rewrite (sum_two (isfree s)). fold F U.
      rewrite (Rsum_map_ext (fun j => HN M i j * X j) (fun j => HN M i j * s j) F) by (intros j Hj; apply F_in in Hj; rewrite HXF; tauto).
      rewrite <- (sum_positions (fun j => HN M i j * X j)).
      rewrite (sumn_ext _ (fun a => HN M i (nth a U 0%nat) * X (nth a U 0%nat)) (fun j => entry (@submat R R_num (ndA M) U U) b j * nth j X_ 0)).
      - rewrite Hk. ring.
      - intros a Ha. rewrite sub_entry by auto. rewrite HXU, Eb by auto. auto.
    Qed.
    Lemma Forall_inside X_ (X : vec) : length X_ = length U -> (forall a, (a < length U)%nat -> X (nth a U 0%nat) = nth a X_ 0) ->
      (forall i, (i < n)%nat -> free s i -> free X i) -> Forall (fun v => -1 < v < 1) X_.
    Proof.
      intros Hl HXU Hf. apply Forall_forall. intros v Hv. destruct (In_nth _ _ 0 Hv) as (a & Ha & <-). rewrite Hl in Ha. rewrite <- HXU by auto.
      assert (Hin : In (nth a U 0%nat) U) by (apply nth_In; auto). apply U_in in Hin. apply Hf; tauto.
    Qed.

    Lemma indef_face (L : list nat) (f : nat -> R) : (forall i, In i L -> In i U) -> (forall i, In i L -> HN M i i < 0 <-> f i < 0) -> (forall i, In i L -> 0 < HN M i i <-> 0 < f i) ->
      @signChange R R_num (map f L) = true ->
      exists i j, (i < n)%nat /\ (j < n)%nat /\ free s i /\ free s j /\ HN M i i < 0 /\ 0 < HN M j j.
    Proof.
      intros HL H1 H2 Hsc. destruct (signChange_true _ Hsc) as (a & b & Ha & Hb & Hna & Hpb).
      apply in_map_iff in Ha. destruct Ha as (i & <- & Hi). apply in_map_iff in Hb. destruct Hb as (j & <- & Hj).
      pose proof (proj1 (U_in i) (HL i Hi)) as [? ?]. pose proof (proj1 (U_in j) (HL j Hj)) as [? ?].
      exists i, j. repeat split; auto; try apply H0; try apply H4; try apply H1; try apply H2; auto.
    Qed.

    Theorem facesN : faceOK n (BN M) (HN M) candN (free s) s.
    Proof.
      destruct (Nat.eq_dec (length F) n) as [HFn|HFn].
      { (* corner *)
        assert (Hnof : forall i, (i < n)%nat -> ~ free s i).
        { intros i Hi Hf. assert (Hlt : (length F < length (seq 0 n))%nat).
          { unfold F. replace (seq 0 n) with (filter (fun _ : nat => true) (seq 0 n)) at 2 by (apply filter_all, forallb_forall; auto). apply filter_len_lt; auto. exists i. split; [apply in_seq; lia|]. split; auto. apply negb_false_iff, isfree_iff; auto. }
          rewrite seq_length in Hlt. lia. }
        right; right. exists s. split; [auto|]. split; [intros i Hi Hf; exfalso; eapply Hnof; eauto|].
        intros _. exists (map s (seq 0 n)). split; [|intros i Hi; rewrite nth_map_seq; auto].
        unfold ndPoints. apply in_app_iff. left. fold n. rewrite <- (seq_length n 0) at 2. rewrite <- (map_length s (seq 0 n)). apply in_sides.
        apply Forall_forall. intros v Hv. apply in_map_iff in Hv. destruct Hv as (i & <- & Hi). apply in_seq in Hi. eapply edge_dec; eauto; [lia|apply Hnof; lia]. }
      assert (HFU : (length F + length U = n)%nat).
      { unfold F, U. clear. rewrite <- (seq_length n 0) at 3. induction (seq 0 n) as [|a l IH]; simpl; auto. destruct (isfree s a); simpl; lia. }
      destruct (Nat.eq_dec (length F) 0) as [HF0|HF0].
      - (* interior *)
        assert (HFe : F = []) by (destruct F; [auto|discriminate]).
        assert (Hall : forall i, (i < n)%nat -> free s i).
        { intros i Hi. destruct (free_dec s i) as [|Hf]; auto. assert (In i F) by (apply F_in; auto). rewrite HFe in *. contradiction. }
        assert (HUe : U = seq 0 n) by (unfold U; apply filter_all; apply forallb_forall; intros i Hi; apply in_seq in Hi; apply isfree_iff, Hall; lia).
        assert (HAe : @submat R R_num (ndA M) U U = ndA M).
        { rewrite HUe. unfold submat. apply list_eq_nth with []; [unfold ndA; rewrite !map_length; auto|].
          rewrite map_length, seq_length. intros i Hi. rewrite nth_map_seq by auto. unfold ndA at 2. fold n. rewrite nth_map_seq by auto.
          apply map_ext_in. intros j Hj. apply in_seq in Hj. unfold mij, ndA. fold n. rewrite nth_map_seq, nth_map_seq by lia. reflexivity. }
        assert (Hn1 : (1 <= n <= n)%nat) by lia. assert (HUl : length U = n) by lia.
        pose proof (sub_sym U U_lt) as Hsym. rewrite HUl in Hsym. destruct (Hor n _ Hn1 Hsym) as [Hr0 Hr1].
        destruct (@signChange R R_num (ndP M)) eqn:Esc; [right; left|destruct (rank_full (ndA M)) eqn:Er; [right; right|left]].
        + apply (indef_face (seq 0 n) (fun i => nth i (@ndP R R_num M) 0)).
          * rewrite HUe. auto.
          * intros i Hi. apply in_seq in Hi. rewrite HN_diag by lia. lra.
          * intros i Hi. apply in_seq in Hi. rewrite HN_diag by lia. lra.
          * rewrite <- Esc. f_equal. unfold ndP at 2. fold n. apply map_ext_in. intros i Hi. apply in_seq in Hi. apply PN_nth. unfold n in *; lia.
        + rewrite HAe in Hr1. set (b := map (fun b => Ropp b) (@ndB R R_num M)).
          assert (Hlb : length b = n) by (unfold b, ndB; rewrite !map_length, seq_length; auto).
          destruct (Hr1 Er b Hlb) as [HlX HX].
          destruct (stat_face (solve (ndA M) b)) as (S1 & S2 & S3).
          * lia.
          * intros i Hi. rewrite HUl in Hi |- *. rewrite HAe, HFe, HUe, HX by auto. rewrite seq_nth by auto. simpl. unfold b, BN.
            rewrite nth_indep with (d' := Ropp 0) by (fold b; lia). rewrite map_nth. ring.
          * eexists. split; [exact S1|]. split; [exact S2|]. intros Hins.
            exists (solve (ndA M) b). split.
            -- unfold ndPoints. rewrite !in_app_iff. right; right. unfold ndInterior. rewrite Esc, Er. rnum. fold b.
               rewrite insideC_free; [left; auto|]. apply (Forall_inside _ (fun i => nth i (@scatter R R_num n F (map s F) U (solve (ndA M) b)) 0)); [lia|exact S3|exact Hins].
            -- intros i Hi. specialize (S3 i ltac:(lia)). assert (Ei : nth i U 0%nat = i) by (rewrite HUe, seq_nth by auto; auto). rewrite Ei in S3. exact S3.
        + rewrite HAe in Hr0. destruct (Hr0 Er) as (v & Hv1 & Hv2 & Hv3). apply (sing_face v); [lia|rewrite HUl; auto|].
          rewrite HUl, HAe. auto.
      - (* proper face *)
        assert (Hm : (1 <= length U <= n)%nat) by lia.
        destruct (Hor (length U) _ Hm (sub_sym U U_lt)) as [Hr0 Hr1].
        destruct (@signChange R R_num (map (fun i => mij (ndA M) i i) U)) eqn:Esc; [right; left|destruct (rank_full (submat (ndA M) U U)) eqn:Er; [right; right|left]].
        + apply (indef_face U (fun i => HN M i i)); try (intros; tauto).
        + set (b := map (fun i => - nth i (ndB M) 0 - @nsum R R_num (map (fun p => mij (ndA M) i (fst p) * snd p) (combine F (map s F)))) U).
          assert (Hlb : length b = length U) by (unfold b; rewrite map_length; auto).
          destruct (Hr1 eq_refl b Hlb) as [HlX HX].
          destruct (stat_face (solve (submat (ndA M) U U) b)) as (S1 & S2 & S3); auto.
          * intros i Hi. rewrite HX by auto. unfold b. rewrite nth_indep with (d' := (fun i => - nth i (ndB M) 0 - @nsum R R_num (map (fun p => mij (ndA M) i (fst p) * snd p) (combine F (map s F)))) 0%nat) by (rewrite map_length; auto).
            rewrite (map_nth (fun i => - nth i (ndB M) 0 - @nsum R R_num (map (fun p => mij (ndA M) i (fst p) * snd p) (combine F (map s F))))).
            rewrite nsum_R. unfold BN. f_equal. change (fold_right Rplus 0) with Rsum. f_equal. generalize (nth i U 0%nat). intros k. clear. induction F as [|f F' IHF]; simpl; auto. f_equal. apply IHF.
          * eexists. split; [exact S1|]. split; [exact S2|]. intros Hins.
            eexists. split; [|intros i Hi; reflexivity].
            unfold ndPoints. rewrite !in_app_iff. right; left. apply in_flat_map. exists F. split.
            -- apply in_fixed. split; [apply increasing_filter|]. split; [apply F_lt|]. fold n. lia.
            -- unfold ndFace. fold n. rewrite unfixed_U, Esc, Er. apply in_flat_map. exists (map s F). split; [apply F_sides|].
               cbn [nopp nsub nmul n0 R_num]. fold b. rewrite insideC_free; [left; auto|]. apply (Forall_inside _ (fun i => nth i (@scatter R R_num n F (map s F) U (solve (submat (ndA M) U U) b)) 0)); [auto|exact S3|exact Hins].
        + destruct (Hr0 eq_refl) as (v & Hv1 & Hv2 & Hv3). apply (sing_face v); auto.
    Qed.
  End OneFace.

  Theorem quadN_sound tol (g : list R -> R) : wf M -> @quadratic_check_nd R R_num rank_full solve M tol = true ->
    (forall x, in_cube n x -> Rabs (g x - cheb_eval M x) < tol) -> forall x, in_cube n x -> g x <> 0.
  Proof.
    intros Hwf Hq Hg x Hx. unfold quadratic_check_nd in Hq. pose proof Hx as [Hl HxF].
    assert (HB : Rabs (cheb_eval M x - quadf n (kN M) (BN M) (HN M) (fun i => nth i x 0)) <= sumabs M - Rsum (map (fun i => Rabs (@pget R R_num M i)) (quadIdx n))).
    { unfold n. rewrite <- (quadIdx_sum M x Hl). apply partial_bound; auto; [apply NoDup_quadIdx|]. intros i Hi. apply in_quadIdx in Hi. tauto. }
    eapply quad_nonzero; [exact HB|apply (ndOther_eq M tol Hwf)|apply Hg; auto|].
    assert (Hcube : cubev n (fun i => nth i x 0)) by (intros i Hi; apply Forall_nth; auto; lia).
    destruct (extrema n (kN M) (BN M) (HN M) candN (HN_sym M) facesN _ Hcube) as [(y & (py & Hpy & Ey) & Hle) (z & (pz & Hpz & Ez) & Hge)].
    rewrite (quadf_ext n _ _ _ y _ Ey) in Hle. rewrite (quadf_ext n _ _ _ z _ Ez) in Hge. unfold n in Hle, Hge |- *. rewrite <- !ndEval_quadf in Hle, Hge. rewrite <- ndEval_quadf.
    apply scan_true in Hq; [|reflexivity]. destruct Hq as [[_ Hall]|[_ Hall]].
    - left. eapply Rle_trans; [|exact Hle]. apply Hall, in_map. auto.
    - right. eapply Rle_trans; [exact Hge|]. apply Hall, in_map. auto.
  Qed.
End Faces.
