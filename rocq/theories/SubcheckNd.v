(** * The n-D sub-interval check on boxes whose sides are all the same interval *)
From Coq Require Import List Arith Bool ZArith Reals Lra Lia Sorted.
From Verif Require Import Num RSum Cheb Tensor PolySpec TransformModel TransformChebProofs PartProofs IntervalProofs LinearProofs.
From Verif Require Import QuadModel QuadDescent QuadProofs Quad3Proofs QuadNdProofs QuadNdFaces SubcheckModel SubcheckBox SubcheckQuad.
Import ListNotations.
Local Open Scope R_scope.

Lemma filter_length_le' {A} (p : A -> bool) l : (length (filter p l) <= length l)%nat.
Proof. induction l; simpl; auto. destruct (p a); simpl; lia. Qed.
Lemma in_cornersFrom (b : @sbox R) l : forall i, (forall k, (k < length l)%nat -> nth k l 0 = lo b (i + k) \/ nth k l 0 = hi b (i + k)) ->
  In l (@cornersFrom R R_num b i (length l)).
Proof.
  induction l as [|v l IH]; intros i H; [left; auto|]. cbn [length cornersFrom]. apply in_flat_map. exists v. split.
  - specialize (H 0%nat ltac:(simpl; lia)). rewrite Nat.add_0_r in H. simpl in *. intuition.
  - apply in_map. apply IH. intros k Hk. specialize (H (S k) ltac:(simpl; lia)). rewrite Nat.add_succ_r in H. exact H.
Qed.
Lemma in_cornersOf (b : @sbox R) l : (forall k, (k < length l)%nat -> nth k l 0 = lo b k \/ nth k l 0 = hi b k) ->
  In l (@cornersOf R R_num b (length l)).
Proof. intros H. apply in_cornersFrom. exact H. Qed.

Section Faces.
  Variable M : tensor R.
  Variable rank_full : list (list R) -> bool.
  Variable solve : list (list R) -> list R -> list R.
  Variable bx : @sbox R.
  Let n := ndim M.
  Hypothesis Hor : sym_solver_ok n rank_full solve.
  Hypothesis Hcube : forall i, (i < n)%nat -> lo bx i = lo bx 0 /\ hi bx i = hi bx 0.
  Definition candNB (X : vec) : Prop := exists pt, In pt (@subPoints R R_num rank_full solve M bx) /\ forall i, (i < n)%nat -> X i = nth i pt 0.

  Section OneFace.
    Variable s : vec.
    Hypothesis Hs : boxv (lo bx) (hi bx) n s.
    Let F := filter (fun i => negb (isfreeB (lo bx) (hi bx) s i)) (seq 0 n).
    Let U := filter (isfreeB (lo bx) (hi bx) s) (seq 0 n).
    Lemma U_in i : In i U <-> (i < n)%nat /\ freeB (lo bx) (hi bx) s i.
    Proof. unfold U. rewrite filter_In, in_seq, isfree_iffB. split; intros []; split; auto; lia. Qed.
    Lemma F_in i : In i F <-> (i < n)%nat /\ ~ freeB (lo bx) (hi bx) s i.
    Proof.
      unfold F. rewrite filter_In, in_seq, <- isfree_iffB, negb_true_iff. split; intros [H1 H2]; split; try lia.
      - rewrite H2. discriminate.
      - destruct (isfreeB (lo bx) (hi bx) s i); congruence.
    Qed.
    Lemma U_nd : NoDup U. Proof. apply NoDup_filter, seq_NoDup. Qed.
    Lemma F_nd : NoDup F. Proof. apply NoDup_filter, seq_NoDup. Qed.
    Lemma U_lt : Forall (fun k => k < n)%nat U.
    Proof. apply Forall_forall. intros i Hi. apply U_in in Hi. tauto. Qed.
    Lemma F_lt : Forall (fun k => k < n)%nat F.
    Proof. apply Forall_forall. intros i Hi. apply F_in in Hi. tauto. Qed.
    Lemma unfixed_U : unfixedOf n F = U.
    Proof.
      unfold unfixedOf, U. apply filter_ext_in. intros i Hi. apply in_seq in Hi. destruct (isfreeB (lo bx) (hi bx) s i) eqn:E.
      - apply negb_true_iff. destruct (existsb (Nat.eqb i) F) eqn:E'; auto. apply existsb_exists in E'. destruct E' as (j & Hj & Ej). apply Nat.eqb_eq in Ej. subst j.
        apply F_in in Hj. apply isfree_iffB in E. tauto.
      - apply negb_false_iff. apply existsb_exists. exists i. rewrite Nat.eqb_refl. split; auto. apply F_in. rewrite <- isfree_iffB, E. split; [lia|discriminate].
    Qed.
    Lemma F_sides : In (map s F) (@cornersOf R R_num bx (length F)).
    Proof.
      rewrite <- (map_length s F). apply in_cornersOf. rewrite map_length. intros i Hi.
      rewrite nth_indep with (d' := s 0%nat) by (rewrite map_length; auto). rewrite map_nth.
      assert (Hin : In (nth i F 0%nat) F) by (apply nth_In; auto). apply F_in in Hin. destruct Hin as [Hlt Hf].
      assert (Hi' : (i < n)%nat). { eapply Nat.lt_le_trans; [exact Hi|]. unfold F. rewrite <- (seq_length n 0) at 2. apply filter_length_le'. }
      destruct (Hcube _ Hlt) as [E1 E2]. destruct (Hcube _ Hi') as [E3 E4]. rewrite E3, E4, <- E1, <- E2.
      eapply edge_decB; eauto.
    Qed.

    (** a kernel vector of the submatrix gives a direction in which the form is linear *)
    Lemma sing_face v : length v = length U -> (exists i, (i < length U)%nat /\ nth i v 0 <> 0) ->
      (forall i, (i < length U)%nat -> sumn (length U) (fun j => entry (@submat R R_num (ndA M) U U) i j * nth j v 0) = 0) ->
      exists w, (forall i, (i < n)%nat -> ~ freeB (lo bx) (hi bx) s i -> w i = 0) /\ (exists i, (i < n)%nat /\ w i <> 0) /\ (forall i, (i < n)%nat -> freeB (lo bx) (hi bx) s i -> mulv n (HN M) w i = 0).
    Proof.
      intros Hl (a & Ha & Hna) Hk. set (w := assign U v (repeat 0 n)).
      assert (Hlt : Forall (fun k => k < length (repeat 0%R n))%nat U) by (rewrite repeat_length; apply U_lt).
      assert (Hw : forall b, (b < length U)%nat -> nth (nth b U 0%nat) w 0 = nth b v 0) by (intros; apply assign_key; auto; apply U_nd).
      exists (fun i => nth i w 0). split; [|split].
      - intros i Hi Hf. unfold w. rewrite assign_other; [apply nth_repeat|]. rewrite U_in. tauto.
      - exists (nth a U 0%nat). split; [apply (proj1 (Forall_forall _ _) U_lt), nth_In; auto|]. rewrite Hw; auto.
      - intros i Hi Hf. assert (HiU : In i U) by (apply U_in; auto). destruct (In_nth _ _ 0%nat HiU) as (b & Hb & Eb).
        unfold mulv. rewrite (sum_two (isfreeB (lo bx) (hi bx) s)). fold F U. rewrite (Rsum_map_ext (fun j => HN M i j * nth j w 0) (fun _ => 0) F).
        + assert (Z : forall l : list nat, Rsum (map (fun _ => 0) l) = 0) by (induction l; simpl; lra). rewrite Z, Rplus_0_l.
          rewrite <- sum_positions. eapply eq_trans; [|exact (Hk b Hb)]. apply sumn_ext. intros j Hj. cbn beta. rewrite sub_entry by auto. rewrite (Hw j Hj), Eb. auto.
        + intros j Hj. apply F_in in Hj. unfold w. rewrite assign_other; [rewrite nth_repeat; ring|]. rewrite U_in. tauto.
    Qed.

    (** the point built from a solution of the reduced system is stationary on the face *)
    Lemma stat_face X_ : length X_ = length U ->
      (forall i, (i < length U)%nat -> sumn (length U) (fun j => entry (@submat R R_num (ndA M) U U) i j * nth j X_ 0)
         = - BN M (nth i U 0%nat) - Rsum (map (fun j => HN M (nth i U 0%nat) j * s j) F)) ->
      let X := fun i => nth i (@scatter R R_num n F (map s F) U X_) 0 in
      (forall i, (i < n)%nat -> ~ freeB (lo bx) (hi bx) s i -> X i = s i) /\ (forall i, (i < n)%nat -> freeB (lo bx) (hi bx) s i -> BN M i + mulv n (HN M) X i = 0) /\
      (forall a, (a < length U)%nat -> X (nth a U 0%nat) = nth a X_ 0).
    Proof.
      intros Hl Hk X.
      assert (HltF : Forall (fun k => k < length (repeat 0%R n))%nat F) by (rewrite repeat_length; apply F_lt).
      assert (HltU : Forall (fun k => k < length (assign F (map s F) (repeat 0%R n)))%nat U) by (rewrite assign_len, repeat_length; apply U_lt).
      assert (HXU : forall a, (a < length U)%nat -> X (nth a U 0%nat) = nth a X_ 0).
      { intros a Ha. unfold X. rewrite scatter_assign. apply assign_key; auto. apply U_nd. }
      assert (HXF : forall i, (i < n)%nat -> ~ freeB (lo bx) (hi bx) s i -> X i = s i).
      { intros i Hi Hf. unfold X. rewrite scatter_assign, assign_other by (rewrite U_in; tauto).
        assert (HiF : In i F) by (apply F_in; auto). destruct (In_nth _ _ 0%nat HiF) as (b & Hb & Eb). rewrite <- Eb. rewrite assign_key; auto; [|apply F_nd|apply map_length].
        rewrite nth_indep with (d' := s 0%nat) by (rewrite map_length; auto). rewrite map_nth. auto. }
      split; [exact HXF|]. split; [|exact HXU]. intros i Hi Hf.
      assert (HiU : In i U) by (apply U_in; auto). destruct (In_nth _ _ 0%nat HiU) as (b & Hb & Eb).
      specialize (Hk b Hb). rewrite Eb in Hk. unfold mulv. rewrite (sum_two (isfreeB (lo bx) (hi bx) s)). fold F U.
      rewrite (Rsum_map_ext (fun j => HN M i j * X j) (fun j => HN M i j * s j) F) by (intros j Hj; apply F_in in Hj; rewrite HXF; tauto).
      rewrite <- (sum_positions (fun j => HN M i j * X j)).
      rewrite (sumn_ext _ (fun a => HN M i (nth a U 0%nat) * X (nth a U 0%nat)) (fun j => entry (@submat R R_num (ndA M) U U) b j * nth j X_ 0)).
      - rewrite Hk. ring.
      - intros a Ha. rewrite sub_entry by auto. rewrite HXU, Eb by auto. auto.
    Qed.
    Lemma Forall_inside X_ (X : vec) : length X_ = length U -> (forall a, (a < length U)%nat -> X (nth a U 0%nat) = nth a X_ 0) ->
      (forall i, (i < n)%nat -> freeB (lo bx) (hi bx) s i -> freeB (lo bx) (hi bx) X i) -> insideOf bx U X_ = true.
    Proof.
      intros Hl HXU Hf. unfold insideOf. apply forallb_forall. intros (i, v) Hp. cbn [fst snd].
      destruct (In_nth _ _ (0%nat, 0) Hp) as (a & Ha & E). rewrite combine_length, Hl, Nat.min_id in Ha. rewrite combine_nth in E by auto. injection E as E1 E2. subst v i.
      rewrite <- HXU by auto. assert (Hin : In (nth a U 0%nat) U) by (apply nth_In; auto). apply U_in in Hin. destruct (Hf _ (proj1 Hin) (proj2 Hin)).
      rnum. apply andb_true_iff. rewrite !Rleb_true. lra.
    Qed.

    Lemma indef_face (L : list nat) (f : nat -> R) : (forall i, In i L -> In i U) -> (forall i, In i L -> HN M i i < 0 <-> f i < 0) -> (forall i, In i L -> 0 < HN M i i <-> 0 < f i) ->
      @signChange R R_num (map f L) = true ->
      exists i j, (i < n)%nat /\ (j < n)%nat /\ freeB (lo bx) (hi bx) s i /\ freeB (lo bx) (hi bx) s j /\ HN M i i < 0 /\ 0 < HN M j j.
    Proof.
      intros HL H1 H2 Hsc. destruct (signChange_true _ Hsc) as (a & b & Ha & Hb & Hna & Hpb).
      apply in_map_iff in Ha. destruct Ha as (i & <- & Hi). apply in_map_iff in Hb. destruct Hb as (j & <- & Hj).
      pose proof (proj1 (U_in i) (HL i Hi)) as [? ?]. pose proof (proj1 (U_in j) (HL j Hj)) as [? ?].
      exists i, j. repeat split; auto; try apply H0; try apply H4; try apply H1; try apply H2; auto.
    Qed.

    Theorem facesNB : faceOKB (lo bx) (hi bx) n (BN M) (HN M) candNB (freeB (lo bx) (hi bx) s) s.
    Proof.
      destruct (Nat.eq_dec (length F) n) as [HFn|HFn].
      { (* corner *)
        assert (Hnof : forall i, (i < n)%nat -> ~ freeB (lo bx) (hi bx) s i).
        { intros i Hi Hf. assert (Hlt : (length F < length (seq 0 n))%nat).
          { unfold F. replace (seq 0 n) with (filter (fun _ : nat => true) (seq 0 n)) at 2 by (apply filter_all, forallb_forall; auto). apply filter_len_lt; auto. exists i. split; [apply in_seq; lia|]. split; auto. apply negb_false_iff, isfree_iffB; auto. }
          rewrite seq_length in Hlt. lia. }
        right; right. exists s. split; [auto|]. split; [intros i Hi Hf; exfalso; eapply Hnof; eauto|].
        intros _. exists (map s (seq 0 n)). split; [|intros i Hi; rewrite nth_map_seq; auto].
        unfold subPoints. apply in_app_iff. left. fold n. rewrite <- (seq_length n 0) at 2. rewrite <- (map_length s (seq 0 n)). apply in_cornersOf.
        rewrite map_length, seq_length. intros i Hi. rewrite nth_map_seq by auto. eapply edge_decB; eauto. }
      assert (HFU : (length F + length U = n)%nat).
      { unfold F, U. clear. rewrite <- (seq_length n 0) at 3. induction (seq 0 n) as [|a l IH]; simpl; auto. destruct (isfreeB (lo bx) (hi bx) s a); simpl; lia. }
      destruct (Nat.eq_dec (length F) 0) as [HF0|HF0].
      - (* interior *)
        assert (HFe : F = []) by (destruct F; [auto|discriminate]).
        assert (Hall : forall i, (i < n)%nat -> freeB (lo bx) (hi bx) s i).
        { intros i Hi. destruct (free_decB (lo bx) (hi bx) s i) as [|Hf]; auto. assert (In i F) by (apply F_in; auto). rewrite HFe in *. contradiction. }
        assert (HUe : U = seq 0 n) by (unfold U; apply filter_all; apply forallb_forall; intros i Hi; apply in_seq in Hi; apply isfree_iffB, Hall; lia).
        assert (HAe : @submat R R_num (ndA M) U U = ndA M).
        { rewrite HUe. unfold submat. apply list_eq_nth with []; [unfold ndA; rewrite !map_length; auto|].
          rewrite map_length, seq_length. intros i Hi. rewrite nth_map_seq by auto. unfold ndA at 2. fold n. rewrite nth_map_seq by auto.
          apply map_ext_in. intros j Hj. apply in_seq in Hj. unfold mij, ndA. fold n. rewrite nth_map_seq, nth_map_seq by lia. reflexivity. }
        assert (Hn1 : (1 <= n <= n)%nat) by lia. assert (HUl : length U = n) by lia.
        pose proof (sub_sym M U U_lt) as Hsym. rewrite HUl in Hsym. destruct (Hor n _ Hn1 Hsym) as [Hr0 Hr1].
        destruct (@signChange R R_num (ndP M)) eqn:Esc; [right; left|destruct (rank_full (ndA M)) eqn:Er; [right; right|left]].
        + apply (indef_face (seq 0 n) (fun i => nth i (@ndP R R_num M) 0)).
          * rewrite HUe. auto.
          * intros i Hi. apply in_seq in Hi. rewrite HN_diag by lia. lra.
          * intros i Hi. apply in_seq in Hi. rewrite HN_diag by lia. lra.
          * rewrite <- Esc. f_equal. unfold ndP at 2. fold n. apply map_ext_in. intros i Hi. apply in_seq in Hi. apply PN_nth. unfold n in *; lia.
        + rewrite HAe in Hr1. set (bv := map (fun b => Ropp b) (@ndB R R_num M)).
          assert (Hlb : length bv = n) by (unfold bv, ndB; rewrite !map_length, seq_length; auto).
          destruct (Hr1 Er bv Hlb) as [HlX HX].
          destruct (stat_face (solve (ndA M) bv)) as (S1 & S2 & S3).
          * lia.
          * intros i Hi. rewrite HUl in Hi |- *. rewrite HAe, HFe, HUe, HX by auto. rewrite seq_nth by auto. simpl. unfold bv, BN.
            rewrite nth_indep with (d' := Ropp 0) by (fold bv; lia). rewrite map_nth. ring.
          * eexists. split; [exact S1|]. split; [exact S2|]. intros Hins.
            exists (solve (ndA M) bv). split.
            -- unfold subPoints. rewrite !in_app_iff. right; right. unfold subInterior. rewrite Esc, Er. rnum. fold bv.
               fold n. rewrite <- HUe at 1. rewrite (Forall_inside (solve (ndA M) bv) (fun i => nth i (@scatter R R_num n F (map s F) U (solve (ndA M) bv)) 0)); [left; auto|lia|exact S3|exact Hins].
            -- intros i Hi. specialize (S3 i ltac:(lia)). assert (Ei : nth i U 0%nat = i) by (rewrite HUe, seq_nth by auto; auto). rewrite Ei in S3. exact S3.
        + rewrite HAe in Hr0. destruct (Hr0 Er) as (v & Hv1 & Hv2 & Hv3). apply (sing_face v); [lia|rewrite HUl; auto|].
          rewrite HUl, HAe. auto.
      - (* proper face *)
        assert (Hm : (1 <= length U <= n)%nat) by lia.
        destruct (Hor (length U) _ Hm (sub_sym M U U_lt)) as [Hr0 Hr1].
        destruct (@signChange R R_num (map (fun i => mij (ndA M) i i) U)) eqn:Esc; [right; left|destruct (rank_full (submat (ndA M) U U)) eqn:Er; [right; right|left]].
        + apply (indef_face U (fun i => HN M i i)); try (intros; tauto).
        + set (bv := map (fun i => - nth i (ndB M) 0 - @nsum R R_num (map (fun p => mij (ndA M) i (fst p) * snd p) (combine F (map s F)))) U).
          assert (Hlb : length bv = length U) by (unfold bv; rewrite map_length; auto).
          destruct (Hr1 eq_refl bv Hlb) as [HlX HX].
          destruct (stat_face (solve (submat (ndA M) U U) bv)) as (S1 & S2 & S3); auto.
          * intros i Hi. rewrite HX by auto. unfold bv. rewrite nth_indep with (d' := (fun i => - nth i (ndB M) 0 - @nsum R R_num (map (fun p => mij (ndA M) i (fst p) * snd p) (combine F (map s F)))) 0%nat) by (rewrite map_length; auto).
            rewrite (map_nth (fun i => - nth i (ndB M) 0 - @nsum R R_num (map (fun p => mij (ndA M) i (fst p) * snd p) (combine F (map s F))))).
            rewrite nsum_R. unfold BN. f_equal. change (fold_right Rplus 0) with Rsum. f_equal. generalize (nth i U 0%nat). intros k. clear. induction F as [|f F' IHF]; simpl; auto. f_equal. apply IHF.
          * eexists. split; [exact S1|]. split; [exact S2|]. intros Hins.
            eexists. split; [|intros i Hi; reflexivity].
            unfold subPoints. rewrite !in_app_iff. right; left. apply in_flat_map. exists F. split.
            -- apply in_fixed. split; [apply increasing_filter|]. split; [apply F_lt|]. fold n. lia.
            -- unfold subFace. fold n. rewrite unfixed_U, Esc, Er. apply in_flat_map. exists (map s F). split; [apply F_sides|].
               cbn [nopp nsub nmul n0 R_num]. fold bv. rewrite (Forall_inside (solve (submat (ndA M) U U) bv) (fun i => nth i (@scatter R R_num n F (map s F) U (solve (submat (ndA M) U U) bv)) 0)); [left; auto|auto|exact S3|exact Hins].
        + destruct (Hr0 eq_refl) as (v & Hv1 & Hv2 & Hv3). apply (sing_face v); auto.
    Qed.
  End OneFace.

End Faces.
