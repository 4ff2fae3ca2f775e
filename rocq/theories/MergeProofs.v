(** * Merging of touching intervals: termination (any arithmetic), containment (reals) *)
From Coq Require Import List Arith Bool Lia ZArith Reals Lra.
From Verif Require Import Num RSum Cheb Tensor PolySpec TransformModel TransformChebProofs IntervalModel IntervalProofs
  LinearModel QuadModel SolverModel SystemSpec OrderProofs SubdivProofs SubdivReal ZoomProofs.
Import ListNotations.

(** ** lists *)
Lemma listdel_length {A} (l : list A) i : i < length l -> length (listdel l i) = length l - 1.
Proof. intros H. unfold listdel. rewrite app_length, firstn_length, skipn_length. lia. Qed.
Lemma listdel_in {A} (l : list A) i x d : i < length l -> In x l -> x = nth i l d \/ In x (listdel l i).
Proof.
  intros Hi Hx. unfold listdel. rewrite <- (firstn_skipn i l) in Hx. apply in_app_iff in Hx. destruct Hx as [Hx|Hx]; [right; apply in_app_iff; auto|].
  assert (E : skipn i l = nth i l d :: skipn (S i) l).
  { clear Hx. revert i Hi. induction l; intros i Hi; cbn in Hi; [lia|]. destruct i; auto. cbn [skipn nth]. apply IHl. lia. }
  rewrite E in Hx. destruct Hx as [<-|Hx]; auto. right. apply in_app_iff. auto.
Qed.
Lemma listdel_incl {A} (l : list A) i x : In x (listdel l i) -> In x l.
Proof.
  unfold listdel. rewrite in_app_iff. intros [H|H]; rewrite <- (firstn_skipn i l) at 1; apply in_app_iff; [left; auto|].
  right. assert (E : forall (m : list A) j, In x (skipn (S j) m) -> In x (skipn j m)).
  { intros m. induction m; intros j Hj; [destruct j; auto|]. destruct j; [right; auto|]. cbn [skipn] in *. apply IHm. auto. }
  apply E. auto.
Qed.

(** ** termination *)
Section Term.
  Context {T : Type} {NT : Num T}.
  Definition phi (N L i1 i2 : nat) : nat := L * ((N + 1) * (N + 1)) + (N - i1) * (N + 1) + (N + 2 - i2).
  Lemma mergeLoop_fuel (orig : tint T) : forall k i1 i2 (l : list flagged) N, length l <= N -> i1 < i2 -> i2 <= N + 2 -> phi N (length l) i1 i2 < k ->
    exists l', mergeLoop k orig i1 i2 l = Ok l'.
  Proof.
    induction k as [|k IH]; intros i1 i2 l N Hl H12 H2 Hk; [lia|]. cbn [mergeLoop].
    destruct (Nat.ltb_spec i1 (length l)) as [L1|L1]; [|eauto].
    destruct (Nat.ltb_spec i2 (length l)) as [L2|L2].
    - destruct (overlapsWith _ _).
      + set (l2 := listdel (listdel l i2) i1 ++ _). assert (El : length l2 = length l - 1).
        { unfold l2. rewrite app_length, listdel_length by (rewrite listdel_length; lia). rewrite listdel_length by lia. cbn. lia. }
        apply (IH i1 (S i1) l2 N); try lia. rewrite El. unfold phi in *.
        assert (E : length l = S (length l - 1)) by lia. rewrite E in Hk. set (m := length l - 1) in *. cbn [Nat.mul] in Hk. nia.
      + apply (IH i1 (S i2) l N); try lia. unfold phi in *. lia.
    - apply (IH (S i1) (S (S i1)) l N); try lia. unfold phi in *.
      assert (E : N - i1 = S (N - S i1)) by lia. rewrite E in Hk. cbn [Nat.mul] in Hk. lia.
  Qed.
  Lemma mergeExterior_total (orig : tint T) ext : exists l, mergeExterior orig ext = Ok l.
  Proof.
    unfold mergeExterior. apply (mergeLoop_fuel orig _ 0 1 _ (length ext)); rewrite ?map_length; try lia. unfold phi, mergeFuel. nia.
  Qed.
End Term.

Local Open Scope R_scope.
(** ** boxes *)
(** [boxLe b c]: b lies inside c *)
Definition boxLe (b c : box R) : Prop := Forall2 (fun p q => fst q <= fst p /\ snd p <= snd q) b c.
Lemma boxLe_refl b : boxLe b b.
Proof. induction b; constructor; auto. lra. Qed.
Lemma boxLe_trans a b c : boxLe a b -> boxLe b c -> boxLe a c.
Proof.
  intros H1 H2. apply (Forall2_nth_iff _ _ _ (0,0) (0,0)) in H1. apply (Forall2_nth_iff _ _ _ (0,0) (0,0)) in H2. destruct H1 as [L1 H1], H2 as [L2 H2].
  apply (Forall2_nth_iff _ _ _ (0,0) (0,0)). split; [congruence|]. intros i Hi. specialize (H1 i Hi). specialize (H2 i ltac:(congruence)). lra.
Qed.
Lemma boxLe_in b c x : boxLe b c -> inBox b x -> inBox c x.
Proof.
  intros H1 H2. apply (Forall2_nth_iff _ _ _ (0,0) (0,0)) in H1. apply (Forall2_nth_iff _ _ _ 0 (0,0)) in H2. destruct H1 as [L1 H1], H2 as [L2 H2].
  apply (Forall2_nth_iff _ _ _ 0 (0,0)). split; [congruence|]. intros i Hi. specialize (H1 i ltac:(lia)). specialize (H2 i Hi). lra.
Qed.
Lemma hull_length a b : length a = length b -> length (@hull R R_num a b) = length a.
Proof. intros. unfold hull, minBounds, maxBounds. rewrite combine_length, !map_length, combine_length. lia. Qed.
Lemma hull_nth a b i : length a = length b -> (i < length a)%nat ->
  nth i (@hull R R_num a b) (0,0) = (Rmin (fst (nth i a (0,0))) (fst (nth i b (0,0))), Rmax (snd (nth i a (0,0))) (snd (nth i b (0,0)))).
Proof.
  intros H Hi. unfold hull, minBounds, maxBounds. rewrite nth_combine by (rewrite !map_length; auto).
  rewrite !(nth_map_combine _ _ _ _ (0,0) (0,0)) by lia. cbn [fst snd]. rewrite nmin_R, nmax_R. reflexivity.
Qed.
Lemma hull_le_l a b : length a = length b -> boxLe a (@hull R R_num a b).
Proof.
  intros H. apply (Forall2_nth_iff _ _ _ (0,0) (0,0)). rewrite hull_length by auto. split; auto. intros i Hi. rewrite hull_nth by auto. cbn. pose proof (Rmin_l (fst (nth i a (0,0))) (fst (nth i b (0,0)))). pose proof (Rmax_l (snd (nth i a (0,0))) (snd (nth i b (0,0)))). lra.
Qed.
Lemma hull_le_r a b : length a = length b -> boxLe b (@hull R R_num a b).
Proof.
  intros H. apply (Forall2_nth_iff _ _ _ (0,0) (0,0)). rewrite hull_length by auto. split; auto. intros i Hi. rewrite hull_nth by lia. cbn. pose proof (Rmin_r (fst (nth i a (0,0))) (fst (nth i b (0,0)))). pose proof (Rmax_r (snd (nth i a (0,0))) (snd (nth i b (0,0)))). lra.
Qed.
Lemma hull_lub a b c : length a = length b -> boxLe a c -> boxLe b c -> boxLe (@hull R R_num a b) c.
Proof.
  intros H H1 H2. apply (Forall2_nth_iff _ _ _ (0,0) (0,0)) in H1. apply (Forall2_nth_iff _ _ _ (0,0) (0,0)) in H2. destruct H1 as [L1 H1], H2 as [L2 H2].
  apply (Forall2_nth_iff _ _ _ (0,0) (0,0)). rewrite hull_length by auto. split; auto. intros i Hi. rewrite hull_nth by auto. cbn.
  specialize (H1 i Hi). specialize (H2 i ltac:(lia)). split; [apply Rmin_glb; lra|apply Rmax_lub; lra].
Qed.

(** ** the transforms that define the reported box *)
Definition bt (t : tint R) : list (box R) := if fin t then preT t else trs t.
Lemma bt_ok n t : tok n t -> trs_ok n (bt t).
Proof.
  intros H. unfold bt. destruct (fin t) eqn:E; [|apply tok_trs; auto]. destruct (tok_pre n t H E) as [suf Hs]. pose proof (tok_trs n t H) as Ht. rewrite Hs in Ht. apply Forall_app in Ht. apply Ht.
Qed.
Lemma cbox_final n t : tok n t -> @getIntervalForCombining R t = @finalBox R R_num (unitBox n) (bt t).
Proof. intros H. unfold getIntervalForCombining, bt. destruct (fin t) eqn:E; [apply tok_preI; auto|apply tok_ivl; auto]. Qed.
Lemma final_cbox n t : tok n t -> @getFinalInterval R R_num t = @getIntervalForCombining R t.
Proof. intros H. rewrite (cbox_final n) by auto. unfold getFinalInterval. rewrite (tok_top n t H). reflexivity. Qed.
Lemma final_boxLe n l m : trs_ok n l -> trs_ok n m -> boxLe (@finalBox R R_num (unitBox n) (l ++ m)) (@finalBox R R_num (unitBox n) l).
Proof.
  intros Hl Hm. apply (Forall2_nth_iff _ _ _ (0,0) (0,0)). rewrite !finalBox_length, unitBox_length. split; auto. intros i Hi.
  rewrite !finalBox_nth by (rewrite unitBox_length; auto). rewrite unitBox_nth by auto. cbn [fst snd]. rewrite thrA_app, thrB_app.
  pose proof (final_sub_ok n m Hm) as Hs. pose proof (sub_ok_nth n _ i Hs Hi) as B. rewrite finalBox_nth in B by (rewrite unitBox_length; auto). rewrite unitBox_nth in B by auto. cbn [fst snd] in B.
  pose proof (thrA_nonneg n l i Hl Hi). split; nra.
Qed.

(** ** combineIntervals *)
Section Comb.
  Variables (n : nat) (orig : tint R).
  Hypothesis Ho : okti n orig.
  Hypothesis Hof : fin orig = false.
  Lemma subRow_R nr o : fst o <= fst nr -> fst nr <= snd nr -> snd nr <= snd o ->
    let s := @subRow R R_num nr o nr o in
    (-1 <= fst s /\ fst s <= snd s /\ snd s <= 1) /\ @newRow R R_num s o = nr.
  Proof.
    destruct nr as [nA nB], o as [oA oB]. cbn [fst snd]. intros H1 H2 H3. unfold subRow. cbn [fst snd]. rnum. rewrite n2_R. change (Ropp 1) with (-1).
    assert (Hrow : forall a b, -1 <= a -> a <= b -> b <= 1 -> (oB - oA) / 2 * a + (oB + oA) / 2 = nA -> (oB - oA) / 2 * b + (oB + oA) / 2 = nB ->
       (-1 <= a /\ a <= b /\ b <= 1) /\ @newRow R R_num (a, b) (oA, oB) = (nA, nB)).
    { intros a b A1 A2 A3 E1 E2. split; [lra|]. rewrite newRow_R by (cbn; lra). cbn [fst snd]. f_equal; auto. }
    destruct (Reqb oB oA) eqn:E.
    - apply Reqb_true in E. assert (nA = oA) by lra. assert (nB = oA) by lra. subst.
      destruct (Reqb oA oA); apply Hrow; try lra.
    - apply Reqb_false in E. assert (Hw : 0 < oB - oA) by lra.
      set (lo := (2 * nA - oA - oB) / (oB - oA)). set (hi := (2 * nB - oA - oB) / (oB - oA)).
      assert (Elo : lo * (oB - oA) = 2 * nA - oA - oB) by (unfold lo; field; lra).
      assert (Ehi : hi * (oB - oA) = 2 * nB - oA - oB) by (unfold hi; field; lra).
      assert (Hlo : -1 <= lo) by (apply (Rmult_le_reg_r (oB - oA)); lra).
      assert (Hlh : lo <= hi) by (apply (Rmult_le_reg_r (oB - oA)); lra).
      assert (Hhi : hi <= 1) by (apply (Rmult_le_reg_r (oB - oA)); lra).
      assert (Clo : (if Reqb oA nA then -1 else lo) = lo).
      { destruct (Reqb oA nA) eqn:E1; auto. apply Reqb_true in E1. subst. apply (Rmult_eq_reg_r (oB - nA)); lra. }
      assert (Chi : (if Reqb oB nB then 1 else hi) = hi).
      { destruct (Reqb oB nB) eqn:E1; auto. apply Reqb_true in E1. subst. apply (Rmult_eq_reg_r (nB - oA)); lra. }
      rewrite Clo, Chi. apply Hrow; auto; lra.
  Qed.
  Lemma combine_ok t1 t2 : tok n t1 -> tok n t2 -> boxLe (@getIntervalForCombining R t1) (ivl orig) -> boxLe (@getIntervalForCombining R t2) (ivl orig) ->
    let c := @combineIntervals R R_num orig t1 t2 in
    okti n c /\ fin c = false /\ ivl c = @hull R R_num (@getIntervalForCombining R t1) (@getIntervalForCombining R t2) /\
    exists ab, trs c = trs orig ++ [ab] /\ tr_ok n ab.
  Proof.
    intros T1 T2 B1 B2. destruct Ho as [To Eo Fo]. unfold combineIntervals. cbv zeta.
    rewrite !(final_cbox n) by auto. assert (Ec : @getIntervalForCombining R orig = ivl orig) by (unfold getIntervalForCombining; rewrite Hof; auto). rewrite Ec.
    set (new := hull (getIntervalForCombining t1) (getIntervalForCombining t2)).
    assert (Hl1 : length (@getIntervalForCombining R t1) = n) by (rewrite (cbox_final n), finalBox_length, unitBox_length; auto).
    assert (Hl2 : length (@getIntervalForCombining R t2) = n) by (rewrite (cbox_final n), finalBox_length, unitBox_length; auto).
    pose proof (tok_ivl_length n orig To) as Hlo.
    assert (Hnl : length new = n) by (unfold new; rewrite hull_length; lia).
    assert (Hle : boxLe new (ivl orig)) by (apply hull_lub; auto; lia).
    assert (Hs1 : sub_ok n (@getIntervalForCombining R t1)) by (rewrite (cbox_final n) by auto; apply final_sub_ok, bt_ok; auto).
    assert (Hrows : forall i, (i < n)%nat -> fst (nth i (ivl orig) (0,0)) <= fst (nth i new (0,0)) /\ fst (nth i new (0,0)) <= snd (nth i new (0,0)) /\ snd (nth i new (0,0)) <= snd (nth i (ivl orig) (0,0))).
    { intros i Hi. apply (Forall2_nth_iff _ _ _ (0,0) (0,0)) in Hle. destruct Hle as [_ Hle]. specialize (Hle i ltac:(lia)).
      pose proof (sub_ok_nth n _ i Hs1 Hi) as (_ & S1 & _). unfold new in *. rewrite hull_nth in * by lia. cbn [fst snd] in *.
      pose proof (Rmin_l (fst (nth i (getIntervalForCombining t1) (0,0))) (fst (nth i (getIntervalForCombining t2) (0,0)))).
      pose proof (Rmax_l (snd (nth i (getIntervalForCombining t1) (0,0))) (snd (nth i (getIntervalForCombining t2) (0,0)))). lra. }
    set (sub := currSub new (ivl orig) new (ivl orig)).
    assert (Hsl : length sub = n) by (unfold sub, currSub; rewrite map_length, !combine_length; lia).
    assert (Hsn : forall i, (i < n)%nat -> nth i sub (0,0) = @subRow R R_num (nth i new (0,0)) (nth i (ivl orig) (0,0)) (nth i new (0,0)) (nth i (ivl orig) (0,0))).
    { intros i Hi. unfold sub, currSub. rewrite (nth_map_combine _ _ _ _ ((0,0),(0,0)) ((0,0),(0,0))) by (rewrite combine_length; lia). rewrite nth_combine by lia. reflexivity. }
    assert (Hsub : sub_ok n sub).
    { split; auto. apply (Forall_nth_iff _ _ (0,0)). rewrite Hsl. intros i Hi. rewrite Hsn by auto. destruct (Hrows i Hi) as (A & B & C). apply (subRow_R _ _ A B C). }
    assert (Hif : (if fin (copyT orig) then setTransforms (setInterval (copyT orig) (preI (copyT orig))) (preT (copyT orig)) else copyT orig) = copyT orig) by (cbn; rewrite Hof; auto).
    rewrite Hif. destruct (addTransform_sub n (copyT orig) sub Hsub) as [Heff Hx].
    pose proof (addTransform_tok n (copyT orig) sub (copy_tok n orig To) Hx (or_introl Hsub)) as Htok.
    rewrite (addTransform_eq _ _ Hx), Heff in *. set (ab := map alphaBeta sub) in *.
    assert (Hiv : map (fun p => newRow (fst p) (snd p)) (combine sub (ivl (copyT orig))) = new).
    { apply list_eq_nth with (0,0); [rewrite map_length, combine_length; cbn [copyT ivl]; lia|]. rewrite map_length, combine_length. cbn [copyT ivl]. intros i Hi.
      rewrite (nth_map_combine _ _ _ _ (0,0) (0,0)) by lia. cbn [fst snd]. rewrite Hsn by lia. destruct (Hrows i ltac:(lia)) as (A & B & C). apply (subRow_R _ _ A B C). }
    rewrite Hiv in *. split; [|split; [|split]].
    - constructor.
      + destruct Htok. constructor; cbn in *; auto.
      + cbn. auto.
      + intros _. cbn. rewrite Hof. auto.
    - cbn. auto.
    - reflexivity.
    - exists ab. split; [reflexivity|]. apply sub_ok_tr; auto.
  Qed.

  (** an element of the merge list: inside the parent; if flagged, one transform below the parent *)
  Record mrg (p : @flagged R) : Prop := {
    mg_tok : tok n (snd p);
    mg_in : boxLe (@getIntervalForCombining R (snd p)) (ivl orig);
    mg_new : fst p = true -> okti n (snd p) /\ fin (snd p) = false /\ exists ab, trs (snd p) = trs orig ++ [ab] /\ tr_ok n ab
  }.
  Lemma mergeLoop_ok : forall k i1 i2 (l l' : list flagged), (i1 < i2)%nat -> Forall mrg l -> @mergeLoop R R_num k orig i1 i2 l = Ok l' ->
    Forall mrg l' /\ (forall p, In p l' -> fst p = true \/ In p l) /\
    forall p, In p l -> exists p', In p' l' /\ boxLe (@getIntervalForCombining R (snd p)) (@getIntervalForCombining R (snd p')).
  Proof.
    induction k as [|k IH]; intros i1 i2 l l' H12 HF H; cbn [mergeLoop] in H; [discriminate|].
    destruct (Nat.ltb_spec i1 (length l)) as [L1|L1].
    2:{ inversion H; subst. split; auto. split; auto. intros p Hp. exists p. split; auto. apply boxLe_refl. }
    destruct (Nat.ltb_spec i2 (length l)) as [L2|L2].
    2:{ apply (IH (S i1) (S (S i1)) l l'); auto. }
    destruct (overlapsWith _ _); [|apply (IH i1 (S i2) l l'); auto; lia].
    set (p1 := nth i1 l (false, dint)) in *. set (p2 := nth i2 l (false, dint)) in *.
    assert (I1 : In p1 l) by (apply nth_In; auto). assert (I2 : In p2 l) by (apply nth_In; auto).
    rewrite Forall_forall in HF. destruct (HF p1 I1) as [T1 B1 _], (HF p2 I2) as [T2 B2 _].
    pose proof (combine_ok (snd p1) (snd p2) T1 T2 B1 B2) as (C1 & C2 & C3 & C4). set (c := combineIntervals orig (snd p1) (snd p2)) in *.
    assert (Ecb : @getIntervalForCombining R c = hull (getIntervalForCombining (snd p1)) (getIntervalForCombining (snd p2))) by (unfold getIntervalForCombining at 1; rewrite C2, C3; auto).
    assert (Hlen : length (@getIntervalForCombining R (snd p1)) = length (@getIntervalForCombining R (snd p2))).
    { rewrite !(cbox_final n) by auto. rewrite !finalBox_length. auto. }
    assert (Hc : mrg (true, c)).
    { constructor; cbn [fst snd]; [apply C1|rewrite Ecb; apply hull_lub; auto|auto]. }
    set (l2 := listdel (listdel l i2) i1 ++ [(true, c)]) in *.
    assert (HF2 : Forall mrg l2).
    { apply Forall_app. split; auto. apply Forall_forall. intros p Hp. apply HF. apply listdel_incl in Hp. apply listdel_incl in Hp. auto. }
    destruct (IH i1 (S i1) l2 l' ltac:(lia) HF2 H) as (R1 & R2 & R3). split; auto. split.
    - intros p Hp. destruct (R2 p Hp) as [E|E]; auto. unfold l2 in E. apply in_app_iff in E. destruct E as [E|[<-|[]]]; auto. right. apply listdel_incl in E. apply listdel_incl in E. auto.
    - intros p Hp. destruct (listdel_in l i2 p (false, dint) L2 Hp) as [->|Hp2].
      + destruct (R3 (true, c)) as (p' & Hp' & Hb); [apply in_app_iff; right; left; auto|]. exists p'. split; auto. eapply boxLe_trans; [|exact Hb]. cbn [snd]. rewrite Ecb. fold p2. apply hull_le_r; auto.
      + assert (L1' : (i1 < length (listdel l i2))%nat) by (rewrite listdel_length; lia).
        destruct (listdel_in _ i1 p (false, dint) L1' Hp2) as [E|Hp3].
        * assert (E1 : nth i1 (listdel l i2) (false, dint) = p1).
          { unfold listdel. rewrite app_nth1 by (rewrite firstn_length; lia). unfold p1. clear - H12 L2. revert i1 i2 H12 L2. induction l; intros i1 i2 H12 L2; cbn in L2; [lia|]. destruct i2; [lia|]. destruct i1; auto. cbn [firstn nth]. apply IHl; lia. }
          rewrite E1 in E. subst p. destruct (R3 (true, c)) as (p' & Hp' & Hb); [apply in_app_iff; right; left; auto|]. exists p'. split; auto. eapply boxLe_trans; [|exact Hb]. cbn [snd]. rewrite Ecb. apply hull_le_l; auto.
        * destruct (R3 p) as (p' & Hp' & Hb); [apply in_app_iff; left; auto|]. eauto.
  Qed.
  Lemma mergeExterior_ok ext l' : Forall (fun t => tok n t /\ boxLe (@getIntervalForCombining R t) (ivl orig)) ext ->
    @mergeExterior R R_num orig ext = Ok l' ->
    Forall mrg l' /\ (forall t, In (false, t) l' -> In t ext) /\
    forall t, In t ext -> exists p', In p' l' /\ boxLe (@getIntervalForCombining R t) (@getIntervalForCombining R (snd p')).
  Proof.
    intros HF H. unfold mergeExterior in H. apply mergeLoop_ok in H; [|lia|].
    - destruct H as (A & B & C). split; auto. split.
      + intros t Ht. destruct (B _ Ht) as [E|E]; [discriminate|]. apply in_map_iff in E. destruct E as (u & E & Hu). inversion E; subst. auto.
      + intros t Ht. destruct (C (false, t)) as (p' & Hp & Hb); [apply in_map_iff; eauto|]. eauto.
    - apply Forall_map. eapply Forall_impl; [|exact HF]. intros t [A B]. constructor; cbn; auto. discriminate.
  Qed.
End Comb.
