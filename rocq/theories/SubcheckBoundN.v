(** * Bounding intervals in n dimensions *)
From Coq Require Import List Arith Bool ZArith Reals Lra Lia.
From Verif Require Import Num RSum Cheb Tensor PolySpec TransformModel TransformChebProofs PartProofs IntervalProofs LinearProofs.
From Verif Require Import QuadModel QuadProofs QuadNdProofs QuadNdFaces SubcheckModel SubcheckProofs SubcheckBound.
Import ListNotations.
Local Open Scope R_scope.

(** What is asked of scipy.linalg.solve for n x n systems: what it returns solves the system, and it
    returns something only for matrices with trivial kernel. *)
Definition lasolve_ok (n : nat) (lasolve : list (list R) -> list R -> option (list R)) : Prop :=
  forall A b X, length A = n -> Forall (fun r => length r = n) A -> length b = n -> lasolve A b = Some X ->
    length X = n /\ (forall i, (i < n)%nat -> sumn n (fun j => entry A i j * nth j X 0) = nth i b 0) /\
    (forall v : nat -> R, (forall i, (i < n)%nat -> sumn n (fun j => entry A i j * v j) = 0) -> forall i, (i < n)%nat -> v i = 0).

Definition nearN (n : nat) (r : @linN R) (x : nat -> R) : Prop :=
  length (lt_ r) = n /\ Rabs (cn_ r + sumn n (fun j => nth j (lt_ r) 0 * x j)) <= er_ r.

Lemma NoDup_app_l {A} (l l' : list A) : NoDup (l ++ l') -> NoDup l.
Proof. induction l; simpl; intros H; [constructor|]. inversion H; subst. constructor; auto. intros Hin. apply H2. apply in_app_iff. auto. Qed.
Lemma zero_inrange s : Forall (fun k => (0 < k)%nat) s -> inrange s (repeat 0%nat (length s)).
Proof. intros H. unfold inrange. induction H; simpl; constructor; auto. Qed.
Lemma spot1_inrange s i : Forall (fun k => (1 < k)%nat) s -> inrange s (spot1 (length s) i 1).
Proof.
  intros H. unfold inrange, spot1. revert i. induction H; intros i; simpl; [destruct i; constructor|].
  destruct i; simpl; constructor; try lia; auto. clear -H0. induction H0; simpl; constructor; auto; lia.
Qed.
Lemma linNOf_near (M : tensor R) tol x : wf M -> hasLinear M = true -> in_cube (ndim M) x ->
  Rabs (0 - cheb_eval M x) <= tol -> nearN (ndim M) (linNOf (M, tol)) (fun i => nth i x 0).
Proof.
  intros Hwf Hh [Hl Hx] Hv. apply hasLinear_iff in Hh. set (n := ndim M) in *. unfold nearN, linNOf. fold n. cbn [lt_ cn_ er_].
  split; [rewrite map_length, seq_length; auto|].
  set (L := map (fun i => spot1 n i 1) (seq 0 n)). set (z := repeat 0%nat n).
  assert (Hr : forall i, In i (z :: L) -> length i = n /\ inrange (shp M) i).
  { intros i [<-|Hi].
    - split; [apply repeat_length|]. apply zero_inrange. apply Hwf.
    - apply in_map_iff in Hi. destruct Hi as (k & <- & _). split; [apply spot1_len|]. apply spot1_inrange. auto. }
  assert (Hnd : NoDup (z :: L)).
  { pose proof (NoDup_quadIdx n) as H. unfold quadIdx in H. rewrite app_assoc in H. apply NoDup_app_l in H. exact H. }
  pose proof (partial_bound M (z :: L) x Hnd (fun i Hi => proj1 (Hr i Hi)) Hx) as HB.
  cbn [map] in HB. change (Rsum (?a :: ?l)) with (a + Rsum l) in HB.
  assert (Hp : forall i, In i (z :: L) -> @pget R R_num M i = tget M i) by (intros i Hi; destruct (Hr i Hi); apply pget_in; auto).
  rewrite (Hp z (or_introl eq_refl)) in HB.
  assert (Eb : basis chebT z x = 1) by (unfold z; rewrite <- Hl; clear; induction x; simpl; auto; rewrite chebT_0, IHx; ring). rewrite Eb in HB.
  assert (E1 : Rsum (map (fun i => @pget R R_num M i * basis chebT i x) L) = sumn n (fun j => nth j (map (fun i => tget M (spot1 n i 1)) (seq 0 n)) 0 * nth j x 0)).
  { unfold L. rewrite map_map. rewrite Rsum_map_seq. apply sumn_ext. intros i Hi. rewrite nth_map_seq by auto. rewrite Hp.
    - f_equal. rewrite <- Hl. change (spot1 (length x) i 1) with (eidx (length x) i 1). rewrite basis_eidx by lia. apply chebT_1.
    - right. apply in_map_iff. exists i. split; auto. apply in_seq. lia. }
  assert (E2 : Rsum (map (fun i => Rabs (@pget R R_num M i)) L) = Rsum (map (fun i => Rabs (tget M (spot1 n i 1))) (seq 0 n))).
  { unfold L. rewrite map_map. apply Rsum_map_ext. intros i Hi. rewrite Hp; auto. right. apply in_map_iff. exists i. auto. }
  rewrite E1, E2 in HB. rewrite tsumabs_R by auto. unfold nsumabs. rewrite nsum_R, map_map. rnum. fold z. fold (Rsum (map (fun i => Rabs (tget M (spot1 n i 1))) (seq 0 n))).
  rewrite Rminus_0_l, Rabs_Ropp in Hv. apply abs_le_iff in HB. apply abs_le_iff in Hv. apply abs_le_iff. cbn [n0 R_num] in *. lra.
Qed.

(** ** improveBoundND *)
Lemma sumabs_le_one n (f x : nat -> R) : (forall j, (j < n)%nat -> Rabs (x j) <= 1) -> Rabs (sumn n (fun j => f j * x j)) <= sumn n (fun j => Rabs (f j)).
Proof. intros H. eapply Rle_trans; [apply sumn_abs|]. apply sumn_le. intros j Hj. apply abs_mul_le; auto. Qed.
Lemma improveN_sound n rows x var : (var < n)%nat -> (forall j, (j < n)%nat -> j <> var -> Rabs (x j) <= 1) -> Forall (fun r => nearN n r x) rows ->
  Forall (inI (x var)) (@improveN R R_num rows var).
Proof.
  intros Hv Hx H. unfold improveN. apply Forall_flat_map'. intros r Hr. rewrite Forall_forall in H. destruct (H r Hr) as [Hl Hn].
  cbn [neqb nabs n0 R_num]. destruct (Reqb _ 0) eqn:E; [constructor|]. apply Reqb_false in E.
  set (a := nth var (lt_ r) 0) in *. assert (Ha : a <> 0) by (intros Z; apply E; rewrite Z; apply Rabs_R0).
  constructor; [|constructor]. apply around_in. unfold nsumabs. rewrite nsum_R. rnum. fold (Rsum (map Rabs (lt_ r))).
  assert (Es : Rsum (map Rabs (lt_ r)) = sumn n (fun j => Rabs (nth j (lt_ r) 0))).
  { rewrite Rsum_nth, map_length, Hl. apply sumn_ext. intros j Hj. rewrite nth_indep with (d' := Rabs 0) by (rewrite map_length; lia). apply map_nth. }
  rewrite Es. replace ((sumn n (fun j => Rabs (nth j (lt_ r) 0)) + Rabs (er_ r)) / Rabs a - 1)
    with ((sumn n (fun j => Rabs (nth j (lt_ r) 0)) + Rabs (er_ r) - Rabs a) / Rabs a) by (field; auto).
  set (f := fun j => nth j (lt_ r) 0) in *.
  set (f' := fun j => if (j =? var)%nat then 0 else f j).
  assert (S1 : sumn n (fun j => f j * x j) = sumn n (fun j => f' j * x j) + a * x var).
  { rewrite (sumn_change n var (fun j => f j * x j) (fun j => f' j * x j)); auto.
    - unfold f' at 2. rewrite Nat.eqb_refl. unfold f at 1. fold a. ring.
    - intros k Hk Hne. unfold f'. destruct (Nat.eqb_spec k var); [congruence|auto]. }
  assert (S2 : sumn n (fun j => Rabs (f j)) = sumn n (fun j => Rabs (f' j)) + Rabs a).
  { rewrite (sumn_change n var (fun j => Rabs (f j)) (fun j => Rabs (f' j))); auto.
    - unfold f' at 2. rewrite Nat.eqb_refl, Rabs_R0. unfold f at 1. fold a. ring.
    - intros k Hk Hne. unfold f'. destruct (Nat.eqb_spec k var); [congruence|auto]. }
  apply abs_div_le with (d := (cn_ r + sumn n (fun j => f j * x j)) - sumn n (fun j => f' j * x j)); auto.
  - rewrite S1. field. auto.
  - change (sumn n (fun j => Rabs (nth j (lt_ r) 0))) with (sumn n (fun j => Rabs (f j))). rewrite S2. eapply Rle_trans; [apply Rabs_triang|]. rewrite Rabs_Ropp.
    pose proof (Rabs_le_self _ _ Hn). 
    assert (Hs : Rabs (sumn n (fun j => f' j * x j)) <= sumn n (fun j => Rabs (f' j))).
    { eapply Rle_trans; [apply sumn_abs|]. apply sumn_le. intros j Hj. unfold f'. destruct (Nat.eqb_spec j var); [rewrite Rmult_0_l; lra|apply abs_mul_le; auto]. }
    unfold f in *. lra.
Qed.

(** ** getBoundingParallelogramND *)
Definition mix (t : R) (u v : nat -> R) : nat -> R := fun i => t * u i + (1 - t) * v i.
(** a property of (right-hand side, solution) pairs that is closed under convex combination holds
    inside the box when it holds at the corners *)
Lemma corners_box errs : forall (Q : list R -> (nat -> R) -> Prop),
  (forall s s' X X' t, 0 <= t <= 1 -> length s = length errs -> length s' = length errs -> Q s X -> Q s' X' ->
     Q (map (fun p => t * fst p + (1 - t) * snd p) (combine s s')) (mix t X X')) ->
  (forall s, In s (@signsOf R R_num errs) -> exists X, Q s X) ->
  forall s, Forall2 (fun e v => Rabs v <= e) errs s -> exists X, Q s X.
Proof.
  induction errs as [|e errs IH]; intros Q Hmix Hc s Hs.
  - inversion Hs; subst. apply Hc. left; auto.
  - inversion Hs as [|? v ? s' Hv Hs']; subst.
    assert (Hl' : length s' = length errs) by (clear -Hs'; induction Hs'; simpl; auto).
    assert (Hmap : forall (w t : R) (u u' : list R), map (fun p => t * fst p + (1 - t) * snd p) (combine (w :: u) (w :: u')) = w :: map (fun p => t * fst p + (1 - t) * snd p) (combine u u')).
    { intros. simpl. f_equal. ring. }
    assert (Hhalf : forall w, In w [e; - e] -> exists X, Q (w :: s') X).
    { intros w Hw. apply (IH (fun u X => Q (w :: u) X)); auto.
      - intros u u' X X' t Ht Hu Hu' H1 H2. rewrite <- Hmap. apply Hmix; simpl; auto.
      - intros u Hu. apply Hc. cbn [signsOf]. apply in_flat_map. exists w. split; [exact Hw|apply in_map; auto]. }
    destruct (Hhalf e ltac:(simpl; auto)) as (X1 & H1). destruct (Hhalf (- e) ltac:(simpl; auto)) as (X2 & H2).
    apply abs_le_iff in Hv. destruct (Req_EM_T e 0) as [Z|Z].
    + assert (v = e) by lra. subst v. eauto.
    + assert (He : 0 < e) by lra. set (t := (v + e) / (2 * e)).
      assert (Ht : 0 <= t <= 1).
      { unfold t. split; [apply Rmult_le_pos; [lra|apply Rlt_le, Rinv_0_lt_compat; lra]|]. apply Rmult_le_reg_r with (2 * e); [lra|]. replace ((v + e) / (2 * e) * (2 * e)) with (v + e) by (field; lra). lra. }
      exists (mix t X1 X2). replace (v :: s') with (map (fun p => t * fst p + (1 - t) * snd p) (combine (e :: s') (- e :: s'))); [apply Hmix; simpl; auto|].
      simpl. f_equal; [unfold t; field; lra|]. clear. induction s'; simpl; auto. rewrite IHs'. f_equal. ring.
Qed.

Lemma allSome_in {A B} (f : A -> option B) l : forall ys, allSome f l = Some ys -> forall x, In x l -> exists y, f x = Some y /\ In y ys.
Proof.
  induction l as [|a l IH]; intros ys H x Hx; simpl in *; [destruct Hx|]. destruct (f a) eqn:Ea; [|discriminate]. destruct (allSome f l) eqn:El; [|discriminate].
  injection H as <-. destruct Hx as [<-|Hx]; [exists b; split; simpl; auto|]. destruct (IH _ eq_refl x Hx) as (y & H1 & H2). exists y. split; simpl; auto.
Qed.

Lemma signsOf_length (errs : list R) s : In s (@signsOf R R_num errs) -> length s = length errs.
Proof.
  revert s. induction errs as [|e errs IH]; intros s Hs; cbn [signsOf] in Hs.
  - destruct Hs as [<-|[]]; auto.
  - apply in_flat_map in Hs. destruct Hs as (v & _ & Hs). apply in_map_iff in Hs. destruct Hs as (u & <- & Hu). simpl. f_equal. auto.
Qed.

Lemma reduceN_length lasolve rows methods : forall acc out, @reduceN R R_num lasolve rows methods acc = Done out -> length out = length acc.
Proof.
  induction methods as [|m ms IH]; intros acc out H; cbn [reduceN] in H; [injection H as <-; auto|].
  destruct m; [|destruct (allSome _ _); [|discriminate]]; rewrite (IH _ _ H), map_length, combine_length, seq_length; lia.
Qed.

Section Para.
  Variable n : nat.
  Variable lasolve : list (list R) -> list R -> option (list R).
  Hypothesis Hok : lasolve_ok n lasolve.
  Variable rows : list (@linN R).
  Hypothesis Hlen : length rows = n.
  Variable x : nat -> R.
  Hypothesis Hnear : Forall (fun r => nearN n r x) rows.

  Let A := map (@lt_ R) rows.
  Let row0 : @linN R := mkLinN [] 0 0.
  Lemma A_entry i j : (i < n)%nat -> entry A i j = nth j (lt_ (nth i rows row0)) 0.
  Proof. intros Hi. unfold entry, A. change ([] : list R) with (lt_ row0). rewrite (map_nth (@lt_ R)). auto. Qed.

  Lemma parallelN_sound cols var : (var < n)%nat -> allSome (lasolve A) (rhsOf rows) = Some cols -> Forall (inI (x var)) (@parallelN R R_num rows cols var).
  Proof.
    intros Hv Hc. unfold parallelN.
    destruct (map (fun X => nth var X n0) cols) as [|v r] eqn:Ec; [constructor|]. constructor; [|constructor].
    set (delta := map (fun r => cn_ r + sumn n (fun j => nth j (lt_ r) 0 * x j)) rows).
    assert (Hd : Forall2 (fun e v => Rabs v <= e) (map (@er_ R) rows) delta).
    { unfold delta. clear -Hnear. induction Hnear as [|r0 l0 [_ H] HN IH]; [constructor|]. simpl. constructor; [exact H|exact (IH HN)]. }
    assert (Hsq : length A = n /\ Forall (fun r => length r = n) A).
    { unfold A. rewrite map_length. split; auto. apply Forall_map. eapply Forall_impl; [|exact Hnear]. intros q [Hq _]. exact Hq. }
    set (Q := fun (s : list R) (X : nat -> R) => (forall i, (i < n)%nat -> sumn n (fun j => entry A i j * X j) = - cn_ (nth i rows row0) + nth i s 0) /\
                 @nminl R R_num v r <= X var <= @nmaxl R R_num v r).
    assert (HQ : exists X, Q delta X).
    { apply (corners_box (map (@er_ R) rows)); auto.
      - intros s s' X X' t Ht Hs Hs' [H1 H1'] [H2 H2']. split.
        + intros i Hi. specialize (H1 i Hi). specialize (H2 i Hi).
          assert (E : sumn n (fun j => entry A i j * mix t X X' j) = t * sumn n (fun j => entry A i j * X j) + (1 - t) * sumn n (fun j => entry A i j * X' j)).
          { rewrite <- !sumn_scal, <- sumn_plus. apply sumn_ext. intros. unfold mix. ring. }
          rewrite E, H1, H2. rewrite map_length, Hlen in Hs, Hs'.
          rewrite (nth_indep (map (fun p : R * R => t * fst p + (1 - t) * snd p) (combine s s')) 0 ((fun p : R * R => t * fst p + (1 - t) * snd p) (0, 0))) by (rewrite map_length, combine_length; lia).
          rewrite (map_nth (fun p : R * R => t * fst p + (1 - t) * snd p)), combine_nth by lia. simpl. ring.
        + unfold mix. split; nra.
      - intros s Hs. pose proof (signsOf_length _ _ Hs) as Hls. rewrite map_length, Hlen in Hls.
        set (b := map (fun p => Ropp (cn_ (fst p)) + snd p) (combine rows s)).
        assert (Hb : In b (@rhsOf R R_num rows)) by (unfold rhsOf; apply in_map_iff; exists s; split; auto).
        destruct (allSome_in _ _ _ Hc b Hb) as (X & HX & HXin).
        assert (Hbl : length b = n) by (unfold b; rewrite map_length, combine_length; lia).
        destruct (Hok A b X (proj1 Hsq) (proj2 Hsq) Hbl HX) as (HlX & Hsol & _).
        exists (fun j => nth j X 0). split.
        + intros i Hi. rewrite Hsol by auto. unfold b.
          rewrite (nth_indep (map (fun p : @linN R * R => - cn_ (fst p) + snd p) (combine rows s)) 0 ((fun p : @linN R * R => - cn_ (fst p) + snd p) (row0, 0))) by (rewrite map_length, combine_length; lia).
          rewrite (map_nth (fun p : @linN R * R => - cn_ (fst p) + snd p)), combine_nth by lia. reflexivity.
        + assert (Hin : In (nth var X 0) (v :: r)) by (rewrite <- Ec; exact (in_map (fun X => nth var X 0) cols X HXin)).
          split; [apply nminl_le|apply nmaxl_ge]; auto. }
    destruct HQ as (X & HX & HXv).
    assert (E : X var = x var).
    { assert (Hk : exists b X0, lasolve A b = Some X0 /\ length b = n).
      { destruct (signsOf (map er_ rows)) as [|s0 ss] eqn:Es.
        - unfold rhsOf in Hc. rewrite Es in Hc. simpl in Hc. injection Hc as <-. discriminate Ec.
        - assert (Hs0 : In s0 (@signsOf R R_num (map er_ rows))) by (rewrite Es; left; auto). pose proof (signsOf_length _ _ Hs0) as Hls. rewrite map_length, Hlen in Hls.
          destruct (allSome_in _ _ _ Hc (map (fun p => Ropp (cn_ (fst p)) + snd p) (combine rows s0))) as (X0 & HX0 & _).
          + unfold rhsOf. apply in_map_iff. exists s0. split; auto.
          + exists (map (fun p => Ropp (cn_ (fst p)) + snd p) (combine rows s0)), X0. split; auto. rewrite map_length, combine_length. lia. }
      destruct Hk as (b & X0 & HX0 & Hbl). destruct (Hok A b X0 (proj1 Hsq) (proj2 Hsq) Hbl HX0) as (_ & _ & Hinj).
      assert (Z : X var - x var = 0).
      { apply (Hinj (fun j => X j - x j)); auto. intros i Hi.
        assert (E : sumn n (fun j => entry A i j * (X j - x j)) = sumn n (fun j => entry A i j * X j) - sumn n (fun j => entry A i j * x j)) by (rewrite <- sumn_minus; apply sumn_ext; intros; ring).
        rewrite E, HX by auto. unfold delta.
        rewrite (nth_indep (map (fun r => cn_ r + sumn n (fun j => nth j (lt_ r) 0 * x j)) rows) 0 ((fun r => cn_ r + sumn n (fun j => nth j (lt_ r) 0 * x j)) row0)) by (rewrite map_length; lia).
        rewrite (map_nth (fun r => cn_ r + sumn n (fun j => nth j (lt_ r) 0 * x j))).
        rewrite (sumn_ext n (fun j => entry A i j * x j) (fun j => nth j (lt_ (nth i rows row0)) 0 * x j)) by (intros j Hj; rewrite A_entry; auto). ring. }
      lra. }
    rewrite <- E. exact HXv.
  Qed.
  Variable var : nat.
  Hypothesis Hvar : (var < n)%nat.
  Hypothesis Hx : forall j, (j < n)%nat -> j <> var -> Rabs (x j) <= 1.

  Lemma reduceN_sound methods : forall acc out, length acc = n -> Forall (inI (x var)) (nth var acc []) ->
    reduceN lasolve rows methods acc = Done out -> length out = n /\ Forall (inI (x var)) (nth var out []).
  Proof.
    assert (Hstep : forall (f : nat -> list (R * R)) (acc : list (list (R * R))), length acc = n -> Forall (inI (x var)) (nth var acc []) -> Forall (inI (x var)) (f var) ->
      let acc' := map (fun p : nat * list (R * R) => snd p ++ f (fst p)) (combine (seq 0 (length acc)) acc) in length acc' = n /\ Forall (inI (x var)) (nth var acc' [])).
    { intros f acc Hl Ha Hf. cbv zeta. assert (Hl2 : length (seq 0 (length acc)) = length acc) by apply seq_length. split; [rewrite map_length, combine_length; lia|].
      rewrite nth_indep with (d' := (fun p : nat * list (R * R) => snd p ++ f (fst p)) (0%nat, [])) by (rewrite map_length, combine_length; lia).
      rewrite (map_nth (fun p : nat * list (R * R) => snd p ++ f (fst p))), combine_nth by auto. rewrite seq_nth by lia. cbn [fst snd]. apply Forall_app. split; [apply Ha|apply Hf]; auto. }
    induction methods as [|m ms IH]; intros acc out Hl Ha Hr; cbn [reduceN] in Hr; [injection Hr as <-; auto|]. destruct m.
    - destruct (Hstep (improveN rows) acc Hl Ha (improveN_sound n rows x var Hvar Hx Hnear)) as [L1 L2]. exact (IH _ _ L1 L2 Hr).
    - destruct (allSome (lasolve (map lt_ rows)) (rhsOf rows)) as [cols|] eqn:Ec; [|discriminate].
      destruct (Hstep (parallelN rows cols) acc Hl Ha (parallelN_sound cols var Hvar Ec)) as [L1 L2]. exact (IH _ _ L1 L2 Hr).
  Qed.
End Para.

Theorem boundingND_sound n lasolve (ps : list (tensor R * R)) methods s x : lasolve_ok n lasolve -> length ps = n ->
  Forall (fun p => wf (fst p) /\ ndim (fst p) = n) ps -> boundingND lasolve ps methods = Done s -> in_cube n x ->
  Forall (fun p => Rabs (0 - cheb_eval (fst p) x) <= snd p) ps ->
  length (fst s) = n /\ length (snd s) = n /\ forall i, (i < n)%nat -> lo s i <= nth i x 0 <= hi s i \/ (lo s i = 0 /\ hi s i = 0).
Proof.
  intros Hok Hl Hps Hs Hx Hz. unfold boundingND in Hs. destruct (forallb _ ps) eqn:E; [|discriminate].
  destruct (reduceN lasolve (map linNOf ps) methods (repeat [] (length ps))) as [acc| |] eqn:Er; try discriminate. cbv zeta in Hs. injection Hs as <-.
  assert (Hn : Forall (fun r => nearN n r (fun i => nth i x 0)) (map linNOf ps)).
  { apply Forall_map. rewrite Forall_forall in *. intros [M tol] Hp. destruct (Hps _ Hp) as [H1 H2]. cbn [fst] in *. rewrite forallb_forall in E. specialize (E _ Hp). cbn [fst] in E.
    rewrite <- H2 in *. apply linNOf_near; auto. apply (Hz _ Hp). }
  assert (Hx1 : forall j, (j < n)%nat -> -1 <= nth j x 0 <= 1) by (intros j Hj; destruct Hx as [H1 H2]; apply Forall_nth; auto; lia).
  assert (L2 : forall i, (i < n)%nat -> Forall (inI (nth i x 0)) (nth i acc [])).
  { intros i Hi. apply (reduceN_sound n lasolve Hok (map linNOf ps) ltac:(rewrite map_length; auto) (fun i => nth i x 0) Hn i Hi
              (fun j Hj _ => proj2 (abs_le_iff _ _) (Hx1 j Hj)) methods (repeat [] (length ps)) acc); auto; [rewrite repeat_length; auto|rewrite nth_repeat; constructor]. }
  assert (L1 : length acc = n) by (rewrite (reduceN_length _ _ _ _ _ Er), repeat_length; auto).
  - cbn [fst snd]. rewrite !map_length. split; auto. split; auto. intros i Hi. unfold lo, hi. cbn [fst snd n0 R_num]. rewrite !map_map.
    set (F := fun c => fst (@widthCheck R R_num (mergeIntervals c))). set (G := fun c => snd (@widthCheck R R_num (mergeIntervals c))).
    rewrite nth_indep with (d' := F []) by (rewrite map_length; lia). rewrite (map_nth F).
    rewrite (nth_indep (map G acc)) with (d' := G []) by (rewrite map_length; lia). rewrite (map_nth G).
    destruct (width_sound _ (nth i x 0) (Hx1 i Hi) (merge_sound _ _ (Hx1 i Hi) (L2 i Hi))) as [Hin|[E2 _]]; [left; exact Hin|right]. unfold F, G. rewrite E2. split; reflexivity.
Qed.
