(** * Minima of quadratic functions on a cube
    A quadratic function on [-1,1]^n is bounded below by its values at "candidate" points, when
    every face of the cube either has its stationary point among the candidates (if that lies in
    the face), or is degenerate, or is indefinite. *)
From Coq Require Import List Arith Bool Reals Lra Lia.
From Verif Require Import RSum.
Import ListNotations.
Local Open Scope R_scope.

Definition vec := nat -> R.
Definition dot (n : nat) (u v : vec) : R := sumn n (fun i => u i * v i).
Definition mulv (n : nat) (H : nat -> nat -> R) (v : vec) : vec := fun i => sumn n (fun j => H i j * v j).
Definition quadf (n : nat) (k : R) (B : vec) (H : nat -> nat -> R) (x : vec) : R :=
  k + dot n B x + / 2 * dot n x (mulv n H x).
Definition along (x v : vec) (t : R) : vec := fun i => x i + t * v i.
Definition cubev (n : nat) (x : vec) : Prop := forall i, (i < n)%nat -> -1 <= x i <= 1.
Definition free (x : vec) (i : nat) : Prop := -1 < x i < 1.

Lemma dot_ext n u u' v v' : (forall i, (i < n)%nat -> u i = u' i) -> (forall i, (i < n)%nat -> v i = v' i) -> dot n u v = dot n u' v'.
Proof. intros H1 H2. apply sumn_ext. intros. rewrite H1, H2; auto. Qed.
Lemma mulv_ext n H v v' i : (forall j, (j < n)%nat -> v j = v' j) -> mulv n H v i = mulv n H v' i.
Proof. intros E. apply sumn_ext. intros. rewrite E; auto. Qed.
Lemma quadf_ext n k B H x y : (forall i, (i < n)%nat -> x i = y i) -> quadf n k B H x = quadf n k B H y.
Proof.
  intros E. unfold quadf. rewrite (dot_ext n B B x y), (dot_ext n x y (mulv n H x) (mulv n H y)); auto.
  intros. apply mulv_ext; auto.
Qed.
Lemma dot_sym_mul n (H : nat -> nat -> R) u v : (forall i j, (i < n)%nat -> (j < n)%nat -> H i j = H j i) -> dot n u (mulv n H v) = dot n v (mulv n H u).
Proof.
  intros Hs. unfold dot, mulv.
  rewrite (sumn_ext _ _ (fun i => sumn n (fun j => u i * (H i j * v j)))) by (intros; rewrite sumn_scal; auto).
  rewrite (sumn_ext _ (fun i => v i * _) (fun i => sumn n (fun j => v i * (H i j * u j)))) by (intros; rewrite sumn_scal; auto).
  rewrite sumn_swap. apply sumn_ext. intros i Hi. apply sumn_ext. intros j Hj. rewrite (Hs j i) by auto. ring.
Qed.
(** expansion along a line *)
Lemma quadf_along n k B H x v t : (forall i j, (i < n)%nat -> (j < n)%nat -> H i j = H j i) ->
  quadf n k B H (along x v t) = quadf n k B H x + t * (dot n B v + dot n v (mulv n H x)) + t * t / 2 * dot n v (mulv n H v).
Proof.
  intros Hs. unfold quadf.
  assert (E1 : dot n B (along x v t) = dot n B x + t * dot n B v).
  { unfold dot, along. rewrite <- sumn_scal, <- sumn_plus. apply sumn_ext. intros; ring. }
  assert (E2 : forall i, mulv n H (along x v t) i = mulv n H x i + t * mulv n H v i).
  { intros. unfold mulv, along. rewrite <- sumn_scal, <- sumn_plus. apply sumn_ext. intros; ring. }
  assert (E3 : dot n (along x v t) (mulv n H (along x v t)) = dot n x (mulv n H x) + t * dot n v (mulv n H x) + t * dot n x (mulv n H v) + t * t * dot n v (mulv n H v)).
  { unfold dot. rewrite <- !sumn_scal, <- !sumn_plus. apply sumn_ext. intros. rewrite E2. unfold along. ring. }
  rewrite E1, E3. rewrite (dot_sym_mul n H x v) by auto. field.
Qed.

(** ** Leaving the face along a line *)
Lemma argmin (f : nat -> R) (l : list nat) : l <> [] -> exists i, In i l /\ forall j, In j l -> f i <= f j.
Proof.
  induction l as [|a l IH]; [congruence|]. intros _. destruct l as [|b l].
  - exists a. split; [left; auto|]. intros j [->|[]]; lra.
  - destruct IH as (i & Hi & Hm); [discriminate|]. destruct (Rle_dec (f a) (f i)).
    + exists a. split; [left; auto|]. intros j [->|Hj]; [lra|]. specialize (Hm j Hj). lra.
    + exists i. split; [right; auto|]. intros j [<-|Hj]; [lra|auto].
Qed.
Lemma exit_time n x v : cubev n x ->
  (forall i, (i < n)%nat -> ~ free x i -> v i = 0) -> (exists i, (i < n)%nat /\ v i <> 0) ->
  exists t, 0 < t /\ cubev n (along x v t) /\ (exists i, (i < n)%nat /\ free x i /\ ~ free (along x v t) i) /\
    (forall i s, (i < n)%nat -> free x i -> 0 <= s -> ~ free (along x v s) i -> t <= s).
Proof.
  intros Hx Hsup (i0 & Hi0 & Hv0).
  set (tau := fun i => if Rlt_dec 0 (v i) then (1 - x i) / v i else (-1 - x i) / v i).
  set (dec := fun i => if Req_EM_T (v i) 0 then false else true).
  assert (Hdec : forall i, dec i = true <-> v i <> 0) by (intros i; unfold dec; destruct Req_EM_T; split; intros; congruence).
  destruct (argmin tau (filter dec (seq 0 n))) as (m & Hm & Hmin).
  { intros E. assert (Hin : In i0 (filter dec (seq 0 n))) by (apply filter_In; split; [apply in_seq; lia|apply Hdec; auto]). rewrite E in Hin. destruct Hin. }
  assert (Hfree : forall i, (i < n)%nat -> v i <> 0 -> free x i).
  { intros i Hi Hv. destruct (Rlt_dec (-1) (x i)); [destruct (Rlt_dec (x i) 1); [split; auto|]|]; exfalso; apply Hv, Hsup; auto; intros [? ?]; lra. }
  (* reaching the boundary: |x i + s v i| >= 1 iff s >= tau i *)
  assert (Htau : forall i, (i < n)%nat -> v i <> 0 -> 0 < tau i /\ (forall s, 0 <= s -> (s < tau i <-> free (along x v s) i)) /\ -1 <= x i + tau i * v i <= 1 /\ ~ free (along x v (tau i)) i).
  { intros i Hi Hv. destruct (Hfree i Hi Hv) as [H1 H2]. unfold tau. destruct (Rlt_dec 0 (v i)).
    - assert (E : (1 - x i) / v i * v i = 1 - x i) by (field; lra). assert (P : 0 < (1 - x i) / v i) by (apply Rdiv_lt_0_compat; lra).
      set (t := (1 - x i) / v i) in *. clearbody t. repeat split; unfold along, free in *; try nra.
    - assert (Hn : v i < 0) by lra. assert (E : (-1 - x i) / v i * v i = -1 - x i) by (field; lra).
      assert (P : 0 < (-1 - x i) / v i). { replace ((-1 - x i) / v i) with ((1 + x i) / (- v i)) by (field; lra). apply Rdiv_lt_0_compat; lra. }
      set (t := (-1 - x i) / v i) in *. clearbody t. repeat split; unfold along, free in *; try nra. }
  apply filter_In in Hm. destruct Hm as [Hmn Hmv]. apply in_seq in Hmn. apply Hdec in Hmv.
  destruct (Htau m ltac:(lia) Hmv) as (Hp & Hs & Hb & Hnf).
  exists (tau m). split; auto. split; [|split].
  - intros i Hi. destruct (Req_EM_T (v i) 0) as [E|E].
    + unfold along. rewrite E, Rmult_0_r, Rplus_0_r. apply Hx; auto.
    + assert (Hle : tau m <= tau i) by (apply Hmin; apply filter_In; split; [apply in_seq; lia|apply Hdec; auto]).
      destruct (Htau i Hi E) as (Hp' & Hs' & Hb' & _). destruct (Rle_lt_or_eq_dec _ _ Hle) as [Hlt|Heq].
      * pose proof (proj1 (Hs' (tau m) ltac:(lra)) Hlt) as [? ?]. lra.
      * unfold along. rewrite Heq. auto.
  - exists m. split; [lia|]. split; [apply Hfree; auto; lia|auto].
  - intros i s Hi Hf Hs0 Hns. destruct (Req_EM_T (v i) 0) as [E|E].
    + exfalso. apply Hns. unfold along, free. rewrite E, Rmult_0_r, Rplus_0_r. exact Hf.
    + assert (Hle : tau m <= tau i) by (apply Hmin; apply filter_In; split; [apply in_seq; lia|apply Hdec; auto]).
      destruct (Htau i Hi E) as (_ & Hs' & _ & _). destruct (Rlt_dec s (tau i)) as [Hlt|Hge]; [exfalso; apply Hns, Hs'; auto|lra].
Qed.

(** ** The number of free coordinates *)
Definition isfree (x : vec) (i : nat) : bool := if Rlt_dec (-1) (x i) then if Rlt_dec (x i) 1 then true else false else false.
Lemma isfree_iff x i : isfree x i = true <-> free x i.
Proof. unfold isfree, free. destruct Rlt_dec; [destruct Rlt_dec|]; split; intros; try discriminate; try lra; auto. Qed.
Definition nfree (n : nat) (x : vec) : nat := length (filter (isfree x) (seq 0 n)).
Lemma filter_len_lt {A} (f g : A -> bool) l : (forall x, In x l -> f x = true -> g x = true) -> (exists x, In x l /\ f x = false /\ g x = true) ->
  (length (filter f l) < length (filter g l))%nat.
Proof.
  assert (Hle : forall l, (forall x, In x l -> f x = true -> g x = true) -> (length (filter f l) <= length (filter g l))%nat).
  { clear. induction l; simpl; intros H; auto. assert (IH := IHl (fun x Hx => H x (or_intror Hx))).
    destruct (f a) eqn:E; [rewrite (H a (or_introl eq_refl) E); simpl; lia|]. destruct (g a); simpl; lia. }
  induction l; intros H (x & Hx & Hf & Hg); [destruct Hx|]. simpl. destruct Hx as [->|Hx].
  - rewrite Hf, Hg. simpl. apply Nat.lt_succ_r. apply Hle. intros; apply H; simpl; auto.
  - assert (IH := IHl (fun x Hx => H x (or_intror Hx)) (ex_intro _ x (conj Hx (conj Hf Hg)))).
    destruct (f a) eqn:E; [rewrite (H a (or_introl eq_refl) E); simpl; lia|]. destruct (g a); simpl; lia.
Qed.

Section Descent.
  Variable n : nat.
  Variable k : R.
  Variable B : vec.
  Variable H : nat -> nat -> R.
  Hypothesis Hsym : forall i j, (i < n)%nat -> (j < n)%nat -> H i j = H j i.
  Variable Cand : vec -> Prop.

  (** what is known about the face of the cube through s with free coordinates U *)
  Definition faceOK (U : nat -> Prop) (s : vec) : Prop :=
    (exists v, (forall i, (i < n)%nat -> ~ U i -> v i = 0) /\ (exists i, (i < n)%nat /\ v i <> 0) /\
               (forall i, (i < n)%nat -> U i -> mulv n H v i = 0)) \/
    (exists i j, (i < n)%nat /\ (j < n)%nat /\ U i /\ U j /\ H i i < 0 /\ 0 < H j j) \/
    (exists X, (forall i, (i < n)%nat -> ~ U i -> X i = s i) /\ (forall i, (i < n)%nat -> U i -> B i + mulv n H X i = 0) /\
               ((forall i, (i < n)%nat -> U i -> free X i) -> Cand X)).

  Lemma dot_support U u v : (forall i, (i < n)%nat -> ~ U i -> u i = 0) -> (forall i, (i < n)%nat -> U i -> v i = 0) ->
    (forall i, U i \/ ~ U i) -> dot n u v = 0.
  Proof. intros H1 H2 H3. apply sumn_zero. intros i Hi. destruct (H3 i); [rewrite H2 by auto|rewrite H1 by auto]; ring. Qed.
  Lemma free_dec x i : free x i \/ ~ free x i.
  Proof. unfold free. destruct (Rlt_dec (-1) (x i)); destruct (Rlt_dec (x i) 1); [left|right|right|right]; lra. Qed.

  Lemma along_free_sub x v t : (forall i, (i < n)%nat -> ~ free x i -> v i = 0) -> (exists i, (i < n)%nat /\ free x i /\ ~ free (along x v t) i) ->
    (nfree n (along x v t) < nfree n x)%nat.
  Proof.
    intros Hsup (i & Hi & H1 & H2). apply filter_len_lt.
    - intros j Hj Hf. apply in_seq in Hj. destruct (free_dec x j) as [Hx|Hx]; [apply isfree_iff; auto|]. exfalso.
      apply isfree_iff in Hf. unfold free, along in *. rewrite Hsup in Hf by (auto; lia). lra.
    - exists i. split; [apply in_seq; lia|]. split; [|apply isfree_iff; auto]. destruct (isfree _ i) eqn:E; auto. exfalso. apply H2. apply isfree_iff; auto.
  Qed.

  Hypothesis Hfaces : forall s, cubev n s -> faceOK (free s) s.

  Theorem descent : forall x, cubev n x -> exists y, Cand y /\ quadf n k B H y <= quadf n k B H x.
  Proof.
    assert (Hmain : forall m x, (nfree n x < m)%nat -> cubev n x -> exists y, Cand y /\ quadf n k B H y <= quadf n k B H x).
    2:{ intros x Hx. apply (Hmain (S (nfree n x))); auto. }
    induction m as [|m IH]; [lia|]. intros x Hm Hx.
    (* moving in a direction that never increases the value *)
    assert (Hmove : forall v, (forall i, (i < n)%nat -> ~ free x i -> v i = 0) -> (exists i, (i < n)%nat /\ v i <> 0) ->
      (forall t, 0 < t -> quadf n k B H (along x v t) <= quadf n k B H x) -> exists y, Cand y /\ quadf n k B H y <= quadf n k B H x).
    { intros v Hsup Hnz Hdesc. destruct (exit_time n x v Hx Hsup Hnz) as (t & Ht & Hc & He & _).
      destruct (IH (along x v t)) as (y & Hy & Hle); auto.
      - pose proof (along_free_sub x v t Hsup He). lia.
      - exists y. split; auto. specialize (Hdesc t Ht). lra. }
    assert (Hmovepm : forall v, (forall i, (i < n)%nat -> ~ free x i -> v i = 0) -> (exists i, (i < n)%nat /\ v i <> 0) ->
      dot n v (mulv n H v) <= 0 -> exists y, Cand y /\ quadf n k B H y <= quadf n k B H x).
    { intros v Hsup (i & Hi & Hv) Hq. set (g := dot n B v + dot n v (mulv n H x)). destruct (Rle_dec g 0) as [Hg|Hg].
      - apply (Hmove v); auto; [exists i; auto|]. intros t Ht. rewrite quadf_along by auto. fold g. nra.
      - apply (Hmove (fun i => - v i)); [intros; rewrite Hsup by auto; ring|exists i; split; auto; lra|]. intros t Ht.
        rewrite (quadf_ext n k B H (along x (fun i => - v i) t) (along x v (- t))) by (intros; unfold along; ring). rewrite quadf_along by auto. fold g. nra. }
    destruct (Hfaces x Hx) as [(v & Hsup & Hnz & Hker)|[(i & j & Hi & Hj & Ui & Uj & Hii & Hjj)|(X & HX & Hst & Hcand)]].
    - apply (Hmovepm v); auto. rewrite (dot_support (free x) v (mulv n H v)); auto; [lra|intros; apply free_dec].
    - apply (Hmovepm (fun l => if (l =? i)%nat then 1 else 0)).
      + intros l Hl Hnf. destruct (Nat.eqb_spec l i); auto. subst; contradiction.
      + exists i. split; auto. rewrite Nat.eqb_refl. lra.
      + unfold dot, mulv. rewrite (sumn_single n i); auto.
        * rewrite Nat.eqb_refl. rewrite (sumn_single n i); auto; [rewrite Nat.eqb_refl; lra|]. intros l Hl Hne. destruct (Nat.eqb_spec l i); [congruence|ring].
        * intros l Hl Hne. destruct (Nat.eqb_spec l i); [congruence|ring].
    - set (d := fun i => X i - x i).
      assert (Hds : forall i, (i < n)%nat -> ~ free x i -> d i = 0) by (intros; unfold d; rewrite HX by auto; ring).
      assert (EX : forall i, (i < n)%nat -> X i = along x d 1 i) by (intros; unfold along, d; ring).
      assert (Hgr : dot n B d + dot n d (mulv n H x) = - dot n d (mulv n H d)).
      { assert (E : dot n d (fun i => B i + mulv n H X i) = 0) by (apply (dot_support (free x)); auto; intros; apply free_dec).
        assert (E2 : dot n d (fun i => B i + mulv n H X i) = dot n B d + dot n d (mulv n H x) + dot n d (mulv n H d)).
        { unfold dot. rewrite <- !sumn_plus. apply sumn_ext. intros i Hi.
          assert (E3 : mulv n H X i = mulv n H x i + mulv n H d i) by (unfold mulv; rewrite <- sumn_plus; apply sumn_ext; intros; unfold d; ring).
          rewrite E3. ring. }
        lra. }
      assert (Hdec : (forall i, (i < n)%nat -> d i = 0) \/ exists i, (i < n)%nat /\ d i <> 0).
      { clear -d. induction n as [|p IHp]; [left; lia|]. destruct IHp as [A|(i & Hi & A)]; [|right; exists i; auto].
        destruct (Req_EM_T (d p) 0) as [E|E]; [left|right; exists p; auto]. intros i Hi. destruct (Nat.eq_dec i p); [subst; auto|apply A; lia]. }
      destruct Hdec as [Hz|Hnz].
      + exists X. split.
        * apply Hcand. intros i Hi Hf. assert (E : X i = x i) by (specialize (Hz i Hi); unfold d in Hz; lra). unfold free. rewrite E. exact Hf.
        * rewrite (quadf_ext n k B H X x); [lra|]. intros i Hi. specialize (Hz i Hi). unfold d in Hz. lra.
      + destruct (Rle_dec 0 (dot n d (mulv n H d))) as [Hp|Hp]; [|apply (Hmovepm d); auto; lra].
        assert (Hall : (forall i, (i < n)%nat -> free x i -> free X i) \/ exists i, (i < n)%nat /\ free x i /\ ~ free X i).
        { clear. induction n as [|p IHp]; [left; lia|]. destruct IHp as [A|(i & Hi & A)]; [|right; exists i; auto].
          destruct (free_dec x p) as [F1|F1]; [destruct (free_dec X p) as [F2|F2]|].
          - left. intros i Hi. destruct (Nat.eq_dec i p); [subst; auto|apply A; lia].
          - right. exists p. auto.
          - left. intros i Hi. destruct (Nat.eq_dec i p); [subst; tauto|apply A; lia]. }
        destruct Hall as [Hall|(i & Hi & Hf & Hnf)].
        * exists X. split; auto. rewrite (quadf_ext n k B H X (along x d 1)) by auto. rewrite quadf_along by auto. rewrite Hgr. lra.
        * destruct (exit_time n x d Hx Hds Hnz) as (t & Ht & Hc & He & Hmin).
          assert (Ht1 : t <= 1). { apply (Hmin i 1); auto; [lra|]. intros F. apply Hnf. unfold free in *. rewrite EX by auto. exact F. }
          destruct (IH (along x d t)) as (y & Hy & Hle); auto; [pose proof (along_free_sub x d t Hds He); lia|].
          exists y. split; auto. eapply Rle_trans; [exact Hle|]. rewrite quadf_along by auto. rewrite Hgr.
          set (D := dot n d (mulv n H d)) in *. assert (0 <= t * D * (1 - t)) by (apply Rmult_le_pos; [nra|lra]). assert (0 <= t * D) by nra. nra.
  Qed.
End Descent.

(** upper bounds: the same for the negative function *)
Lemma mulv_opp n H x i : mulv n (fun i j => - H i j) x i = - mulv n H x i.
Proof. unfold mulv. rewrite <- sumn_opp. apply sumn_ext. intros; ring. Qed.
Theorem extrema n k B H (Cand : vec -> Prop) :
  (forall i j, (i < n)%nat -> (j < n)%nat -> H i j = H j i) ->
  (forall s, cubev n s -> faceOK n B H Cand (free s) s) ->
  forall x, cubev n x -> (exists y, Cand y /\ quadf n k B H y <= quadf n k B H x) /\ (exists y, Cand y /\ quadf n k B H x <= quadf n k B H y).
Proof.
  intros Hs Hf x Hx. split; [apply (descent n k B H Hs Cand Hf); auto|].
  destruct (descent n (- k) (fun i => - B i) (fun i j => - H i j)) with (Cand := Cand) (x := x) as (y & Hy & Hle); auto.
  - intros. rewrite (Hs i j); auto.
  - intros s Hc. destruct (Hf s Hc) as [(v & A & C & D)|[(i & j & Hi & Hj & Ui & Uj & Hii & Hjj)|(X & A & C & D)]].
    + left. exists v. repeat split; auto. intros i Hi Ui. rewrite mulv_opp, D; auto. ring.
    + right; left. exists j, i. split; [auto|split; [auto|split; [auto|split; [auto|split; lra]]]].
    + right; right. exists X. split; [auto|split; [|auto]]. intros i Hi Ui. rewrite mulv_opp. specialize (C i Hi Ui). lra.
  - exists y. split; auto.
    assert (E : forall z, quadf n (- k) (fun i => - B i) (fun i j => - H i j) z = - quadf n k B H z).
    { intros z. unfold quadf. assert (E1 : dot n (fun i => - B i) z = - dot n B z) by (unfold dot; rewrite <- sumn_opp; apply sumn_ext; intros; ring).
      assert (E2 : dot n z (mulv n (fun i j => - H i j) z) = - dot n z (mulv n H z)) by (unfold dot; rewrite <- sumn_opp; apply sumn_ext; intros; rewrite mulv_opp; ring).
      rewrite E1, E2. ring. }
    rewrite !E in Hle. lra.
Qed.
