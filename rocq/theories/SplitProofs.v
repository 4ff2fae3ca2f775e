(** * The boxes of one subdivision step, in any arithmetic *)
From Coq Require Import List Arith Bool Lia ZArith Sorted Permutation.
From Verif Require Import Num Tensor TransformModel IntervalModel LinearModel QuadModel SolverModel OrderProofs SubdivProofs.
Import ListNotations.

(** The few facts about the arithmetic that matter: comparisons among -1, 1 and the split points. *)
Record saneSplit {T} {NT : Num T} (n : nat) (npt : list T) : Prop := {
  sp_mm : neqb (- n1)%num (- n1)%num = true; sp_11 : neqb n1 n1 = true; sp_1m : neqb n1 (- n1)%num = false; sp_lt : ngtb (- n1)%num n1 = false;
  sp_m : forall d, d < n -> neqb (nth d npt n0) (- n1)%num = false /\ neqb (nth d npt n0) n1 = false /\
           ngtb (- n1)%num (nth d npt n0) = false /\ ngtb (nth d npt n0) n1 = false }.

Section Split.
  Context {T : Type} {NT : Num T}.
  Variables (n : nat) (npt : list T).
  Hypothesis Hs : saneSplit n npt.
  Local Open Scope num_scope.

  (** the shared end point of dimension d of a box *)
  Definition splitAt (row : T * T) (d : nat) : T := (snd row - fst row) / n2 * nth d npt n0 + (snd row + fst row) / n2.
  (** the lower (0) or upper (1) half *)
  Definition halfRow (b : nat) (row : T * T) (d : nat) : T * T :=
    if (b =? 0)%nat then (fst row, splitAt row d) else (splitAt row d, snd row).

  Lemma newRow_unit row : newRow (- n1, n1) row = row.
  Proof. unfold newRow, alphaBeta. cbn [fst snd]. rewrite (sp_mm _ _ Hs), (sp_1m _ _ Hs), (sp_11 _ _ Hs). destruct row; auto. Qed.
  Lemma newRow_side b d row : (d < n)%nat -> newRow (sideRow npt b d) row = halfRow b row d.
  Proof.
    intros Hd. destruct (sp_m _ _ Hs d Hd) as (A & B & _). unfold sideRow, halfRow, splitAt. destruct (b =? 0)%nat; unfold newRow, alphaBeta; cbn [fst snd].
    - rewrite (sp_mm _ _ Hs), A, B. reflexivity.
    - rewrite A, B, (sp_1m _ _ Hs), (sp_11 _ _ Hs). reflexivity.
  Qed.
  Lemma unit_notinv k : anyInverted (unitRows k) = false.
  Proof. unfold anyInverted, unitRows. induction k; cbn [repeat existsb]; auto. rewrite IHk. cbn [fst snd]. rewrite (sp_lt _ _ Hs). auto. Qed.
  Lemma upd_notinv (l : box T) d r : anyInverted l = false -> ngtb (fst r) (snd r) = false -> anyInverted (upd l d r) = false.
  Proof.
    unfold anyInverted. revert d. induction l as [|a l IH]; intros [|d] H1 H2; cbn [upd existsb] in *; auto; apply orb_false_iff in H1; destruct H1 as [H1 H3]; apply orb_false_iff; auto.
  Qed.
  Lemma sideI_ivl b d (t : tint T) : length (ivl t) = n -> (d < n)%nat ->
    ivl (sideI npt b d t) = upd (ivl t) d (halfRow b (nth d (ivl t) (n0, n0)) d).
  Proof.
    intros Hl Hd. unfold sideI. cbn [setNext ivl]. unfold addTransform. rewrite Hl.
    assert (E : anyInverted (upd (unitRows n) d (sideRow npt b d)) = false).
    { apply upd_notinv; [apply unit_notinv|]. destruct (sp_m _ _ Hs d Hd) as (_ & _ & A & B). unfold sideRow. destruct (b =? 0)%nat; auto. }
    rewrite E. cbn [andb ivl copyT].
    apply nth_ext with (n0, n0) (n0, n0); [rewrite map_length, combine_length, !upd_length; unfold unitRows; rewrite repeat_length; lia|].
    rewrite map_length, combine_length, upd_length. unfold unitRows at 1. rewrite repeat_length. intros i Hi.
    rewrite (nth_map_lt _ _ _ ((n0, n0), (n0, n0))) by (rewrite combine_length, upd_length; unfold unitRows; rewrite repeat_length; lia).
    rewrite combine_nth by (rewrite upd_length; unfold unitRows; rewrite repeat_length; lia). cbn [fst snd].
    destruct (Nat.eq_dec i d) as [->|Hne].
    - rewrite !nth_upd_eq by (unfold unitRows; rewrite ?repeat_length; lia). apply newRow_side; auto.
    - rewrite !nth_upd_neq by auto. unfold unitRows. rewrite (nth_indep _ _ (- n1, n1)) by (rewrite repeat_length; lia). rewrite nth_repeat. apply newRow_unit.
  Qed.
  Lemma intAt_ivl dims : forall bs (t : tint T), length (ivl t) = n -> NoDup dims -> Forall (fun d => (d < n)%nat) dims -> length bs = length dims ->
    length (ivl (intAt npt dims bs t)) = n /\
    forall i, (i < n)%nat -> nth i (ivl (intAt npt dims bs t)) (n0, n0) =
      if existsb (Nat.eqb i) dims then halfRow (bitOf dims bs i) (nth i (ivl t) (n0, n0)) i else nth i (ivl t) (n0, n0).
  Proof.
    induction dims as [|d dims IH]; intros [|b bs] t Hl Hn Hf Hb; cbn [intAt existsb]; auto; cbn in Hb; try lia.
    apply NoDup_cons_iff in Hn. destruct Hn as [Hd Hn]. apply Forall_cons_iff in Hf. destruct Hf as [Hdn Hf].
    pose proof (sideI_ivl b d t Hl Hdn) as E. destruct (IH bs (sideI npt b d t)) as [A B]; auto; [rewrite E, upd_length; auto|]. split; auto.
    intros i Hi. rewrite B by auto. rewrite E. destruct (Nat.eqb_spec i d) as [->|Hne]; cbn [orb].
    - rewrite nth_upd_eq by lia. assert (Ex : existsb (Nat.eqb d) dims = false).
      { destruct (existsb (Nat.eqb d) dims) eqn:Ex; auto. apply existsb_exists in Ex. destruct Ex as (x & Hx & Hxe). apply Nat.eqb_eq in Hxe. subst. contradiction. }
      rewrite Ex. unfold bitOf. cbn [idxOf]. rewrite Nat.eqb_refl. reflexivity.
    - rewrite nth_upd_neq by auto. unfold bitOf. cbn [idxOf]. destruct (Nat.eqb_spec d i); [congruence|]. reflexivity.
  Qed.
End Split.
