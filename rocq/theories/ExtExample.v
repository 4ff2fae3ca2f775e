(** * Concrete external routines
    A stable argsort, the iteration order of a CPython set of small ints, and a 1x1 singular value
    decomposition over any arithmetic.  They show that the contracts assumed of the external
    routines can be met, and let the solver model be run. *)
From Coq Require Import List Arith Bool ZArith Reals QArith Qreals Lra Lia Sorted Permutation.
From Verif Require Import Num RSum Tensor LinearModel LinearProofs SvdExample QuadNdFaces QuadTransfer GaussExample Transfer SolverModel OrderProofs SolverTransfer.
Import ListNotations.
Local Open Scope nat_scope.

(** ** argsort *)
Fixpoint insKey (l : list nat) (k : nat) (r : list nat) : list nat :=
  match r with
  | [] => [k]
  | j :: r' => if nth k l 0 <=? nth j l 0 then k :: r else j :: insKey l k r'
  end.
Definition isort (l : list nat) : list nat := fold_right (insKey l) [] (seq 0 (length l)).

Lemma insKey_perm l k r : Permutation (insKey l k r) (k :: r).
Proof. induction r as [|j r IH]; cbn; auto. destruct (_ <=? _); auto. rewrite IH. apply perm_swap. Qed.
Lemma insKey_sorted l k r : StronglySorted Peano.le (map (fun i => nth i l 0) r) -> StronglySorted Peano.le (map (fun i => nth i l 0) (insKey l k r)).
Proof.
  induction r as [|j r IH]; cbn [insKey map]; intros Hs; [repeat constructor|]. destruct (Nat.leb_spec (nth k l 0) (nth j l 0)) as [Hle|Hlt]; cbn [map].
  - constructor; auto. constructor; auto. apply StronglySorted_inv in Hs. eapply Forall_impl; [|apply (proj2 Hs)]. cbv beta; intros; lia.
  - apply StronglySorted_inv in Hs. destruct Hs as [Hs HF]. constructor; [auto|]. apply Forall_forall. intros x Hx. apply in_map_iff in Hx. destruct Hx as (i & <- & Hi).
    apply (Permutation_in _ (insKey_perm l k r)) in Hi. destruct Hi as [<-|Hi]; [lia|]. rewrite Forall_forall in HF. apply HF. apply in_map_iff; eauto.
Qed.
Lemma isort_ok : argsort_ok isort.
Proof.
  intros l. unfold isort. generalize (seq 0 (length l)) as ks. induction ks as [|k ks [IH1 IH2]]; cbn [fold_right]; [split; repeat constructor|]. split.
  - rewrite insKey_perm. auto.
  - apply insKey_sorted; auto.
Qed.

(** ** CPython sets of small ints (Objects/setobject.c, set_add_entry, set_table_resize, setiter_iternext).
    [hash i = i]; the table has a power-of-two size; the slot [i mod size] is probed first, then up to
    9 following slots when they fit, then slot [5 i + 1 + (perturb >> 5)]; the table is rebuilt with more
    than 4 times the used slots once [fill * 5 >= mask * 3]; iteration visits the slots in order. *)
Definition slot := option nat.
(** first slot among [i, i+1, .., i+k] that is free or holds [x] *)
Fixpoint scan (t : list slot) (x i k : nat) : option nat :=
  match nth i t None with
  | None => Some i
  | Some y => if y =? x then Some i else match k with O => None | S k' => scan t x (S i) k' end
  end.
Fixpoint probe (fuel : nat) (t : list slot) (x i perturb : nat) : option nat :=
  match fuel with
  | O => None
  | S f =>
      let mask := length t - 1 in
      match scan t x i (if i + 9 <=? mask then 9 else 0) with
      | Some j => Some j
      | None => let perturb := perturb / 32 in probe f t x ((i * 5 + 1 + perturb) mod length t) perturb
      end
  end.
Definition insertSlot (t : list slot) (x : nat) : list slot :=
  match probe (S (length t) * 4 + x) t x (x mod length t) x with Some j => upd t j (Some x) | None => t end.
Definition slots (t : list slot) : list nat := flat_map (fun s => match s with Some x => [x] | None => [] end) t.
Fixpoint tableSize (k size minused : nat) : nat :=
  match k with O => size | S k' => if size <=? minused then tableSize k' (2 * size) minused else size end.
Definition resize (t : list slot) : list slot :=
  let used := length (slots t) in
  fold_left insertSlot (slots t) (repeat None (tableSize (used * 4) 8 (used * 4))).
Definition setAdd (t : list slot) (x : nat) : list slot :=
  if existsb (Nat.eqb x) (slots t) then t
  else
    let t' := insertSlot t x in
    if length (slots t') * 5 <? (length t' - 1) * 3 then t' else resize t'.
Definition pySet (l : list nat) : list nat := slots (fold_left setAdd l (repeat None 8)).

Example pySet_1_8 : pySet [1; 8] = [8; 1].
Proof. reflexivity. Qed.
Example pySet_2_9_4 : pySet [2; 9; 4] = [9; 2; 4].
Proof. reflexivity. Qed.
Example pySet_0_8 : pySet [8; 0] = [8; 0] /\ pySet [0; 8] = [0; 8].
Proof. split; reflexivity. Qed.
Example pySet_16 : pySet [16; 3; 8; 0; 5; 7] = [0; 3; 5; 7; 8; 16].
Proof. reflexivity. Qed.

(** every value below 8 sits in its own slot *)
Definition direct (t : list slot) : Prop := 8 <= length t /\ forall j, nth j t None = None \/ nth j t None = Some j.
Definition vals_of (t : list slot) : nat -> Prop := fun x => nth x t None = Some x.
Lemma slots_aux (t : list slot) : forall a, (forall j, nth j t None = None \/ nth j t None = Some (a + j)) ->
  StronglySorted lt (slots t) /\ Forall (fun x => a <= x) (slots t) /\ forall x, In x (slots t) <-> exists j, x = a + j /\ nth j t None = Some x.
Proof.
  induction t as [|s t IH]; intros a Hd; cbn [slots flat_map].
  - split; [constructor|]. split; [constructor|]. intros x; split; [intros []|]. intros (j & _ & E). destruct j; discriminate.
  - destruct (IH (S a)) as (I1 & I2 & I3).
    { intros j. specialize (Hd (S j)). cbn in Hd. destruct Hd as [Hd|Hd]; [left; auto|right]. rewrite Hd. f_equal. lia. }
    fold (slots t) in *. assert (Hs := Hd 0). cbn in Hs.
    destruct Hs as [-> | ->]; cbn [app]; (split; [|split]).
    + auto.
    + eapply Forall_impl; [|exact I2]. cbv beta; intros; lia.
    + intros x. rewrite I3. split; intros (j & Hx & E).
      * exists (S j). split; [lia|auto].
      * destruct j; [discriminate|]. exists j. split; [lia|auto].
    + constructor; auto. eapply Forall_impl; [|exact I2]. cbv beta; intros; lia.
    + constructor; [lia|]. eapply Forall_impl; [|exact I2]. cbv beta; intros; lia.
    + intros x. cbn [In]. rewrite I3. split.
      * intros [<-|(j & Hx & E)]; [exists 0; split; [lia|cbn; f_equal; lia]|exists (S j); split; [lia|auto]].
      * intros (j & Hx & E). destruct j; [left; cbn in E; inversion E; lia|right; exists j; split; [lia|auto]].
Qed.
Lemma slots_direct t : direct t -> StronglySorted lt (slots t) /\ forall x, In x (slots t) <-> nth x t None = Some x.
Proof.
  intros [_ Hd]. destruct (slots_aux t 0 Hd) as (A & _ & C). split; auto. intros x. rewrite C. split; [intros (j & -> & E); exact E|intros E; exists x; auto].
Qed.
Lemma nth_upd' {A} (l : list A) i x j d : i < length l -> nth j (upd l i x) d = if j =? i then x else nth j l d.
Proof. revert i j. induction l as [|a l IH]; intros [|i] [|j] H; cbn in *; try lia; auto. apply IH. lia. Qed.
Lemma upd_length' {A} (l : list A) i x : length (upd l i x) = length l.
Proof. revert i. induction l as [|a l IH]; intros [|i]; cbn; auto. Qed.
Lemma insert_direct t x : x < 8 -> direct t -> direct (insertSlot t x) /\ length (insertSlot t x) = length t /\
  forall y, nth y (insertSlot t x) None = Some y <-> nth y t None = Some y \/ y = x.
Proof.
  intros Hx [Hl Hd]. unfold insertSlot. rewrite Nat.mod_small by lia.
  assert (Hp : probe (S (length t) * 4 + x) t x x x = Some x).
  { change (S (length t) * 4 + x) with (S (3 + length t * 4 + x)). cbn [probe].
    assert (E : forall k, scan t x x k = Some x) by (intros k; destruct k; cbn [scan]; destruct (Hd x) as [-> | ->]; auto; rewrite Nat.eqb_refl; auto). rewrite E. auto. }
  rewrite Hp. split; [|split].
  - split; [rewrite upd_length'; auto|]. intros j. rewrite nth_upd' by lia. destruct (Nat.eqb_spec j x); [subst; auto|apply Hd].
  - apply upd_length'.
  - intros y. rewrite nth_upd' by lia. destruct (Nat.eqb_spec y x); [subst; tauto|]. split; [auto|intros [E|E]; [auto|congruence]].
Qed.
Lemma insertAll_direct l : forall t, Forall (fun i => i < 8) l -> direct t -> direct (fold_left insertSlot l t) /\
  forall y, nth y (fold_left insertSlot l t) None = Some y <-> nth y t None = Some y \/ In y l.
Proof.
  induction l as [|x l IH]; intros t HF Hd; cbn [fold_left]; [split; [auto|intros y; cbn; tauto]|].
  apply Forall_cons_iff in HF. destruct HF as [Hx HF]. destruct (insert_direct t x Hx Hd) as (D & _ & E). destruct (IH _ HF D) as [D' E']. split; auto.
  intros y. rewrite E', E. cbn [In]. intuition congruence.
Qed.
Lemma tableSize_ge k : forall s m, s <= tableSize k s m.
Proof. induction k as [|k IH]; intros s m; cbn [tableSize]; auto. destruct (_ <=? _); auto. specialize (IH (2 * s) m). lia. Qed.
Lemma setAdd_direct t x : x < 8 -> direct t -> Forall (fun i => i < 8) (slots t) -> direct (setAdd t x) /\
  forall y, nth y (setAdd t x) None = Some y <-> nth y t None = Some y \/ y = x.
Proof.
  intros Hx Hd HF. unfold setAdd. destruct (slots_direct t Hd) as [_ Hin]. destruct (existsb _ _) eqn:Ex.
  - split; auto. apply existsb_exists in Ex. destruct Ex as (z & Hz & E). apply Nat.eqb_eq in E. subst z. apply Hin in Hz. intros y. split; [auto|intros [E| ->]; auto].
  - destruct (insert_direct t x Hx Hd) as (D & _ & E). destruct (_ <? _); [split; auto|].
    destruct (slots_direct _ D) as [_ Hin']. unfold resize.
    assert (Hd0 : direct (repeat None (tableSize (length (slots (insertSlot t x)) * 4) 8 (length (slots (insertSlot t x)) * 4)))).
    { split; [rewrite repeat_length; apply tableSize_ge|]. intros j. left. apply nth_repeat. }
    assert (HF' : Forall (fun i => i < 8) (slots (insertSlot t x))).
    { apply Forall_forall. intros z Hz. apply Hin', E in Hz. destruct Hz as [Hz| ->]; auto. rewrite Forall_forall in HF. apply HF, Hin. auto. }
    destruct (insertAll_direct _ _ HF' Hd0) as [D' E']. split; auto. intros y. rewrite E', nth_repeat, Hin', E. split; [intros [H|H]; [discriminate|auto]|auto].
Qed.
Lemma setAll l : forall t, Forall (fun i => i < 8) l -> direct t -> Forall (fun i => i < 8) (slots t) ->
  direct (fold_left setAdd l t) /\ forall y, nth y (fold_left setAdd l t) None = Some y <-> nth y t None = Some y \/ In y l.
Proof.
  induction l as [|x l IH]; intros t HF Hd Ht; cbn [fold_left]; [split; [auto|intros y; cbn; tauto]|].
  apply Forall_cons_iff in HF. destruct HF as [Hx HF]. destruct (setAdd_direct t x Hx Hd Ht) as [D E].
  destruct (IH (setAdd t x) HF D) as [D' E'].
  { apply Forall_forall. intros z Hz. apply (slots_direct _ D), E in Hz. destruct Hz as [Hz| ->]; auto. rewrite Forall_forall in Ht. apply Ht, (slots_direct _ Hd). auto. }
  split; auto. intros y. rewrite E', E. cbn [In]. intuition congruence.
Qed.
(** up to eight dimensions a set of axis numbers is visited in increasing order *)
Theorem pySet_ok n : n <= 8 -> set_ok n pySet.
Proof.
  intros Hn l HF. assert (HF8 : Forall (fun i => i < 8) l) by (eapply Forall_impl; [|exact HF]; cbn; cbv beta; intros; lia).
  assert (D0 : direct (repeat None 8)) by (split; [rewrite repeat_length; auto|intros j; left; apply nth_repeat]).
  destruct (setAll l (repeat None 8) HF8 D0) as [D E]; [repeat constructor|]. destruct (slots_direct _ D) as [S1 S2].
  split; [exact S1|]. intros i. unfold pySet. rewrite S2, E, nth_repeat. split; [intros [H|H]; [discriminate|auto]|auto].
Qed.
(** with nine dimensions it is not *)
Theorem pySet_nine : ~ set_ok 9 pySet.
Proof.
  intros H. destruct (H [1; 8] ltac:(repeat constructor; lia)) as [Hs _]. rewrite pySet_1_8 in Hs. apply StronglySorted_inv in Hs. destruct Hs as [_ HF].
  apply Forall_inv in HF. lia.
Qed.

(** ** a 1x1 singular value decomposition over any arithmetic *)
Section G.
  Context {T : Type} {NT : Num T}.
  Definition svd1g (A : list (list T)) : list (list T) * list T * list (list T) :=
    let a := mget A 0 0 in (if nltb a n0 then [[nopp n1]] else [[n1]], [nabs a], [[n1]]).
  Definition ext1 : ext T := mkExt svd1g gauss_rank gauss_solve isort pySet.
  (** the same with any decomposition *)
  Definition extWith (svd : list (list T) -> list (list T) * list T * list (list T)) : ext T := mkExt svd gauss_rank gauss_solve isort pySet.
End G.
Lemma svd1g_R A : svd1g A = svd1 A.
Proof.
  unfold svd1g, svd1. destruct (Rlt_dec (@mget R R_num A 0 0) 0) as [H|H].
  - change (@nltb R R_num) with Rltb. rewrite (proj2 (Rltb_true _ _)) by exact H. reflexivity.
  - change (@nltb R R_num) with Rltb. rewrite (proj2 (Rltb_false _ _)) by (cbn in *; lra). reflexivity.
Qed.
Lemma svd1g_ok : svd_ok 1 (@svd1g R R_num).
Proof. intros A H. rewrite svd1g_R. apply svd1_ok; auto. Qed.
Lemma h_mget1 (A : list (list Q)) : Q2R (mget (NT:=Q_num) A 0 0) = mget (map (map Q2R) A) 0 0.
Proof. unfold mget. rewrite <- (h_0 (NA:=Q_num) (h:=Q2R)), <- (map_nth Q2R). f_equal. change (@nil R) with (map Q2R []). rewrite map_nth. reflexivity. Qed.
Lemma ext1_hom : extHom (h := Q2R) (@ext1 Q Q_num) (@ext1 R R_num).
Proof.
  constructor; cbn [ext1 xsvd xrank xsolve xargsort xset]; auto.
  - intros A. unfold hsvd, svd1g. cbn [fst snd]. rewrite <- (h_mget1 A). rewrite (h_ltb (NA:=Q_num) (h:=Q2R)), (h_0 (NA:=Q_num) (h:=Q2R)). destruct (nltb _ _); cbn [map]; homs Q2R; reflexivity.
  - intros A. apply (h_gauss_rank (NA:=Q_num) (h:=Q2R)).
  - intros A b. apply (h_gauss_solve (NA:=Q_num) (h:=Q2R)).
Qed.
