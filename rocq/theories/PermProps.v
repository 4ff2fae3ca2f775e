(** * C85: the permutation arrays multiply a row of a Macaulay matrix by a monomial *)
From Coq Require Import List Arith Bool Lia Permutation ZArith.
From Verif Require Import Num Tensor TermModel TermProofs TermProps LinAlgModel LinAlgProofs2 PermModel PermProofs.
Import ListNotations.

(** ** Specification *)
(** the product of two monomials: the exponents add *)
Definition monProduct (u v uv : list nat) : Prop :=
  length u = length v /\ length uv = length u /\ forall i, nth i uv 0 = nth i u 0 + nth i v 0.
(** a polynomial in k variables is a function c from exponent vectors to coefficients; c' is the polynomial x^w * c *)
Definition timesMonomial {T} (zero : T) (k : nat) (w : list nat) (c c' : list nat -> T) : Prop :=
  (forall v vw, length v = k -> monProduct v w vw -> c' vw = c v) /\
  (forall m, length m = k -> (forall v, length v = k -> ~ monProduct v w m) -> c' m = zero).
(** the row of the polynomial c in a matrix whose columns belong to the monomials cs *)
Definition rowOf {T} (c : list nat -> T) (cs : list (list nat)) : list T := map c cs.
(** row[P] for an integer array P *)
Definition permuteRow {T} (zero : T) (row : list T) (P : list nat) : list T := map (fun j => nth j row zero) P.

Lemma monProduct_iff u v uv : monProduct u v uv <-> length u = length v /\ uv = addMon' u v.
Proof.
  split.
  - intros [L [L2 H]]. split; auto. revert v uv L L2 H. induction u as [|x u IH]; intros [|y v] [|z uv] L L2 H; try discriminate; [reflexivity|].
    cbn. f_equal; [exact (H 0)|]. apply IH; [injection L; auto|injection L2; auto|]. intros i. exact (H (S i)).
  - intros [L ->]. split; [auto|split; [apply addMon_length; auto|]]. revert v L. induction u as [|x u IH]; intros [|y v] L i; try discriminate; [destruct i; reflexivity|].
    destruct i; [reflexivity|]. cbn. apply IH. injection L; auto.
Qed.
Lemma good_multiplies {T} (zero : T) k D w P (c c' : list nat -> T) : length w = k -> goodFor k D w P ->
  (forall v, length v = k -> D < list_sum v + list_sum w -> c v = zero) -> timesMonomial zero k w c c' ->
  permuteRow zero (rowOf c (colsAll k D)) P = rowOf c' (colsAll k D).
Proof.
  intros Lw [PP HP] Hc [H1 H2]. unfold permuteRow, rowOf. assert (LP := Permutation_length PP). rewrite seq_length in LP.
  apply nth_ext with (d := (fun j => nth j (map c (colsAll k D)) zero) 0) (d' := c' []); [rewrite !map_length; auto|].
  intros j Hj. rewrite map_length, LP in Hj. rewrite (map_nth (fun j => nth j (map c (colsAll k D)) zero)), map_nth.
  assert (R : nth j P 0 < length (colsAll k D)) by (apply perm_range; auto).
  rewrite nth_indep with (d' := c []) by (rewrite map_length; auto). rewrite map_nth.
  assert (C : forall a, a < length (colsAll k D) -> length (nth a (colsAll k D) []) = k) by (intros a Ha; apply (colsAll_In k D), nth_In; auto).
  destruct (HP j Hj) as [[v [Lv [Ev EP]]]|[Nv Hs]].
  - rewrite EP. symmetry. apply H1; auto. apply monProduct_iff. split; congruence.
  - rewrite Hc by auto. symmetry. apply H2; auto. intros v Lv M. apply monProduct_iff in M as [_ M]. apply (Nv v Lv). auto.
Qed.

(** mons_ordered(k, D) lists every monomial of degree at most D once; lower degree first and lexicographic within a degree *)
Theorem C85_mons_ordered k D : 1 <= k -> exists ms, mons_ordered k D = Some ms /\ NoDup ms /\ (forall v, In v ms <-> length v = k /\ list_sum v <= D) /\
  forall i j u v, i < j -> nth_error ms i = Some u -> nth_error ms j = Some v -> list_sum u < list_sum v \/ (list_sum u = list_sum v /\ natLexBefore u v).
Proof.
  intros Hk. assert (E := colsAll_ordered k D Hk). destruct (mons_ordered k D) as [ms|] eqn:EM; [|discriminate]. cbn in E. injection E as E.
  exists ms. split; [auto|]. assert (E' : ms = rev (colsAll k D)) by (rewrite <- E, rev_involutive; auto).
  split; [rewrite E'; apply NoDup_rev, NoDup_colsAll; auto|]. split; [intros v; rewrite E', <- in_rev; apply colsAll_In|].
  assert (F : rev (colsAll k D) = flat_map (enum leafEq k) (seq 0 (D + 1))).
  { clear -Hk. induction D; [cbn; rewrite app_nil_r, <- cols_enum, rev_involutive by auto; auto|].
    replace (S D + 1) with (S (D + 1)) by lia. rewrite seq_S, flat_map_app. cbn [colsAll flat_map]. rewrite rev_app_distr, IHD, app_nil_r. f_equal.
    rewrite <- cols_enum, rev_involutive by auto. f_equal. lia. }
  rewrite E', F. clear E E' F EM ms.
  assert (G : forall n s i j u v, i < j -> nth_error (flat_map (enum leafEq k) (seq s n)) i = Some u -> nth_error (flat_map (enum leafEq k) (seq s n)) j = Some v ->
    list_sum u < list_sum v \/ (list_sum u = list_sum v /\ natLexBefore u v)).
  { induction n; intros s i j u v Hij Hu Hv; [destruct i; discriminate|]. cbn [seq flat_map] in Hu, Hv.
    destruct (Nat.lt_ge_cases j (length (enum leafEq k s))) as [Hj|Hj].
    - rewrite nth_error_app1 in Hu, Hv by lia. right. split.
      + apply nth_error_In, enumEq_In in Hu; auto. apply nth_error_In, enumEq_In in Hv; auto. lia.
      + exact (sorted_before _ (enum_sorted leafEq leafEq_sorted k s) i j u v Hij Hu Hv).
    - rewrite nth_error_app2 in Hv by lia. destruct (Nat.lt_ge_cases i (length (enum leafEq k s))) as [Hi|Hi].
      + rewrite nth_error_app1 in Hu by lia. left. apply nth_error_In, enumEq_In in Hu; auto. apply nth_error_In, in_flat_map in Hv as [d [Hd Hv]].
        apply in_seq in Hd. apply enumEq_In in Hv; auto. lia.
      + rewrite nth_error_app2 in Hu by lia. eapply (IHn (S s) (i - length (enum leafEq k s)) (j - length (enum leafEq k s))); eauto. lia. }
  apply G.
Qed.
Print Assumptions C85_mons_ordered.

(** permutation_array(D, k, m) multiplies by the variable number k-1-m: permuting the row of a polynomial of degree below D
    gives the row of the product.  The columns belong to mons_ordered(k, D) read backwards. *)
Theorem C85_permutation_array_multiplies_by_a_variable {T} (zero : T) D k m : 1 <= D -> m < k ->
  exists P ms, permutation_array D k m = Some P /\ mons_ordered k D = Some ms /\ Permutation P (seq 0 (length ms)) /\
  forall c c' w, (forall i, i < k -> nth i w 0 = if i =? k - 1 - m then 1 else 0) -> length w = k ->
    (forall v, length v = k -> D <= list_sum v -> c v = zero) -> timesMonomial zero k w c c' ->
    permuteRow zero (rowOf c (rev ms)) P = rowOf c' (rev ms).
Proof.
  intros HD Hm. destruct (good_unit k D (k - 1 - m) ltac:(lia) HD) as [P [E G]]. replace (k - 1 - (k - 1 - m)) with m in E by lia.
  assert (EO := colsAll_ordered k D ltac:(lia)). destruct (mons_ordered k D) as [ms|] eqn:EM; [|discriminate]. cbn in EO. injection EO as EO.
  exists P, ms. split; [auto|split; [auto|split]].
  - rewrite <- rev_length, EO. apply G.
  - intros c c' w Hw Lw Hc Ht. rewrite EO. apply (good_multiplies zero k D w P); auto.
    + replace w with (unit_mon k (k - 1 - m)); auto. apply nth_ext with (d := 0) (d' := 0); [rewrite unit_length; auto|].
      rewrite unit_length. intros i Hi. rewrite Hw by auto. unfold unit_mon. rewrite nth_upd by (rewrite repeat_length; lia).
      destruct (i =? k - 1 - m); [reflexivity|]. apply nth_repeat.
    + intros v Lv Hs. apply Hc; auto. replace w with (unit_mon k (k - 1 - m)) in Hs; [rewrite unit_sum in Hs by lia; lia|].
      apply nth_ext with (d := 0) (d' := 0); [rewrite unit_length; auto|].
      rewrite unit_length. intros i Hi. rewrite Hw by auto. unfold unit_mon. rewrite nth_upd by (rewrite repeat_length; lia).
      destruct (i =? k - 1 - m); [reflexivity|]. apply nth_repeat.
Qed.
Print Assumptions C85_permutation_array_multiplies_by_a_variable.

(** all_permutations(deg, k, D): for every monomial x^w of degree at most deg there is an array P, a permutation of the columns, and
    permuting by it multiplies every polynomial by x^w whose product still has degree at most D *)
Theorem C85_permutations_multiply {T} (zero : T) deg k D : 1 <= k -> 1 <= D ->
  exists dict ms, all_permutations deg k D = Some dict /\ mons_ordered k D = Some ms /\
  forall w, length w = k -> list_sum w <= deg -> exists P, plookup w dict = Some P /\ Permutation P (seq 0 (length ms)) /\
    forall c c', (forall v, length v = k -> D < list_sum v + list_sum w -> c v = zero) -> timesMonomial zero k w c c' ->
      permuteRow zero (rowOf c (rev ms)) P = rowOf c' (rev ms).
Proof.
  intros Hk HD. destruct (all_permutations_spec deg k D Hk HD) as [dict [E [G C]]].
  assert (EO := colsAll_ordered k D Hk). destruct (mons_ordered k D) as [ms|] eqn:EM; [|discriminate]. cbn in EO. injection EO as EO.
  exists dict, ms. split; [auto|split; [auto|]]. intros w Lw Sw. destruct (C w Lw Sw) as [P EP]. exists P. destruct (G w P EP) as [_ GP].
  split; [auto|split].
  - rewrite <- rev_length, EO. apply GP.
  - intros c c' Hc Ht. rewrite EO. apply (good_multiplies zero k D w P); auto.
Qed.
Print Assumptions C85_permutations_multiply.

(** and every array in the dictionary belongs to a monomial it multiplies by: nothing else is stored *)
Theorem C85_only_such_arrays_are_stored {T} (zero : T) deg k D dict ms w P : 1 <= k -> 1 <= D -> all_permutations deg k D = Some dict -> mons_ordered k D = Some ms ->
  plookup w dict = Some P -> length w = k /\ Permutation P (seq 0 (length ms)) /\
  forall c c', (forall v, length v = k -> D < list_sum v + list_sum w -> c v = zero) -> timesMonomial zero k w c c' ->
    permuteRow zero (rowOf c (rev ms)) P = rowOf c' (rev ms).
Proof.
  intros Hk HD E EM EP. destruct (all_permutations_spec deg k D Hk HD) as [dict' [E' [G C]]]. rewrite E in E'. injection E' as <-.
  assert (EO := colsAll_ordered k D Hk). rewrite EM in EO. cbn in EO. injection EO as EO.
  destruct (G w P EP) as [Lw GP]. split; [auto|split].
  - rewrite <- rev_length, EO. apply GP.
  - intros c c' Hc Ht. rewrite EO. apply (good_multiplies zero k D w P); auto.
Qed.
Print Assumptions C85_only_such_arrays_are_stored.

(** a product of too high degree is not cut off: its leading coefficients come back in other columns.
    Here x * x in one variable with matrix degree 1: the row (1, 0) of x becomes (0, 1), the row of the constant 1. *)
Theorem C85_too_high_degree_cut_off_refuted :
  ~ forall deg k D dict ms w P (c c' : list nat -> Z), 1 <= k -> 1 <= D -> all_permutations deg k D = Some dict -> mons_ordered k D = Some ms -> plookup w dict = Some P ->
    timesMonomial 0%Z k w c c' -> permuteRow 0%Z (rowOf c (rev ms)) P = rowOf c' (rev ms).
Proof.
  intros H. set (c := fun v : list nat => if sameKey v [1] then 1%Z else 0%Z). set (c' := fun v : list nat => if sameKey v [2] then 1%Z else 0%Z).
  specialize (H 1 1 1 [([1], [1; 0]); ([0], [0; 1])] [[0]; [1]] [1] [1; 0] c c' (le_n _) (le_n _) eq_refl eq_refl eq_refl).
  assert (X : timesMonomial 0%Z 1 [1] c c').
  { split.
    - intros v vw L M. apply monProduct_iff in M as [_ M]. destruct v as [|x [|? ?]]; try discriminate. cbn in M. subst vw. unfold c, c'.
      rewrite !sameKey_cons. replace (x + 1 =? 2) with (x =? 1) by (destruct (Nat.eqb_spec x 1), (Nat.eqb_spec (x + 1) 2); auto; lia). reflexivity.
    - intros m L N. unfold c'. destruct (sameKey m [2]) eqn:E; [|reflexivity]. apply sameKey_iff in E. exfalso. apply (N [1] eq_refl). subst m. apply monProduct_iff. auto. }
  specialize (H X). discriminate H.
Qed.
Print Assumptions C85_too_high_degree_cut_off_refuted.
(** matrix degree 0 is not served in two or more variables: the array for the first variable has one entry too many per variable *)
Theorem C85_degree_zero_refuted : ~ forall D k m P ms, m < k -> permutation_array D k m = Some P -> mons_ordered k D = Some ms -> length P = length ms.
Proof. intros H. specialize (H 0 2 0 _ _ (le_S _ _ (le_n 1)) eq_refl eq_refl). discriminate H. Qed.
Print Assumptions C85_degree_zero_refuted.

(** memoized_all_permutations: whatever calls were made before, a call with the three positional arguments returns what
    all_permutations returns for them *)
Definition callsOf {V} (f : nat * nat * nat -> unit -> V) (calls : list (nat * nat * nat)) : pcache V :=
  fold_left (fun c a => snd (memoizedCall f c a tt)) calls [].
Theorem C85_memoisation_is_transparent {V} (f : nat * nat * nat -> unit -> V) calls a : fst (memoizedCall f (callsOf f calls) a tt) = f a tt.
Proof.
  assert (K : forall x y, sameArgs x y = true -> x = y).
  { intros [[a1 a2] a3] [[b1 b2] b3] H. unfold sameArgs in H. apply andb_true_iff in H as [H H3]. apply andb_true_iff in H as [H1 H2].
    apply Nat.eqb_eq in H1, H2, H3. congruence. }
  assert (I : forall x v, clookup x (callsOf f calls) = Some v -> v = f x tt).
  { unfold callsOf. assert (G : forall l c, (forall x v, clookup x c = Some v -> v = f x tt) -> forall x v, clookup x (fold_left (fun c a => snd (memoizedCall f c a tt)) l c) = Some v -> v = f x tt).
    { induction l as [|b l IH]; intros c Hc; [auto|]. cbn [fold_left]. apply IH. unfold memoizedCall. destruct (clookup b c) eqn:E; [exact Hc|].
      cbn [snd]. intros x v. cbn [clookup]. destruct (sameArgs x b) eqn:S; [|apply Hc]. apply K in S. subst. intros X; injection X; auto. }
    apply G. intros x v X; discriminate X. }
  unfold memoizedCall. destruct (clookup a (callsOf f calls)) eqn:E; [apply I; auto|reflexivity].
Qed.
Print Assumptions C85_memoisation_is_transparent.
(** with further arguments (known permutations, current_degree) it is not: they are not part of the key *)
Theorem C85_memoisation_of_further_arguments_refuted :
  ~ forall (V W : Type) (f : nat * nat * nat -> W -> V) a r r', fst (memoizedCall f (snd (memoizedCall f [] a r)) a r') = f a r'.
Proof. intros H. specialize (H nat nat (fun _ r => r) (0, 0, 0) 1 2). discriminate H. Qed.
Print Assumptions C85_memoisation_of_further_arguments_refuted.

(** two variables, degree 2: multiplying 3 + 5 y by x.  Columns x^2, x y, y^2, x, y, 1. *)
Example C85_case : exists dict ms P, all_permutations 1 2 2 = Some dict /\ mons_ordered 2 2 = Some ms /\ plookup [1; 0] dict = Some P /\
  rev ms = [[2; 0]; [1; 1]; [0; 2]; [1; 0]; [0; 1]; [0; 0]] /\ P = [3; 4; 0; 5; 1; 2] /\ permuteRow 0%Z [0; 0; 0; 0; 5; 3]%Z P = [0; 5; 0; 3; 0; 0]%Z.
Proof. do 3 eexists. repeat split; vm_compute; reflexivity. Qed.
