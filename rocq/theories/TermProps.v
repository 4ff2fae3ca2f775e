(** * C49 (order of terms) and C50 (enumeration of monomials) *)
From Coq Require Import List Arith Bool ZArith Lia Sorted.
From Verif Require Import TermModel TermProofs.
Import ListNotations.

(** ** Specification *)
Definition degree (u : list Z) : Z := fold_right Z.add 0%Z u.
(** graded reverse lexicographic: lower degree first; for equal degrees the term whose last differing exponent is larger comes first *)
Definition grevlexBefore (u v : list Z) : Prop :=
  (degree u < degree v)%Z \/
  (degree u = degree v /\ exists k, k < length u /\ (nth k u 0 > nth k v 0)%Z /\ forall j, k < j < length u -> nth j u 0%Z = nth j v 0%Z).
(** lexicographic: the first differing exponent is smaller *)
Definition lexBefore (u v : list Z) : Prop :=
  exists k, k < length u /\ (nth k u 0 < nth k v 0)%Z /\ forall j, j < k -> nth j u 0%Z = nth j v 0%Z.
Definition grlexBefore (u v : list Z) : Prop := (degree u < degree v)%Z \/ (degree u = degree v /\ lexBefore u v).
(** product of two monomials: exponents add *)
Definition isProduct (u w uw : list Z) : Prop := length uw = length u /\ forall i, nth i uw 0%Z = (nth i u 0 + nth i w 0)%Z.

Lemma isProduct_vadd u : forall w uw, length u = length w -> isProduct u w uw -> uw = vadd u w.
Proof.
  induction u as [|x u IH]; intros [|y w] [|z uw] L [L' H]; simpl in *; try discriminate; [reflexivity|].
  f_equal; [apply (H 0)|]. apply IH; [lia|]. split; [lia|]. intro i; apply (H (S i)).
Qed.
Lemma grevlex_spec u v : length u = length v -> (term_lt u v Grevlex = true <-> grevlexBefore u v).
Proof.
  intro L. rewrite lt_grevlex. unfold grevlexBefore. change (degree u) with (tsum u). change (degree v) with (tsum v).
  rewrite fdl_spec by (rewrite !rev_length; auto). rewrite !rev_length.
  assert (G : (exists k, k < length v /\ (nth k (rev v) 0 < nth k (rev u) 0)%Z /\ (forall j, j < k -> nth j (rev v) 0%Z = nth j (rev u) 0%Z)) <->
    (exists k, k < length u /\ (nth k u 0 > nth k v 0)%Z /\ (forall j, k < j < length u -> nth j u 0%Z = nth j v 0%Z))).
  { split; intros [k [Hk [H1 H2]]]; exists (length u - S k); (split; [lia|]).
    - rewrite !rev_nth in H1 by lia. rewrite <- L in H1. split; [lia|]. intros j Hj. specialize (H2 (length u - S j) ltac:(lia)).
      rewrite !rev_nth in H2 by lia. rewrite <- L in H2. replace (length u - S (length u - S j)) with j in H2 by lia. auto.
    - split.
      + rewrite !rev_nth by lia. rewrite <- L. replace (length u - S (length u - S k)) with k by lia. lia.
      + intros j Hj. rewrite !rev_nth by lia. rewrite <- L. symmetry; apply H2; lia. }
  rewrite G. reflexivity.
Qed.

(** ** C49 *)
(** < on terms in the same number of variables is the graded reverse lexicographic order *)
Theorem C49_lt_is_grevlex u v : length u = length v -> (term_lt u v Grevlex = true <-> grevlexBefore u v).
Proof. exact (grevlex_spec u v). Qed.
Print Assumptions C49_lt_is_grevlex.

(** the other two values of the order parameter give what they say *)
Theorem C49_other_orders u v : length u = length v ->
  (term_lt u v Lexographic = true <-> lexBefore u v) /\ (term_lt u v Grlex = true <-> grlexBefore u v).
Proof.
  intro L. split; [exact (fdl_spec u v L)|]. unfold grlexBefore, lexBefore. rewrite <- (fdl_spec u v L). unfold term_lt.
  change (degree u) with (tsum u). change (degree v) with (tsum v). destruct (Z.ltb_spec (tsum u) (tsum v)), (Z.ltb_spec (tsum v) (tsum u)); intuition lia.
Qed.
Print Assumptions C49_other_orders.

(** strict total order *)
Theorem C49_strict_total_order u v w : length u = length v -> length v = length w ->
  term_lt u u Grevlex = false /\
  (term_lt u v Grevlex = true -> term_lt v w Grevlex = true -> term_lt u w Grevlex = true) /\
  (term_lt u v Grevlex = true \/ u = v \/ term_lt v u Grevlex = true).
Proof.
  intros L1 L2. split; [apply lt_irrefl|split; [apply lt_trans; assumption|]].
  destruct (term_lt u v Grevlex) eqn:A; [left; reflexivity|]. destruct (term_lt v u Grevlex) eqn:B; [right; right; reflexivity|].
  right; left; apply lt_total; assumption.
Qed.
Print Assumptions C49_strict_total_order.

(** ==, >, >=, <= say the same as < *)
Theorem C49_comparisons_agree u v : length u = length v ->
  (term_eq u v = true <-> u = v) /\ (term_gt u v = true <-> term_lt v u Grevlex = true) /\
  (term_le u v = true <-> ~ term_lt v u Grevlex = true) /\ (term_ge u v = true <-> ~ term_lt u v Grevlex = true).
Proof.
  intro L. split; [apply term_eq_iff|]. split; [rewrite gt_lt by assumption; reflexivity|]. split.
  - unfold term_le. rewrite orb_true_iff, term_eq_iff. split.
    + intros [H| ->]; [rewrite (lt_asym u v L H); discriminate|rewrite lt_irrefl; discriminate].
    + intro H. destruct (term_lt u v Grevlex) eqn:A; [left; reflexivity|]. right; apply lt_total; [assumption|assumption|apply not_true_is_false; assumption].
  - unfold term_ge. rewrite orb_true_iff, term_eq_iff, gt_lt by assumption. split.
    + intros [H| ->]; [rewrite (lt_asym v u (eq_sym L) H); discriminate|rewrite lt_irrefl; discriminate].
    + intro H. destruct (term_lt v u Grevlex) eqn:A; [left; reflexivity|]. right; apply lt_total; [assumption|apply not_true_is_false; assumption|assumption].
Qed.
Print Assumptions C49_comparisons_agree.

(** multiplying both sides by the same monomial does not change a comparison, in any of the three orders *)
Theorem C49_multiplication_keeps_order o u v w uw vw : length u = length v -> length u = length w ->
  isProduct u w uw -> isProduct v w vw -> (term_lt uw vw o = true <-> term_lt u v o = true).
Proof.
  intros L1 L2 P1 P2. rewrite (isProduct_vadd u w uw L2 P1), (isProduct_vadd v w vw ltac:(congruence) P2).
  rewrite (lt_mul_other o u v w L1 L2). reflexivity.
Qed.
Print Assumptions C49_multiplication_keeps_order.

(** with nonnegative exponents, 1 is the smallest monomial and there is no infinite descending chain *)
Theorem C49_one_is_smallest n u : length u = n -> Forall (fun x => 0 <= x)%Z u -> u = repeat 0%Z n \/ term_lt (repeat 0%Z n) u Grevlex = true.
Proof. intros L H; exact (one_least n u (conj L H)). Qed.
Print Assumptions C49_one_is_smallest.
Theorem C49_no_infinite_descent n (f : nat -> list Z) : (forall i, length (f i) = n /\ Forall (fun x => 0 <= x)%Z (f i)) ->
  ~ forall i, term_lt (f (S i)) (f i) Grevlex = true.
Proof.
  intros Hf Hd. assert (A := term_acc n (f 0) (Hf 0)).
  enough (G : forall u, Acc (fun u v => monomial n u /\ monomial n v /\ term_lt u v Grevlex = true) u -> forall i, u = f i -> False) by exact (G _ A 0 eq_refl).
  induction 1 as [u _ IH]. intros i ->. apply (IH (f (S i))) with (i := S i); [|reflexivity].
  split; [apply Hf|split; [apply Hf|apply Hd]].
Qed.
Print Assumptions C49_no_infinite_descent.

(** terms in different numbers of variables are not ordered: two different ones can each be greater than the other *)
Theorem C49_order_on_mixed_lengths_refuted :
  ~ forall u v, term_gt u v = true -> term_gt v u = false.
Proof. intro H. specialize (H [0; 1]%Z [1]%Z eq_refl). discriminate H. Qed.
Print Assumptions C49_order_on_mixed_lengths_refuted.

Example C49_case : length [1; 2; 0]%Z = length [0; 2; 1]%Z /\ isProduct [1; 2; 0]%Z [0; 0; 3]%Z [1; 2; 3]%Z /\
  isProduct [0; 2; 1]%Z [0; 0; 3]%Z [0; 2; 4]%Z /\ term_lt [0; 2; 1]%Z [1; 2; 0]%Z Grevlex = true /\ term_lt [0; 2; 4]%Z [1; 2; 3]%Z Grevlex = true /\
  term_lt [1; 2; 0]%Z [0; 2; 1]%Z Grevlex = false.
Proof.
  repeat split; try reflexivity; intro i; do 3 (destruct i as [|i]; [reflexivity|]); destruct i; reflexivity.
Qed.

(** ** C50 *)
(** strict lexicographic order of exponent vectors *)
Definition natLexBefore (u v : list nat) : Prop :=
  exists k, k < length u /\ nth k u 0 < nth k v 0 /\ forall j, j < k -> nth j u 0 = nth j v 0.
Lemma nlexlt_before u : forall v, nlexlt u v -> natLexBefore u v.
Proof.
  induction u as [|x u IH]; intros [|y v] H; simpl in H; try contradiction. destruct H as [H|[-> H]].
  - exists 0; simpl; split; [lia|split; [assumption|intros; lia]].
  - destruct (IH v H) as [k [Hk [H1 H2]]]. exists (S k); simpl. split; [lia|split; [assumption|]]. intros [|j] Hj; [reflexivity|apply H2; lia].
Qed.
Lemma sorted_before l : StronglySorted nlexlt l -> forall i j u v, i < j -> nth_error l i = Some u -> nth_error l j = Some v -> natLexBefore u v.
Proof.
  induction 1 as [|w l S IH Hf]; intros [|i] [|j] u v Hij Hu Hv; simpl in *; try lia; try discriminate.
  - inversion Hu; subst w. rewrite Forall_forall in Hf. apply nlexlt_before, Hf, (nth_error_In _ _ Hv).
  - apply (IH i j); [lia|assumption|assumption].
Qed.

(** mon_combos([0]*n, d) lists every exponent vector of n variables of total degree at most d, each once,
    in lexicographic order *)
Theorem C50_mon_combos_lists_degree_at_most n d : 1 <= n -> exists answers mon', mon_combos (repeat 0 n) d = Some (answers, mon') /\
  (forall v, In v answers <-> length v = n /\ list_sum v <= d) /\ NoDup answers /\
  (forall i j u v, i < j -> nth_error answers i = Some u -> nth_error answers j = Some v -> natLexBefore u v).
Proof.
  intro Hn. exists (enum leafLe n d), (if n =? 1 then [d] else repeat 0 n). split; [apply mon_combos_zeros; assumption|].
  split; [intro v; apply enumLe_In; assumption|]. split; [apply enum_NoDup, leafLe_sorted|]. apply sorted_before, enum_sorted, leafLe_sorted.
Qed.
Print Assumptions C50_mon_combos_lists_degree_at_most.

(** mon_combosHighest([0]*n, d) lists those of total degree exactly d, each once, in lexicographic order *)
Theorem C50_mon_combosHighest_lists_degree_exactly n d : 1 <= n -> exists answers mon', mon_combosHighest (repeat 0 n) d = Some (answers, mon') /\
  (forall v, In v answers <-> length v = n /\ list_sum v = d) /\ NoDup answers /\
  (forall i j u v, i < j -> nth_error answers i = Some u -> nth_error answers j = Some v -> natLexBefore u v).
Proof.
  intro Hn. exists (enum leafEq n d), (if n =? 1 then [d] else repeat 0 n). split; [apply mon_combosHighest_zeros; assumption|].
  split; [intro v; apply enumEq_In; assumption|]. split; [apply enum_NoDup, leafEq_sorted|]. apply sorted_before, enum_sorted, leafEq_sorted.
Qed.
Print Assumptions C50_mon_combosHighest_lists_degree_exactly.

(** num_mons_full and num_mons count them, and are the binomial coefficients they are written as *)
Theorem C50_counts n d answers mon' : 1 <= n ->
  (mon_combos (repeat 0 n) d = Some (answers, mon') -> length answers = num_mons_full d n) /\
  (mon_combosHighest (repeat 0 n) d = Some (answers, mon') -> length answers = num_mons d n) /\
  num_mons_full d n * (fact n * fact d) = fact (d + n) /\
  num_mons d n * (fact d * fact (n - 1)) = fact (d + n - 1).
Proof.
  intro Hn. assert (Em : num_mons d n = comb (d + (n - 1)) d).
  { unfold num_mons. replace (d + n) with (S (d + (n - 1))) by lia. reflexivity. }
  split; [|split; [|split]].
  - rewrite mon_combos_zeros by assumption. intro E; inversion E; subst. apply enumLe_length; assumption.
  - rewrite mon_combosHighest_zeros by assumption. intro E; inversion E; subst. rewrite Em, comb_sym.
    destruct n as [|n]; [lia|]. simpl Nat.sub. rewrite Nat.sub_0_r. apply enumEq_length.
  - unfold num_mons_full. assert (X := comb_fact (d + n) n ltac:(lia)). replace (d + n - n) with d in X by lia. exact X.
  - rewrite Em. assert (X := comb_fact (d + (n - 1)) d ltac:(lia)). replace (d + (n - 1) - d) with (n - 1) in X by lia.
    replace (d + n - 1) with (d + (n - 1)) by lia. exact X.
Qed.
Print Assumptions C50_counts.

(** the list passed in is left as it was in two or more variables, and overwritten in one *)
Theorem C50_argument_changed_only_in_one_variable n d answers mon' : 1 <= n ->
  mon_combos (repeat 0 n) d = Some (answers, mon') \/ mon_combosHighest (repeat 0 n) d = Some (answers, mon') ->
  (2 <= n -> mon' = repeat 0 n) /\ (n = 1 -> mon' = [d]).
Proof.
  intros Hn H. rewrite mon_combos_zeros, mon_combosHighest_zeros in H by assumption.
  assert (E : mon' = if n =? 1 then [d] else repeat 0 n) by (destruct H as [H|H]; inversion H; reflexivity).
  rewrite E. split; intro Hc; destruct (Nat.eqb_spec n 1); try lia; reflexivity.
Qed.
Print Assumptions C50_argument_changed_only_in_one_variable.

(** reusing that list gives another answer: only a list of zeros enumerates as documented *)
Theorem C50_any_start_list_refuted :
  ~ forall mon d answers mon', 1 <= length mon -> mon_combosHighest mon d = Some (answers, mon') -> forall v, In v answers -> list_sum v = d.
Proof.
  intro H. specialize (H [0; 1] 0 [[0; 1]] [0; 1] (le_S _ _ (le_n 1)) eq_refl [0; 1] (or_introl eq_refl)). discriminate H.
Qed.
Print Assumptions C50_any_start_list_refuted.

Example C50_case : mon_combos [0; 0] 2 = Some ([[0; 0]; [0; 1]; [0; 2]; [1; 0]; [1; 1]; [2; 0]], [0; 0]) /\
  mon_combosHighest [0; 0; 0] 1 = Some ([[0; 0; 1]; [0; 1; 0]; [1; 0; 0]], [0; 0; 0]) /\ num_mons_full 2 2 = 6 /\ num_mons 1 3 = 3.
Proof. repeat split; reflexivity. Qed.
