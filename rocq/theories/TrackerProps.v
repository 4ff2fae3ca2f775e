(** * C48: what the root tracker keeps *)
From Coq Require Import List Arith Bool Lia Reals Lra Sorted.
From Verif Require Import Num TrackerModel TrackerProofs.
Import ListNotations.
Local Open Scope R_scope.

(** ** Specification *)
(** z lies strictly between the corners a and b in every coordinate *)
Definition strictlyInside (z a b : list R) : Prop := forall i, (i < length z)%nat -> nth i a 0 < nth i z 0 < nth i b 0.
(** the roots, with box and method, that a history of calls hands in, in order *)
Definition rootsHanded {M} (h : list (call R M)) : list (list R * list R * list R * M) :=
  flat_map (fun c => match c with AddRoots zs a b m => map (fun z => (z, a, b, m)) zs | AddRoot z a b m => [(z, a, b, m)] | _ => [] end) h.
(** the potential roots a history hands in, in order *)
Definition potentialsHanded {M} (h : list (call R M)) : list (list R) :=
  flat_map (fun c => match c with AddPotential ps _ _ _ => ps | _ => [] end) h.
(** the boxes named in the calls of a history *)
Definition boxesSearched {M} (h : list (call R M)) : list (list R * list R) :=
  flat_map (fun c => match c with AddRoots _ a b _ => [(a, b)] | AddRoot _ a b _ => [(a, b)] | AddPotential _ a b _ => [(a, b)] | _ => [] end) h.
(** all points and corners have the same dimension n *)
Definition inDimension {M} (n : nat) (h : list (call R M)) : Prop :=
  (forall z a b m, In (z, a, b, m) (rootsHanded h) -> length z = n) /\ (forall a b, In (a, b) (boxesSearched h) -> length a = n /\ length b = n).
(** strict lexicographic order of rows: the first entry in which they differ is smaller *)
Definition lexBefore (u v : list R) : Prop :=
  exists k, (k < length u)%nat /\ nth k u 0 < nth k v 0 /\ forall j, (j < k)%nat -> nth j u 0 = nth j v 0.

Lemma forallb_nth (f : R -> R -> bool) (P : R -> R -> Prop) (Hf : forall x y, f x y = true <-> P x y) : forall (z a : list R), length z = length a ->
  (forallb (fun p => f (fst p) (snd p)) (combine z a) = true <-> forall i, (i < length z)%nat -> P (nth i z 0) (nth i a 0)).
Proof.
  induction z as [|x z IH]; intros [|y a] L; simpl in *; try discriminate; [intuition lia|].
  rewrite andb_true_iff, IH, Hf by lia. split.
  - intros [H1 H2] [|i] Hi; [exact H1|apply H2; lia].
  - intro H; split; [apply (H 0%nat); lia|]. intros i Hi; apply (H (S i)); lia.
Qed.
Lemma rootInBox_iff z a b : length z = length a -> length z = length b -> (rootInBox z a b = true <-> strictlyInside z a b).
Proof.
  intros L1 L2; unfold rootInBox; rewrite andb_true_iff. unfold ngtb.
  rewrite (forallb_nth (fun x y => nltb y x) (fun x y => y < x)) by (intros; apply Rltb_true || assumption).
  rewrite (forallb_nth nltb Rlt) by (intros; apply Rltb_true || assumption).
  unfold strictlyInside; split; [intros [H1 H2] i Hi; split; auto|intro H; split; intros i Hi; apply (H i Hi)].
Qed.
Lemma acc_spec {M} n (h : list (call R M)) (s : tracker R M) z : inDimension n h -> length z = n -> acc (boxesSearched h) s z ->
  In z (roots s) \/ (exists a b m, In (z, a, b, m) (possible_duplicates s)) \/ (exists a b, In (a, b) (boxesSearched h) /\ strictlyInside z a b).
Proof.
  intros [_ Hb] Hz [H|[H|[a [b [Hin Hr]]]]]; [left; exact H|right; left; exact H|right; right].
  destruct (Hb a b Hin) as [Ha Hb']. exists a, b; split; [assumption|]. apply rootInBox_iff; congruence.
Qed.

(** ** Balance: one interval and one method per stored root or potential root, as long as
    get_polish_intervals has not been called *)
Theorem C48_balance {M} (h : list (call R M)) : ~ In Polish h ->
  length (intervals (run h)) = length (methods (run h)) /\
  length (intervals (run h)) = (length (roots (run h)) + length (potential_roots (run h)))%nat.
Proof. exact (bal_run h). Qed.
Print Assumptions C48_balance.

(** Intervals and methods stay in step in every history. *)
Theorem C48_intervals_and_methods_in_step {M} (h : list (call R M)) : length (intervals (run h)) = length (methods (run h)).
Proof. exact (im_run h). Qed.
Print Assumptions C48_intervals_and_methods_in_step.

(** After get_polish_intervals the balance is false: potential roots stay, their intervals do not. *)
Theorem C48_balance_after_polish_refuted :
  ~ forall h : list (call R nat), length (intervals (run h)) = (length (roots (run h)) + length (potential_roots (run h)))%nat.
Proof.
  intro H. specialize (H [AddPotential [[0]] [-1] [1] 0%nat; Polish]). simpl in H. discriminate.
Qed.
Print Assumptions C48_balance_after_polish_refuted.

(** ** No root is forgotten *)
Theorem C48_every_root_accounted_for {M} n (h : list (call R M)) z a b m :
  ~ In Polish h -> inDimension n h -> In (z, a, b, m) (rootsHanded h) ->
  In z (roots (run h)) \/ (exists a' b' m', In (z, a', b', m') (possible_duplicates (run h))) \/
  (exists a' b', In (a', b') (boxesSearched h) /\ strictlyInside z a' b').
Proof.
  intros Hp Hd Hin. apply (acc_spec n); [assumption|apply (proj1 Hd z a b m Hin)|]. exact (acc_run h z a b m Hp Hin).
Qed.
Print Assumptions C48_every_root_accounted_for.

(** Once the possible duplicates are kept, none is left over, and a root that lies strictly inside no
    searched box (one on a common face of two boxes, say) is among the roots. *)
Theorem C48_boundary_roots_survive {M} n (h : list (call R M)) z a b m :
  ~ In Polish h -> inDimension n h -> In (z, a, b, m) (rootsHanded h) ->
  (forall a' b', In (a', b') (boxesSearched h) -> ~ strictlyInside z a' b') ->
  possible_duplicates (run (h ++ [Keep])) = [] /\ In z (roots (run (h ++ [Keep]))).
Proof.
  intros Hp Hd Hin Hno. split; [unfold run; rewrite fold_left_app; reflexivity|].
  assert (E : boxesSearched (h ++ [Keep]) = boxesSearched h) by (unfold boxesSearched; rewrite flat_map_app; simpl; apply app_nil_r).
  assert (E' : rootsHanded (h ++ [Keep]) = rootsHanded h) by (unfold rootsHanded; rewrite flat_map_app; simpl; apply app_nil_r).
  destruct (C48_every_root_accounted_for n (h ++ [Keep]) z a b m) as [H|[[a' [b' [m' H]]]|[a' [b' [H1 H2]]]]].
  - intro Hc; apply in_app_or in Hc; destruct Hc as [Hc|[Hc|[]]]; [contradiction|discriminate].
  - unfold inDimension; rewrite E, E'; exact Hd.
  - rewrite E'; exact Hin.
  - exact H.
  - unfold run in H; rewrite fold_left_app in H; simpl in H; contradiction.
  - rewrite E in H1; exfalso; exact (Hno a' b' H1 H2).
Qed.
Print Assumptions C48_boundary_roots_survive.

(** Dropping has a price: a root handed in with a neighbouring box is lost for good when a later call
    names a box that strictly contains it, whether or not that call brings the root again. *)
Theorem C48_every_root_kept_refuted :
  ~ forall (h : list (call R nat)) z a b m, ~ In Polish h -> In (z, a, b, m) (rootsHanded h) -> In z (roots (run (h ++ [Keep]))).
Proof.
  intro H. specialize (H [AddRoots [[1/2]] [-1] [0] 0%nat; AddRoots [] [0] [1] 0%nat] [1/2] [-1] [0] 0%nat).
  assert (A : @rootInBox R R_num [1/2] [-1] [0] = false).
  { apply not_true_is_false; intro C; apply rootInBox_iff in C; [|reflexivity|reflexivity]. specialize (C 0%nat (Nat.lt_0_succ _)); simpl in C; lra. }
  assert (B : @rootInBox R R_num [1/2] [0] [1] = true).
  { apply rootInBox_iff; [reflexivity|reflexivity|]. intros [|i] Hi; simpl in *; [lra|lia]. }
  assert (E : roots (run ([AddRoots [[1/2]] [-1] [0] 0%nat; AddRoots [] [0] [1] 0%nat] ++ [Keep])) = []).
  { unfold run, fold_left, app, step, add_roots, fold_left, add_one. rewrite A. unfold existsb, init, intervals. unfold drop_inside; cbn [possible_duplicates filter app roots].
    rewrite A. cbn [negb filter]. rewrite B. reflexivity. }
  rewrite E in H. apply H.
  - intros [C|[C|[]]]; discriminate.
  - left; reflexivity.
Qed.
Print Assumptions C48_every_root_kept_refuted.

(** A root on a common face, found from both sides, is kept twice. *)
Theorem C48_no_root_twice_refuted :
  ~ forall h : list (call R nat), NoDup (rootsHanded h) -> NoDup (roots (run (h ++ [Keep]))).
Proof.
  intro H. specialize (H [AddRoots [[0]] [-1] [0] 0%nat; AddRoots [[0]] [0] [1] 0%nat]).
  assert (A : @rootInBox R R_num [0] [-1] [0] = false).
  { apply not_true_is_false; intro C; apply rootInBox_iff in C; [|reflexivity|reflexivity]. specialize (C 0%nat (Nat.lt_0_succ _)); simpl in C; lra. }
  assert (B : @rootInBox R R_num [0] [0] [1] = false).
  { apply not_true_is_false; intro C; apply rootInBox_iff in C; [|reflexivity|reflexivity]. specialize (C 0%nat (Nat.lt_0_succ _)); simpl in C; lra. }
  assert (E : roots (run ([AddRoots [[0]] [-1] [0] 0%nat; AddRoots [[0]] [0] [1] 0%nat] ++ [Keep])) = [[0]; [0]]).
  { unfold run, fold_left, app, step, add_roots, fold_left, add_one. rewrite A, B. unfold existsb, init, intervals. unfold drop_inside; cbn [possible_duplicates filter app roots].
    repeat first [rewrite A|rewrite B|progress cbn [negb filter app existsb fst snd possible_duplicates roots intervals]]. reflexivity. }
  rewrite E in H. assert (N : NoDup [[0]; [0]]).
  { apply H. simpl. constructor; [|constructor; [intros []|constructor]]. intros [C|[]]. inversion C; lra. }
  inversion N as [|? ? Hn _]; apply Hn; left; reflexivity.
Qed.
Print Assumptions C48_no_root_twice_refuted.

(** ** Potential roots are kept in every history, in order, also across get_polish_intervals *)
Theorem C48_potential_roots_kept {M} (h : list (call R M)) : potential_roots (run h) = potentialsHanded h.
Proof. exact (pots_run h). Qed.
Print Assumptions C48_potential_roots_kept.

(** ** Without potential roots, the i-th interval and method belong to the i-th root: the three were handed in together *)
Theorem C48_intervals_match_roots {M} (h : list (call R M)) : potentialsHanded h = [] ->
  length (roots (run h)) = length (intervals (run h)) /\ length (roots (run h)) = length (methods (run h)) /\
  forall i z, nth_error (roots (run h)) i = Some z -> exists a b m, nth_error (intervals (run h)) i = Some (a, b) /\
    nth_error (methods (run h)) i = Some m /\ In (z, a, b, m) (rootsHanded h).
Proof.
  intro Hp. assert (Hq : forall ps a b m, In (AddPotential ps a b m) h -> ps = []).
  { intros ps a b m Hin. destruct ps as [|p ps]; [reflexivity|]. assert (Hx : In p (potentialsHanded h)).
    { apply in_flat_map; exists (AddPotential (p :: ps) a b m); split; [assumption|left; reflexivity]. } rewrite Hp in Hx; contradiction. }
  destruct (al_run h Hq) as [[L [HL [E1 [E2 E3]]]] _]. rewrite E1, E2, E3, !map_length. split; [reflexivity|split; [reflexivity|]].
  intros i z Hz. rewrite nth_error_map in Hz |- *. destruct (nth_error L i) as [[[[z' a] b] m]|] eqn:EL; [|discriminate].
  simpl in Hz; inversion Hz; subst z'. exists a, b, m. rewrite nth_error_map, EL. split; [reflexivity|split; [reflexivity|]].
  apply HL, (nth_error_In _ _ EL).
Qed.
Print Assumptions C48_intervals_match_roots.

(** With potential roots the positions shift: the interval at a root's position can be another one's. *)
Theorem C48_intervals_match_roots_always_refuted :
  ~ forall (h : list (call R nat)) i z, nth_error (roots (run h)) i = Some z -> exists a b m, nth_error (intervals (run h)) i = Some (a, b) /\
    In (z, a, b, m) (rootsHanded h).
Proof.
  intro H. destruct (H [AddPotential [[5]] [4] [6] 0%nat; AddRoot [0] [-1] [1] 0%nat] 0%nat [0] eq_refl) as [a [b [m [E Hin]]]].
  simpl in E, Hin. inversion E; subst. destruct Hin as [E'|[]]. inversion E'; lra.
Qed.
Print Assumptions C48_intervals_match_roots_always_refuted.

(** ** get_polish_intervals returns the stored intervals, each once, in lexicographic order of the rows *)
Lemma lexlt_before u : forall v : list R, length u = length v -> (lexlt u v = true -> lexBefore u v).
Proof.
  induction u as [|x u IH]; intros [|y v] L; simpl in *; rnum; try discriminate. intro H.
  destruct (Rltb x y) eqn:A.
  - apply Rltb_true in A. exists 0%nat; simpl; split; [lia|split; [assumption|intros j Hj; lia]].
  - destruct (Rltb y x) eqn:B; [discriminate|]. apply Rltb_false in A; apply Rltb_false in B.
    destruct (IH v ltac:(lia) H) as [k [Hk [H1 H2]]]. exists (S k); simpl. split; [lia|split; [assumption|]].
    intros [|j] Hj; [lra|apply H2; lia].
Qed.
Theorem C48_polish_intervals {M} n (s : tracker R M) : Forall (fun p => length (fst p) = n /\ length (snd p) = n) (intervals s) ->
  let out := fst (get_polish_intervals s) in
  (forall p, In p out <-> In p (intervals s)) /\ NoDup out /\
  (forall i j p q, (i < j)%nat -> nth_error out i = Some p -> nth_error out j = Some q -> lexBefore (fst p ++ snd p) (fst q ++ snd q)).
Proof.
  intro H; simpl. destruct (uniqueRows_spec n (intervals s) H) as [H1 H2].
  split; [exact H1|split; [apply sorted_NoDup; exact H2|]].
  assert (Hs : forall p, In p (uniqueRows (intervals s)) -> sized n p).
  { intros p Hp; apply H1 in Hp. rewrite Forall_forall in H; apply H; exact Hp. }
  clear H1 H; revert H2 Hs; generalize (uniqueRows (intervals s)) as l.
  induction l as [|r l IH]; intros S Hs [|i] [|j] p q Hij Hp Hq; simpl in *; try lia; try discriminate.
  - inversion Hp; subst r. apply StronglySorted_inv in S; destruct S as [_ Hf]. rewrite Forall_forall in Hf.
    assert (Hin : In q l) by (apply (nth_error_In _ _ Hq)).
    apply lexlt_before; [exact (eq_trans (rowLen n p (Hs p (or_introl eq_refl))) (eq_sym (rowLen n q (Hs q (or_intror Hin)))))|].
    exact (Hf q Hin).
  - apply StronglySorted_inv in S; destruct S as [S _]. apply (IH S (fun p Hp => Hs p (or_intror Hp)) i j); [lia|assumption|assumption].
Qed.
Print Assumptions C48_polish_intervals.

(** The hypotheses are met: two neighbouring boxes, a root inside each, one on the common face found from
    both sides, and a potential root. *)
Definition sample : list (call R nat) :=
  [AddRoots [[-(1/2)]; [0]] [-1] [0] 1%nat; AddPotential [[1/4]] [0] [1] 2%nat; AddRoots [[0]; [1/2]] [0] [1] 1%nat].
Example C48_case : ~ In Polish sample /\ inDimension 1 sample /\ In ([0], [-1], [0], 1%nat) (rootsHanded sample) /\
  (forall a b, In (a, b) (boxesSearched sample) -> ~ strictlyInside [0] a b) /\ potentialsHanded sample = [[1/4]].
Proof.
  split; [intros [C|[C|[C|[]]]]; discriminate|]. split; [split|].
  - simpl; intros z a b m H; repeat (destruct H as [H|H]; [inversion H; subst; reflexivity|]); contradiction.
  - simpl; intros a b H; repeat (destruct H as [H|H]; [inversion H; subst; split; reflexivity|]); contradiction.
  - split; [right; left; reflexivity|]. split; [|reflexivity].
    simpl; intros a b H C; specialize (C 0%nat (Nat.lt_0_succ _)); repeat (destruct H as [H|H]; [inversion H; subst; simpl in C; lra|]); contradiction.
Qed.
