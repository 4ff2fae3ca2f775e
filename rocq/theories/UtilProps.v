(** * Property theorems C97-C101: helpers of utils.py *)
From Coq Require Import List Arith Bool ZArith Reals Lra Lia Sorted Permutation.
From Verif Require Import Num RSum Cheb Tensor PolySpec PolyModel PolyProps OrderProofs ExtExample UtilModel.
Import ListNotations.
Local Open Scope R_scope.

(** ** Specification *)
(** what np.argsort returns for the real numbers [ks]: the positions in an order that sorts them *)
Definition sortsR (f : list R -> list nat) : Prop :=
  forall ks, Permutation (f ks) (seq 0 (length ks)) /\ StronglySorted Rle (map (fun i => nth i ks 0) (f ks)).
(** a * b = a_1 b_1 + ... *)
Definition dotR (a b : list R) : R := Rsum (map (fun p => fst p * snd p) (combine a b)).

(** ** Lemmas *)
Lemma map_seq_nth {A} (l : list A) d : map (fun i => nth i l d) (seq 0 (length l)) = l.
Proof. induction l as [|a l IH]; cbn; auto. f_equal. rewrite <- seq_shift, map_map. exact IH. Qed.
Lemma takeAt_perm {A} (d : A) l p : Permutation p (seq 0 (length l)) -> Permutation (takeAt d l p) l.
Proof. intros H. pose proof (Permutation_map (fun i => nth i l d) H) as P. rewrite map_seq_nth in P. exact P. Qed.
Lemma SS_map {A B} (f : A -> B) (Q : B -> B -> Prop) l : StronglySorted Q (map f l) -> StronglySorted (fun a b => Q (f a) (f b)) l.
Proof.
  induction l as [|a l IH]; cbn; intros H; constructor; inversion H as [|? ? H1 H2]; subst; auto.
  rewrite Forall_forall in *. intros b Hb. apply H2, in_map; auto.
Qed.
Lemma SS_map' {A B} (f : A -> B) (Q : B -> B -> Prop) l : StronglySorted (fun a b => Q (f a) (f b)) l -> StronglySorted Q (map f l).
Proof.
  induction 1 as [|a l H1 IH H2]; cbn; constructor; auto. rewrite Forall_forall in *. intros b Hb. apply in_map_iff in Hb. destruct Hb as (c & <- & Hc). auto.
Qed.
Lemma takeAt_sorted {A B} (key : A -> B) (Q : B -> B -> Prop) d dk l p : Permutation p (seq 0 (length l)) ->
  StronglySorted Q (map (fun i => nth i (map key l) dk) p) -> StronglySorted (fun a b => Q (key a) (key b)) (takeAt d l p).
Proof.
  intros HP H. apply SS_map. unfold takeAt. rewrite map_map. erewrite map_ext_in; [exact H|]. intros i Hi. cbn beta.
  assert (Hi' : In i (seq 0 (length l))) by (eapply Permutation_in; eauto). apply in_seq in Hi'. rewrite (nth_map_lt key l i d dk) by lia. reflexivity.
Qed.
Lemma sorted_unique {A} (key : A -> R) l m : Permutation l m ->
  StronglySorted (fun a b => key a <= key b) l -> StronglySorted (fun a b => key a <= key b) m ->
  (forall a b, In a l -> In b l -> key a = key b -> a = b) -> l = m.
Proof.
  revert m. induction l as [|a l IH]; intros m HP Hl Hm Hi; [symmetry; apply Permutation_nil; auto|].
  destruct m as [|b m]; [apply Permutation_sym, Permutation_nil in HP; discriminate|].
  inversion Hl as [|? ? Hl1 Hl2]; inversion Hm as [|? ? Hm1 Hm2]; subst. rewrite Forall_forall in *.
  assert (E : a = b).
  { assert (Ia : In a (b :: m)) by (eapply Permutation_in; [exact HP|left; auto]). assert (Ib : In b (a :: l)) by (eapply Permutation_in; [apply Permutation_sym; exact HP|left; auto]).
    destruct Ia as [->|Ia]; auto. destruct Ib as [->|Ib]; auto. apply Hi; [left; auto|right; auto|]. specialize (Hl2 _ Ib). specialize (Hm2 _ Ia). lra. }
  subst b. f_equal. apply IH; auto; [eapply Permutation_cons_inv; eauto|]. intros; apply Hi; auto; right; auto.
Qed.
Lemma dotRow_R x r : @dotRow R R_num x r = dotR x r.
Proof. unfold dotRow, dotR. rewrite nsum_R. reflexivity. Qed.

(** ** C97: sortRoots *)
(** The result holds the same roots, in the order of their products with the random vector, which depends on the
    seed only; the state the generator is left in depends on the seed only as well. *)
Theorem C97_same_roots_in_order :
  forall (G S : Type) (argsort : list R -> list nat) (seedG : S -> G) (drawG : G -> nat -> list R * G) (seed : S) (g : G) (ncols : nat) (roots : list (list R)),
    sortsR argsort -> roots <> [] ->
    let r := fst (drawG (seedG seed) ncols) in
    let out := @sortRoots R R_num G S argsort seedG drawG seed g ncols roots in
    Permutation (fst out) roots /\ StronglySorted (fun x y => dotR x r <= dotR y r) (fst out) /\ snd out = snd (drawG (seedG seed) ncols).
Proof.
  intros G S f sg dg s g nc roots Hf Hne r out. unfold out, r, sortRoots. destruct roots as [|x0 rs]; [congruence|]. set (roots := x0 :: rs) in *. destruct (dg (sg s) nc) as [v g'] eqn:E.
  cbn [fst snd]. destruct (Hf (map (fun x => dotRow x v) roots)) as [H1 H2]. rewrite map_length in H1.
  split; [apply takeAt_perm; auto|]. split; auto.
  pose proof (takeAt_sorted (fun x => dotRow x v) Rle [] 0 roots _ H1 H2) as H.
  clear - H. induction H as [|a l H1 IH H2]; constructor; auto. eapply Forall_impl; [|exact H2]. intros b. cbn beta. rewrite !dotRow_R. auto.
Qed.
Print Assumptions C97_same_roots_in_order.

(** Two lists with the same roots come out identical, whatever their order, the sorting algorithms and the earlier state of
    the generator, if different roots have different products with the random vector. *)
Theorem C97_canonical_order :
  forall (G S : Type) (argsort argsort' : list R -> list nat) (seedG : S -> G) (drawG : G -> nat -> list R * G) (seed : S) (g g' : G) (ncols : nat) (roots roots' : list (list R)),
    sortsR argsort -> sortsR argsort' -> Permutation roots roots' ->
    (let r := fst (drawG (seedG seed) ncols) in forall x y, In x roots -> In y roots -> dotR x r = dotR y r -> x = y) ->
    fst (@sortRoots R R_num G S argsort seedG drawG seed g ncols roots) = fst (@sortRoots R R_num G S argsort' seedG drawG seed g' ncols roots').
Proof.
  intros G S f f' sg dg s g g' nc roots roots' Hf Hf' HP Hd. cbv zeta in Hd.
  destruct roots as [|x0 rs]; [apply Permutation_nil in HP; subst; reflexivity|]. set (roots := x0 :: rs) in *.
  assert (Hne : roots <> []) by discriminate. assert (Hne' : roots' <> []) by (intros ->; apply Permutation_sym, Permutation_nil in HP; discriminate).
  destruct (C97_same_roots_in_order G S f sg dg s g nc roots Hf Hne) as (A1 & A2 & _). destruct (C97_same_roots_in_order G S f' sg dg s g' nc roots' Hf' Hne') as (B1 & B2 & _).
  apply (sorted_unique (fun x => dotR x (fst (dg (sg s) nc)))); auto.
  - eapply Permutation_trans; [exact A1|]. eapply Permutation_trans; [exact HP|]. apply Permutation_sym; auto.
  - intros a b Ha Hb. apply Hd; eapply Permutation_in; eauto.
Qed.
Print Assumptions C97_canonical_order.

(** insertion sort of the positions by their keys: a routine that meets the contract *)
Fixpoint insR (ks : list R) (k : nat) (l : list nat) : list nat :=
  match l with [] => [k] | j :: r => if Rle_dec (nth k ks 0) (nth j ks 0) then k :: l else j :: insR ks k r end.
Definition isortR (ks : list R) : list nat := fold_right (insR ks) [] (seq 0 (length ks)).
Lemma insR_perm ks k l : Permutation (insR ks k l) (k :: l).
Proof. induction l as [|j l IH]; cbn; auto. destruct (Rle_dec _ _); auto. rewrite IH. apply perm_swap. Qed.
Lemma isortR_ok : sortsR isortR.
Proof.
  intros ks. unfold isortR. generalize (seq 0 (length ks)) as p. induction p as [|k p [IH1 IH2]]; cbn [fold_right]; [split; repeat constructor|].
  split; [rewrite insR_perm; apply perm_skip; auto|]. clear IH1. apply SS_map in IH2. apply SS_map'.
  revert IH2. generalize (fold_right (insR ks) [] p). induction l as [|j l IH]; intros H; cbn; [repeat constructor|]. inversion H as [|? ? H1 H2]; subst.
  destruct (Rle_dec (nth k ks 0) (nth j ks 0)) as [L|L].
  - constructor; auto. constructor; auto. eapply Forall_impl; [|exact H2]. cbn. intros; lra.
  - constructor; auto. rewrite Forall_forall in *. intros i Hi. assert (Hi' : In i (k :: l)) by (eapply Permutation_in; [apply insR_perm|exact Hi]). destruct Hi' as [<-|Hi']; [lra|auto].
Qed.
Example C97_case : sortsR isortR /\ Permutation [[1; 0]; [0; 1]; [0; 0]] [[0; 0]; [1; 0]; [0; 1]] /\
  (forall x y, In x [[1; 0]; [0; 1]; [0; 0]] -> In y [[1; 0]; [0; 1]; [0; 0]] -> dotR x [1/2; 1/3] = dotR y [1/2; 1/3] -> x = y).
Proof.
  split; [apply isortR_ok|]. split.
  - apply Permutation_trans with ([[1; 0]; [0; 0]; [0; 1]]); [apply perm_skip, perm_swap|apply perm_swap].
  - intros x y Hx Hy. cbn in Hx, Hy. destruct Hx as [<-|[<-|[<-|[]]]], Hy as [<-|[<-|[<-|[]]]]; unfold dotR; cbn; intros E; auto; exfalso; lra.
Qed.
(** With equal products the order of the input shows in the output, and the lists compare as different. *)
Theorem C97_ties_refuted : exists (argsort : list R -> list nat) (drawG : unit -> nat -> list R * unit) (roots roots' : list (list R)),
  sortsR argsort /\ Permutation roots roots' /\ Forall (fun v => 0 < v < 1) (fst (drawG tt 2%nat)) /\
  fst (@sortRoots R R_num unit unit argsort (fun s => s) drawG tt tt 2 roots) <> fst (@sortRoots R R_num unit unit argsort (fun s => s) drawG tt tt 2 roots').
Proof.
  exists isortR, (fun _ _ => ([1/2; 1/2], tt)), [[1; 0]; [0; 1]], [[0; 1]; [1; 0]]. split; [apply isortR_ok|]. split; [apply perm_swap|].
  split; [repeat constructor; cbn; lra|]. unfold sortRoots. cbn [fst map]. rewrite !dotRow_R. unfold dotR. cbn.
  destruct (Rle_dec _ _) as [L|L]; [|exfalso; lra]. destruct (Rle_dec _ _) as [L'|L']; [|exfalso; lra]. cbn. intros E. injection E as E _ _ _. lra.
Qed.
Print Assumptions C97_ties_refuted.
(** the generator's earlier state is lost: what is drawn after a call does not depend on it; an empty list changes nothing *)
Theorem C97_generator_reset : forall (G S : Type) (argsort : list R -> list nat) (seedG : S -> G) (drawG : G -> nat -> list R * G) (seed : S) (g g' : G) (ncols : nat) (roots roots' : list (list R)),
  (roots <> [] -> roots' <> [] ->
   snd (@sortRoots R R_num G S argsort seedG drawG seed g ncols roots) = snd (@sortRoots R R_num G S argsort seedG drawG seed g' ncols roots')) /\
  @sortRoots R R_num G S argsort seedG drawG seed g ncols [] = ([], g).
Proof.
  intros G S f sg dg s g g' nc l l'. split; [|reflexivity]. intros A B. unfold sortRoots. destruct l; [congruence|]. destruct l'; [congruence|]. destruct (dg (sg s) nc). reflexivity.
Qed.
Print Assumptions C97_generator_reset.

(** ** C98: row_swap_matrix and sorted_polys_monomial *)
(** column [c] is the first nonzero entry of the row *)
Definition leadsAt (row : list R) (c : nat) : Prop :=
  (c < length row)%nat /\ nth c row 0 <> 0 /\ forall j, (j < c)%nat -> nth j row 0 = 0.
(** row echelon form: the leading columns increase strictly *)
Definition echelon (rows : list (list R)) : Prop :=
  StronglySorted (fun r r' => forall c c', leadsAt r c -> leadsAt r' c' -> (c < c')%nat) rows.

Lemma leadCol_spec row c : @leadCol R R_num row = Some c <-> leadsAt row c.
Proof.
  revert c. induction row as [|v row IH]; intros c; cbn [leadCol].
  - split; [discriminate|]. intros (H & _). cbn in H. lia.
  - rnum. destruct (Reqb v 0) eqn:E; cbn [negb].
    + apply Reqb_true in E. subst v. split.
      * intros H. destruct (leadCol row) as [k|]; cbn in H; [|discriminate]. injection H as <-. destruct (proj1 (IH k) eq_refl) as (A & B & C).
        split; [cbn; lia|]. split; [exact B|]. intros [|j] Hj; cbn; auto. apply C. lia.
      * intros (A & B & C). destruct c as [|c]; [cbn in B; congruence|]. rewrite (proj2 (IH c)); [reflexivity|].
        split; [cbn in A; lia|]. split; [exact B|]. intros j Hj. apply (C (S j)). lia.
    + apply Reqb_false in E. split.
      * intros H. injection H as <-. split; [cbn; lia|]. split; [exact E|]. intros; lia.
      * intros (A & B & C). destruct c as [|c]; auto. specialize (C 0%nat ltac:(lia)). cbn in C. congruence.
Qed.
Lemma leadsAt_unique r c c' : leadsAt r c -> leadsAt r c' -> c = c'.
Proof. intros H H'. apply leadCol_spec in H, H'. congruence. Qed.
Lemma leadCols_spec rows : match @leadCols R R_num rows with
  | Some cs => Forall2 leadsAt rows cs
  | None => exists r, In r rows /\ forall c, ~ leadsAt r c end.
Proof.
  induction rows as [|r rows IH]; cbn [leadCols]; [constructor|]. destruct (leadCol r) as [c|] eqn:E.
  - destruct (leadCols rows) as [cs|]; [constructor; auto; apply leadCol_spec; auto|]. destruct IH as (q & H1 & H2). exists q. split; [right; auto|auto].
  - exists r. split; [left; auto|]. intros c H. apply leadCol_spec in H. congruence.
Qed.

(** The rows are rearranged: same rows, first nonzero columns in ascending order.  An exception (IndexError) is raised exactly
    if some row is zero. *)
Theorem C98_row_swap_sorts_the_rows : forall (argsort : list nat -> list nat) (rows : list (list R)), argsort_ok argsort ->
  match @row_swap R R_num argsort rows with
  | Some rows' =>
      Permutation rows' rows /\
      StronglySorted (fun r r' => exists c c', leadsAt r c /\ leadsAt r' c' /\ (c <= c')%nat) rows' /\
      (forall x, (forall r, In r rows' -> dotR r x = 0) <-> (forall r, In r rows -> dotR r x = 0)) /\
      (forall r, In r rows -> exists c, leadsAt r c)
  | None => exists r, In r rows /\ Forall (fun v => v = 0) r
  end.
Proof.
  intros f rows Hf. unfold row_swap. pose proof (leadCols_spec rows) as HL. destruct (leadCols rows) as [cs|].
  - assert (Hlen : length cs = length rows) by (clear - HL; induction HL; cbn; auto). destruct (Hf cs) as [P S]. rewrite Hlen in P.
    assert (HP : Permutation (takeAt [] rows (f cs)) rows) by (apply takeAt_perm; auto).
    split; auto. split; [|split].
    + unfold takeAt. apply SS_map'. apply SS_map in S.
      assert (G : forall i, In i (f cs) -> leadsAt (nth i rows []) (nth i cs 0%nat)).
      { intros i Hi. assert (Hi' : In i (seq 0 (length rows))) by (eapply Permutation_in; eauto). apply in_seq in Hi'. clear - HL Hi'. destruct Hi' as [_ Hi']. cbn in Hi'.
        revert i Hi'. induction HL; intros i Hi; cbn in *; [lia|]. destruct i; auto. apply IHHL. lia. }
      clear - S G. induction S as [|i l S IH H]; constructor; [apply IH; intros; apply G; right; auto|]. rewrite Forall_forall in *. intros j Hj.
      exists (nth i cs 0%nat), (nth j cs 0%nat). split; [apply G; left; auto|]. split; [apply G; right; auto|]. apply H; auto.
    + intros x. split; intros H r Hr; apply H; [apply (Permutation_in _ (Permutation_sym HP)); auto|apply (Permutation_in _ HP); auto].
    + intros r Hr. clear - HL Hr. induction HL; [destruct Hr|]. destruct Hr as [<-|Hr]; eauto.
  - destruct HL as (r & Hr & HN). exists r. split; auto. rewrite Forall_forall. intros v Hv. destruct (Req_dec v 0) as [|Hn]; auto. exfalso.
    destruct (@leadCol R R_num r) as [c|] eqn:E; [apply leadCol_spec in E; exact (HN c E)|].
    clear - E Hv Hn. revert E Hv. induction r as [|w r IH]; intros E Hv; [destruct Hv|]. cbn in E. rnum. destruct (Reqb w 0) eqn:W; cbn in E; [|discriminate].
    apply Reqb_true in W. destruct Hv as [->|Hv]; [congruence|]. destruct (leadCol r); [discriminate|]. auto.
Qed.
Print Assumptions C98_row_swap_sorts_the_rows.
(** If no two rows start in the same column the result is in echelon form. *)
Theorem C98_row_swap_echelon : forall (argsort : list nat -> list nat) (rows rows' : list (list R)), argsort_ok argsort ->
  ForallOrdPairs (fun r r' => forall c, leadsAt r c -> leadsAt r' c -> False) rows ->
  @row_swap R R_num argsort rows = Some rows' -> echelon rows'.
Proof.
  intros f rows rows' Hf HD HE. pose proof (C98_row_swap_sorts_the_rows f rows Hf) as H. rewrite HE in H. destruct H as (HP & HS & _ & _).
  assert (HD' : ForallOrdPairs (fun r r' => forall c, leadsAt r c -> leadsAt r' c -> False) rows').
  { apply Permutation_sym in HP. clear - HP HD. induction HP as [|a l l' HP IH|a b l|l1 l2 l3 H1 IH1 H2 IH2]; auto.
    - inversion HD as [|? ? A B]; subst. constructor; auto. rewrite Forall_forall in *. intros r Hr. apply A. eapply Permutation_in; [apply Permutation_sym; exact HP|auto].
    - inversion HD as [|? ? A B]; subst. inversion B as [|? ? A' B']; subst. inversion A as [|? ? A1 A2]; subst. constructor; [constructor; auto; intros c X Y; eapply A1; eauto|]. constructor; auto. }
  unfold echelon. clear - HS HD'. induction HS as [|r l HS IH H]; constructor; inversion HD' as [|? ? A B]; subst; auto.
  rewrite Forall_forall in *. intros q Hq c c' Lc Lc'. destruct (H q Hq) as (k & k' & X & Y & L). assert (c = k) by (eapply leadsAt_unique; eauto). assert (c' = k') by (eapply leadsAt_unique; eauto). subst.
  destruct (Nat.eq_dec k k') as [->|]; [exfalso; eapply A; eauto|lia].
Qed.
Print Assumptions C98_row_swap_echelon.
(** the matrix of the docstring; a matrix with a zero row *)
Example C98_case : argsort_ok isort /\ @row_swap R R_num isort [[0; 2; 0]; [0; 0; 3]; [1; 2; 3]] = Some [[1; 2; 3]; [0; 2; 0]; [0; 0; 3]] /\
  ForallOrdPairs (fun r r' => forall c, leadsAt r c -> leadsAt r' c -> False) [[0; 2; 0]; [0; 0; 3]; [1; 2; 3]] /\
  @row_swap R R_num isort [[0; 2]; [0; 0]] = None.
Proof.
  assert (Z : Reqb 0 0 = true) by (apply Reqb_true; auto). assert (A : Reqb 2 0 = false) by (apply Reqb_false; lra). assert (B : Reqb 3 0 = false) by (apply Reqb_false; lra). assert (C : Reqb 1 0 = false) by (apply Reqb_false; lra).
  split; [apply isort_ok|]. split; [unfold row_swap; cbn [leadCols leadCol]; rnum; rewrite Z, A, B, C; cbn; reflexivity|]. split.
  - assert (G : forall r r' k k', @leadCol R R_num r = Some k -> @leadCol R R_num r' = Some k' -> k <> k' -> forall c, leadsAt r c -> leadsAt r' c -> False).
    { intros r r' k k' E E' N c X Y. apply leadCol_spec in X, Y. congruence. }
    assert (L1 : @leadCol R R_num [0; 2; 0] = Some 1%nat) by (cbn; rnum; rewrite Z, A; reflexivity). assert (L2 : @leadCol R R_num [0; 0; 3] = Some 2%nat) by (cbn; rnum; rewrite Z, B; reflexivity).
    assert (L3 : @leadCol R R_num [1; 2; 3] = Some 0%nat) by (cbn; rnum; rewrite C; reflexivity).
    constructor; [constructor; [eapply G; eauto; lia|constructor; [eapply G; eauto; lia|constructor]]|]. constructor; [constructor; [eapply G; eauto; lia|constructor]|]. constructor; [constructor|constructor].
  - unfold row_swap. cbn [leadCols leadCol]. rnum. rewrite Z. cbn. destruct (negb _); reflexivity.
Qed.

(** the number of monomials with a nonzero coefficient *)
Definition nonzeroTerms (t : tensor R) (k : nat) : Prop := exists l, NoDup l /\ length l = k /\ forall i, In i l <-> ((i < length (dat t))%nat /\ nth i (dat t) 0 <> 0).
Lemma numMonomials_spec t : nonzeroTerms t (@numMonomials R R_num t).
Proof.
  exists (filter (fun i => negb (Reqb (nth i (dat t) 0) 0)) (seq 0 (length (dat t)))). split; [apply NoDup_filter, seq_NoDup|]. split.
  - unfold numMonomials. rnum. induction (dat t) as [|v l IH]; [reflexivity|]. cbn [length seq filter nth]. rewrite <- seq_shift.
    assert (E : forall m, length (filter (fun i => negb (Reqb (nth i (v :: l) 0) 0)) (map S m)) = length (filter (fun i => negb (Reqb (nth i l 0) 0)) m)).
    { induction m as [|i m IHm]; auto. cbn [map filter nth]. destruct (negb _); cbn; auto. }
    destruct (negb (Reqb v 0)); cbn [length]; rewrite E, IH; reflexivity.
  - intros i. rewrite filter_In, in_seq, negb_true_iff, Reqb_false. cbn. split; intros [A B]; split; auto; lia.
Qed.
Theorem C98_polys_sorted_by_terms : forall (argsort : list nat -> list nat) (polys : list (tensor R)), argsort_ok argsort ->
  Permutation (@sorted_polys_monomial R R_num argsort polys) polys /\
  StronglySorted (fun p q => exists k k', nonzeroTerms p k /\ nonzeroTerms q k' /\ (k <= k')%nat) (@sorted_polys_monomial R R_num argsort polys).
Proof.
  intros f polys Hf. unfold sorted_polys_monomial. destruct (Hf (map (@numMonomials R R_num) polys)) as [P S]. rewrite map_length in P. split; [apply takeAt_perm; auto|].
  pose proof (takeAt_sorted (@numMonomials R R_num) le (mkT [] []) 0%nat polys _ P S) as H. clear - H. induction H as [|a l H IH HF]; constructor; auto.
  eapply Forall_impl; [|exact HF]. intros b L. exists (numMonomials a), (numMonomials b). split; [apply numMonomials_spec|]. split; [apply numMonomials_spec|auto].
Qed.
Print Assumptions C98_polys_sorted_by_terms.

(** ** C99: match_poly_dimensions *)
Definition objAt (st : list (tensor R)) (p : nat) : tensor R := nth p st (mkT [] []).

Lemma lead1_eval phi (s : list nat) (d : list R) (y : R) (x : list R) : (forall v, phi 0%nat v = 1) ->
  Rsum (map (fun idx => tget (mkT (1%nat :: s) d) idx * basis phi idx (y :: x)) (indices (1%nat :: s))) =
  Rsum (map (fun idx => tget (mkT s d) idx * basis phi idx x) (indices s)).
Proof.
  intros H0. cbn [indices seq flat_map]. rewrite app_nil_r, map_map. f_equal. apply map_ext. intros idx. unfold tget. cbn [shp dat ravel_index basis]. rewrite H0. rewrite Nat.mul_0_l, Nat.add_0_l. ring.
Qed.
Lemma leads_eval phi (s : list nat) (d : list R) (x : list R) : (forall v, phi 0%nat v = 1) -> forall (k : nat) (y : list R), length y = k ->
  Rsum (map (fun idx => tget (mkT (repeat 1%nat k ++ s) d) idx * basis phi idx (y ++ x)) (indices (repeat 1%nat k ++ s))) =
  Rsum (map (fun idx => tget (mkT s d) idx * basis phi idx x) (indices s)).
Proof.
  intros H0. induction k as [|k IH]; intros [|v y] Hy; cbn in Hy; try discriminate; [reflexivity|]. cbn [repeat app]. rewrite lead1_eval by auto. apply IH. lia.
Qed.
Lemma prodn_ones k s : prodn (repeat 1%nat k ++ s) = prodn s.
Proof. induction k as [|k IH]; auto. cbn [repeat app]. unfold prodn in *. cbn [fold_right]. rewrite IH. lia. Qed.
Lemma Forall_ones k s : Forall (fun n => 1 <= n)%nat s -> Forall (fun n => 1 <= n)%nat (repeat 1%nat k ++ s).
Proof. intros H. apply Forall_app. split; auto. apply Forall_forall. intros x Hx. apply repeat_spec in Hx. lia. Qed.

(** the same polynomial with [k] more variables in front, on which it does not depend *)
Definition extends (k : nat) (old new : tensor R) : Prop :=
  wf new /\ ndim new = (k + ndim old)%nat /\
  forall y x, length y = k -> cheb_eval new (y ++ x) = cheb_eval old x /\ power_eval new (y ++ x) = power_eval old x.
Lemma extends_0 t : wf t -> extends 0 t t.
Proof. intros W. split; auto. split; auto. intros [|v y] x H; [auto|discriminate]. Qed.
Lemma widen_extends t k : wf t -> extends k t (clean (mkT (repeat 1%nat k ++ shp t) (dat t))).
Proof.
  intros [W1 W2]. assert (W : wf (mkT (repeat 1%nat k ++ shp t) (dat t))) by (split; cbn [shp dat]; [rewrite prodn_ones; auto|apply Forall_ones; auto]).
  destruct (C42_cleaning_preserves_the_polynomial _ W) as (A & B & C & D & _). split; auto. split; [rewrite B; unfold ndim; cbn [shp]; rewrite app_length, repeat_length; auto|].
  intros y x Hy. rewrite C, D. destruct t as [s d]. cbn [shp dat]. split.
  - exact (leads_eval chebT s d x ltac:(reflexivity) k y Hy).
  - exact (leads_eval (fun i v => v ^ i) s d x ltac:(reflexivity) k y Hy).
Qed.

Lemma upd_same_obj st p q v : objAt (upd st p v) q = if Nat.eqb q p && Nat.ltb p (length st) then v else objAt st q.
Proof.
  unfold objAt. destruct (Nat.ltb_spec p (length st)) as [L|L].
  - rewrite nth_upd by auto. rewrite andb_true_r. reflexivity.
  - rewrite andb_false_r. f_equal. revert p L. induction st as [|a st IH]; intros [|p] L; cbn in *; auto; try lia. f_equal. apply IH. lia.
Qed.
Lemma matchOne_obj dim st p q : (p < length st)%nat -> wf (objAt st q) ->
  objAt (@matchOne R R_num dim st p) q = (if Nat.eqb q p && negb (Nat.eqb (ndim (objAt st q)) dim) then clean (mkT (repeat 1%nat (dim - ndim (objAt st q)) ++ shp (objAt st q)) (dat (objAt st q))) else objAt st q).
Proof.
  intros Hp Hq. unfold matchOne. change (nth p st noTens) with (objAt st p).
  destruct (Nat.eqb_spec q p) as [->|N]; cbn [andb].
  - destruct (negb (Nat.eqb (ndim (objAt st p)) dim)); auto. rewrite upd_same_obj, Nat.eqb_refl. apply Nat.ltb_lt in Hp. rewrite Hp. reflexivity.
  - destruct (negb (Nat.eqb (ndim (objAt st p)) dim)); auto. rewrite upd_same_obj. apply Nat.eqb_neq in N. rewrite N. reflexivity.
Qed.
Lemma matchOne_length dim st p : length (@matchOne R R_num dim st p) = length st.
Proof. unfold matchOne. destruct (negb _); auto. apply upd_length. Qed.

Lemma matchAll dim polys : forall st, Forall (fun p => (p < length st)%nat) polys -> (forall p, In p polys -> wf (objAt st p) /\ (ndim (objAt st p) <= dim)%nat) ->
  let st' := fold_left (@matchOne R R_num dim) polys st in
  length st' = length st /\ (forall p, ~ In p polys -> objAt st' p = objAt st p) /\
  (forall p, In p polys -> ndim (objAt st p) = dim -> objAt st' p = objAt st p) /\
  (forall p, In p polys -> extends (dim - ndim (objAt st p)) (objAt st p) (objAt st' p)).
Proof.
  induction polys as [|q polys IH]; intros st HF HW; cbn [fold_left]; cbv zeta.
  { split; auto. split; auto. split; [intros p []|intros p []]. }
  inversion HF as [|? ? Hq HF']; subst. set (st1 := matchOne dim st q).
  assert (L1 : length st1 = length st) by apply matchOne_length.
  assert (O1 : forall p, p <> q -> objAt st1 p = objAt st p).
  { intros p N. unfold st1, matchOne. destruct (negb _); auto. rewrite upd_same_obj. apply Nat.eqb_neq in N. rewrite N. reflexivity. }
  destruct (HW q ltac:(left; auto)) as [Wq Dq].
  assert (Oq : extends (dim - ndim (objAt st q)) (objAt st q) (objAt st1 q) /\ (ndim (objAt st q) = dim -> objAt st1 q = objAt st q)).
  { unfold st1. rewrite matchOne_obj by auto. rewrite Nat.eqb_refl. cbn [andb]. destruct (Nat.eqb_spec (ndim (objAt st q)) dim) as [E|E]; cbn [negb].
    - split; auto. rewrite E, Nat.sub_diag. apply extends_0; auto.
    - split; [apply widen_extends; auto|congruence]. }
  destruct Oq as [Oq Oq'].
  assert (D1 : ndim (objAt st1 q) = dim) by (destruct Oq as (_ & -> & _); lia).
  destruct (IH st1) as (A & B & C & D).
  { eapply Forall_impl; [|exact HF']. intros k Hk. cbv beta in *. rewrite L1. exact Hk. }
  { intros p Hp. destruct (Nat.eq_dec p q) as [->|N]; [split; [apply Oq|lia]|]. rewrite O1 by auto. apply HW. right; auto. }
  assert (Fq : objAt (fold_left (@matchOne R R_num dim) polys st1) q = objAt st1 q).
  { destruct (in_dec Nat.eq_dec q polys) as [I|I]; [apply C; auto|apply B; auto]. }
  split; [lia|]. split; [|split].
  - intros p Hp. rewrite B by (intros I; apply Hp; right; auto). apply O1. intros ->. apply Hp; left; auto.
  - intros p Hp E. destruct (Nat.eq_dec p q) as [->|N]; [rewrite Fq; auto|]. destruct Hp as [->|Hp]; [congruence|]. rewrite C; auto; rewrite O1; auto.
  - intros p Hp. destruct (Nat.eq_dec p q) as [->|N]; [rewrite Fq; exact Oq|]. destruct Hp as [->|Hp]; [congruence|]. rewrite <- (O1 p N). apply D; auto.
Qed.
Lemma maxDim_ge st polys p : In p polys -> (ndim (objAt st p) <= maxDim st polys)%nat.
Proof. unfold maxDim. induction polys as [|q polys IH]; [intros []|]; intros [E|H]; cbn [map fold_right]; [subst q; apply Nat.le_max_l|]. specialize (IH H). eapply Nat.le_trans; [exact IH|apply Nat.le_max_r]. Qed.
Lemma maxDim_in st polys : polys <> [] -> exists p, In p polys /\ ndim (objAt st p) = maxDim st polys.
Proof.
  unfold maxDim. induction polys as [|q polys IH]; [congruence|]. intros _. cbn [map fold_right]. change (nth q st noTens) with (objAt st q). destruct polys as [|r polys].
  - exists q. split; [left; auto|]. cbn. lia.
  - destruct IH as (p & Hp & E); [discriminate|]. destruct (Nat.max_spec (ndim (objAt st q)) (fold_right Nat.max 0%nat (map (fun p => ndim (nth p st noTens)) (r :: polys)))) as [[_ ->]|[_ ->]].
    + exists p. split; [right; auto|auto].
    + exists q. split; [left; auto|auto].
Qed.

(** Every polynomial of the list gets as many variables as the largest one: the new variables come first and it does not depend
    on them.  The list returned holds the objects that were passed in, which are changed; other objects are not. *)
Theorem C99_dimensions_matched : forall (st : list (tensor R)) (polys : list nat),
  polys <> [] -> Forall (fun p => (p < length st)%nat) polys -> (forall p, In p polys -> wf (objAt st p)) ->
  exists st' dim, @match_poly_dimensions R R_num st polys = Some (polys, st') /\
    (exists p, In p polys /\ ndim (objAt st p) = dim /\ objAt st' p = objAt st p) /\
    (forall p, In p polys -> (ndim (objAt st p) <= dim)%nat /\ ndim (objAt st' p) = dim /\ extends (dim - ndim (objAt st p)) (objAt st p) (objAt st' p)) /\
    (forall p, ~ In p polys -> objAt st' p = objAt st p) /\ length st' = length st.
Proof.
  intros st polys Hne HF HW. exists (fold_left (@matchOne R R_num (maxDim st polys)) polys st), (maxDim st polys).
  split; [unfold match_poly_dimensions; destruct polys; [congruence|reflexivity]|].
  destruct (matchAll (maxDim st polys) polys st HF) as (A & B & C & D); [intros p Hp; split; [auto|apply maxDim_ge; auto]|].
  split; [|split; [|split; auto]].
  - destruct (maxDim_in st polys Hne) as (p & Hp & E). exists p. auto.
  - intros p Hp. pose proof (maxDim_ge st polys p Hp) as L. split; auto. specialize (D p Hp). split; auto. destruct D as (_ & -> & _). lia.
Qed.
Print Assumptions C99_dimensions_matched.
(** ValueError (the maximum of no dimensions) exactly when there are no polynomials *)
Theorem C99_raises_only_without_polynomials : forall (st : list (tensor R)) (polys : list nat),
  @match_poly_dimensions R R_num st polys = None <-> polys = [].
Proof. intros st [|p polys]; split; try discriminate; auto. Qed.
Print Assumptions C99_raises_only_without_polynomials.
(** The caller's polynomial cannot be called as before afterwards: a point with its own number of coordinates is refused. *)
Theorem C99_argument_unusable_refuted : exists (st st' : list (tensor R)) (polys : list nat) (p : nat) (x v : R),
  (forall q, wf (objAt st q) \/ ~ In q polys) /\ In p polys /\ @match_poly_dimensions R R_num st polys = Some (polys, st') /\
  polyCall chebval (objAt st p) (PMat 1 [[x]]) = Val [v] /\ polyCall chebval (objAt st' p) (PMat 1 [[x]]) = ValueError.
Proof.
  destruct (C99_dimensions_matched [mkT [2]%nat [0; 1]; mkT [2; 2]%nat [0; 1; 1; 0]] [0; 1]%nat) as (st' & dim & E & (q & Hq & E1 & E2) & D & _); [discriminate|repeat constructor| |].
  { intros p [<-|[<-|[]]]; split; cbn; auto; repeat constructor. }
  exists [mkT [2]%nat [0; 1]; mkT [2; 2]%nat [0; 1; 1; 0]], st', [0; 1]%nat, 0%nat, 5, (0 + 1 * 5).
  split; [intros [|[|k]]; [left; split; cbn; auto; repeat constructor|left; split; cbn; auto; repeat constructor|right; cbn; lia]|]. split; [left; auto|]. split; [exact E|]. split; [reflexivity|].
  destruct (D 1%nat ltac:(right; left; auto)) as (L & _ & _). destruct (D 0%nat ltac:(left; auto)) as (_ & N & _). unfold polyCall, normPoints. rewrite N.
  assert (L2 : (2 <= dim)%nat) by exact L. destruct (Nat.eqb_spec 1 dim); [lia|reflexivity].
Qed.
Print Assumptions C99_argument_unusable_refuted.
Example C99_case : let st := [mkT [2]%nat [0; 1]; mkT [2; 2]%nat [0; 1; 1; 0]] in
  Forall (fun p => (p < length st)%nat) [0; 1; 0]%nat /\ (forall p, In p [0; 1; 0]%nat -> wf (objAt st p)).
Proof. cbv zeta. split; [repeat constructor|]. intros p [<-|[<-|[<-|[]]]]; split; cbn; auto; repeat constructor. Qed.

(** ** C100: clean_zeros_from_matrix *)
Theorem C100_small_entries_are_cleared : forall (acc : R) (t : tensor R), wf t ->
  let t' := @clean_zeros R R_num acc t in
  shp t' = shp t /\ wf t' /\
  (forall idx, inrange (shp t) idx -> (Rabs (tget t idx) < acc -> tget t' idx = 0) /\ (acc <= Rabs (tget t idx) -> tget t' idx = tget t idx)) /\
  (forall x, Forall (fun v => -1 <= v <= 1) x -> Rabs (cheb_eval t' x - cheb_eval t x) <= INR (length (dat t)) * Rmax acc 0) /\
  @clean_zeros R R_num acc t' = t'.
Proof.
  intros acc t [W1 W2] t'. 
  assert (CE : forall v, (Rabs v < acc -> @cleanEntry R R_num acc v = 0) /\ (acc <= Rabs v -> @cleanEntry R R_num acc v = v)).
  { intros v. unfold cleanEntry, ngtb. rnum. destruct (Rltb v acc) eqn:E1; destruct (Rltb (- acc) v) eqn:E2; cbn [andb];
      try apply Rltb_true in E1; try apply Rltb_false in E1; try apply Rltb_true in E2; try apply Rltb_false in E2; split; auto; unfold Rabs; destruct (Rcase_abs v); intros; lra. }
  assert (C0 : @cleanEntry R R_num acc 0 = 0). { destruct (Rlt_le_dec (Rabs 0) acc) as [L|L]; [exact (proj1 (CE 0) L)|exact (proj2 (CE 0) L)]. }
  assert (G : forall idx, tget t' idx = @cleanEntry R R_num acc (tget t idx)).
  { intros idx. unfold t', clean_zeros, tget. cbn [shp dat]. rnum. rewrite <- C0 at 1. apply map_nth. }
  split; [reflexivity|]. split; [split; cbn; [rewrite map_length; auto|auto]|]. split; [|split].
  - intros idx _. rewrite G. apply CE.
  - intros x Hx. unfold cheb_eval. change (shp t') with (shp t).
    assert (L : length (dat t) = length (indices (shp t))) by (rewrite W1, length_indices; reflexivity). rewrite L. clear L.
    induction (indices (shp t)) as [|idx l IH]; cbn [map Rsum fold_right length].
    { cbn. rewrite Rminus_0_r, Rabs_R0. lra. }
    rewrite S_INR. rewrite G.
    assert (B : Rabs (basis chebT idx x) <= 1) by (apply chebasis_bound; auto).
    assert (Q : Rabs (@cleanEntry R R_num acc (tget t idx) - tget t idx) <= Rmax acc 0).
    { destruct (Rlt_le_dec (Rabs (tget t idx)) acc) as [H|H].
      - rewrite (proj1 (CE _) H). rewrite Rminus_0_l, Rabs_Ropp. pose proof (Rmax_l acc 0). lra.
      - rewrite (proj2 (CE _) H). unfold Rminus. rewrite Rplus_opp_r, Rabs_R0. apply Rmax_r. }
    match goal with |- Rabs (?a * ?b + ?s - (?c * ?b + ?u)) <= _ => replace (a * b + s - (c * b + u)) with ((a - c) * b + (s - u)) by ring end.
    eapply Rle_trans; [apply Rabs_triang|]. rewrite Rabs_mult. unfold Rsum in IH. pose proof (Rabs_pos (cleanEntry acc (tget t idx) - tget t idx)). pose proof (Rabs_pos (basis chebT idx x)).
    assert (Rabs (cleanEntry acc (tget t idx) - tget t idx) * Rabs (basis chebT idx x) <= Rmax acc 0 * 1) by (apply Rmult_le_compat; auto). lra.
  - unfold t', clean_zeros. cbn [shp dat]. f_equal. rewrite map_map. apply map_ext. intros v. destruct (Rlt_le_dec (Rabs v) acc) as [L|L].
    + rewrite (proj1 (CE v) L). exact C0.
    + rewrite (proj2 (CE v) L). exact (proj2 (CE v) L).
Qed.
Print Assumptions C100_small_entries_are_cleared.
Example C100_case : let t := mkT [3]%nat [1; / 1000; - / 1000] in wf t /\ @clean_zeros R R_num (1/100) t = mkT [3]%nat [1; 0; 0].
Proof.
  cbv zeta. split; [split; cbn; auto; repeat constructor|]. unfold clean_zeros, cleanEntry, ngtb. cbn [shp dat map]. rnum.
  rewrite (proj2 (Rltb_false 1 (1/100))) by lra. rewrite (proj2 (Rltb_true (/ 1000) (1/100))), (proj2 (Rltb_true (- (1/100)) (/ 1000))), (proj2 (Rltb_true (- / 1000) (1/100))), (proj2 (Rltb_true (- (1/100)) (- / 1000))) by lra. reflexivity.
Qed.

(** ** C101: divides and quotient *)
(** the monomial with exponents [a]: x_1^a_1 ... x_n^a_n *)
Definition monomial (a : list nat) (x : list R) : R := basis (fun i v => v ^ i) a x.
Definition addExp (a b : list nat) : list nat := map (fun p => (fst p + snd p)%nat) (combine a b).
Theorem C101_divides_means_divides : forall a b : list nat, length a = length b ->
  (divides (map Z.of_nat a) (map Z.of_nat b) = true <-> exists q, length q = length a /\ b = addExp a q) /\
  (forall q, length q = length a -> b = addExp a q ->
     quotient (map Z.of_nat b) (map Z.of_nat a) = map Z.of_nat q /\ forall x, length x = length a -> monomial b x = monomial a x * monomial q x).
Proof.
  assert (Q : forall a q, length q = length a -> quotient (map Z.of_nat (addExp a q)) (map Z.of_nat a) = map Z.of_nat q).
  { induction a as [|i a IH]; intros [|j q] H; cbn in H; try discriminate; auto. cbn. f_equal; [lia|]. apply IH. lia. }
  intros a b Hl. split.
  - unfold divides. split.
    + revert b Hl. induction a as [|i a IH]; intros [|j b] Hl H; cbn in Hl; try discriminate; [exists []; auto|].
      cbn in H. apply andb_true_iff in H. destruct H as [H1 H2]. apply Z.leb_le in H1. destruct (IH b) as (q & L & E); auto. exists ((j - i)%nat :: q). split; [cbn; lia|]. cbn. f_equal; [lia|exact E].
    + intros (q & L & ->). rewrite Q by auto. apply forallb_forall. intros d Hd. apply in_map_iff in Hd. destruct Hd as (k & <- & _). apply Z.leb_le. lia.
  - intros q L ->. split; [apply Q; auto|]. intros x Hx. clear Hl. unfold monomial. revert q x L Hx. induction a as [|i a IH]; intros [|j q] [|v x] L Hx; cbn in L, Hx; try discriminate; [cbn; ring|].
    cbn. change (map (fun p => (fst p + snd p)%nat) (combine a q)) with (addExp a q). rewrite (IH q x) by lia. rewrite pow_add. ring.
Qed.
Print Assumptions C101_divides_means_divides.
Example C101_case : divides [1; 0]%Z [3; 2]%Z = true /\ quotient [3; 2]%Z [1; 0]%Z = [2; 2]%Z /\ divides [1; 3]%Z [3; 2]%Z = false.
Proof. repeat split. Qed.
