(** * Lemmas about the root tracker *)
From Coq Require Import List Arith Bool Lia Reals Lra.
From Verif Require Import Num TrackerModel.
Import ListNotations.

Section Generic.
  Context {T : Type} {NT : Num T} {M : Type}.
  Notation trk := (tracker T M).
  Notation cll := (call T M).

  Lemma fold_inv A B (P : A -> Prop) (f : A -> B -> A) : (forall a b, P a -> P (f a b)) -> forall l a, P a -> P (fold_left f l a).
  Proof. intros H l; induction l as [|x l IH]; intros a Ha; simpl; auto. Qed.
  Lemma fold_inv_in A B (P : A -> Prop) (f : A -> B -> A) l : (forall a b, In b l -> P a -> P (f a b)) -> forall a, P a -> P (fold_left f l a).
  Proof.
    induction l as [|x l IH]; intros H a Ha; simpl; auto.
    apply IH; [intros; apply H; [right; assumption|assumption]|apply H; [left; reflexivity|assumption]].
  Qed.

  Definition isPolish (c : cll) : bool := match c with Polish => true | _ => false end.
  Definition noPolish (h : list cll) : Prop := ~ In Polish h.

  (** ** Counting *)
  Definition bal (s : trk) : Prop :=
    length (intervals s) = length (methods s) /\ length (intervals s) = length (roots s) + length (potential_roots s).
  Lemma bal_add_root s z a b m : bal s -> bal (add_root s z a b m).
  Proof. unfold bal, add_root; simpl; rewrite !app_length; simpl; lia. Qed.
  Lemma bal_add_one a b m s z : bal s -> bal (add_one a b m s z).
  Proof.
    intro H; unfold add_one. destruct (rootInBox z a b); [apply bal_add_root; assumption|].
    destruct (existsb _ _); [assumption|exact H].
  Qed.
  Lemma bal_keep s : bal s -> bal (keep_possible_duplicates s).
  Proof.
    intro H; unfold keep_possible_duplicates.
    assert (Hf : bal (fold_left (fun s d => let '(zero, a, b, method) := d in add_root s zero a b method) (possible_duplicates s) s)).
    { apply (fold_inv _ _ bal); [intros s' [[[z a] b] m]; apply bal_add_root|assumption]. }
    exact Hf.
  Qed.
  Lemma bal_step s c : c <> Polish -> bal s -> bal (step s c).
  Proof.
    intros Hc H; destruct c as [zs a b m|z a b m|ps a b m| |]; simpl.
    - assert (Hf : bal (fold_left (add_one a b m) zs s)) by (apply fold_inv; [intros; apply bal_add_one; assumption|assumption]).
      exact Hf.
    - apply bal_add_root; assumption.
    - unfold bal, add_potential_roots in *; simpl; rewrite !app_length, !repeat_length; lia.
    - congruence.
    - apply bal_keep; assumption.
  Qed.
  Lemma bal_run h : noPolish h -> bal (run h).
  Proof.
    intro Hp; unfold run. apply fold_inv_in; [|split; reflexivity].
    intros s c Hin; apply bal_step; intros ->; contradiction.
  Qed.
  Definition im (s : trk) : Prop := length (intervals s) = length (methods s).
  Lemma im_add_root s z a b m : im s -> im (add_root s z a b m).
  Proof. unfold im, add_root; simpl; rewrite !app_length; simpl; lia. Qed.
  Lemma im_step s c : im s -> im (step s c).
  Proof.
    intro H; destruct c as [zs a b m|z a b m|ps a b m| |]; simpl.
    - assert (Hf : im (fold_left (add_one a b m) zs s)); [|exact Hf].
      apply fold_inv; [|assumption]. intros s' z Hs; unfold add_one. destruct (rootInBox z a b); [apply im_add_root; assumption|].
      destruct (existsb _ _); exact Hs.
    - apply im_add_root; assumption.
    - unfold im, add_potential_roots in *; simpl; rewrite !app_length, !repeat_length; lia.
    - reflexivity.
    - unfold keep_possible_duplicates.
      assert (Hf : im (fold_left (fun s d => let '(zero, a, b, method) := d in add_root s zero a b method) (possible_duplicates s) s)); [|exact Hf].
      apply (fold_inv _ _ im); [intros s' [[[z a] b] m]; apply im_add_root|assumption].
  Qed.
  Lemma im_run h : im (run h).
  Proof. unfold run. apply fold_inv; [intros; apply im_step; assumption|reflexivity]. Qed.

  (** ** What a history hands in *)
  Definition handed (c : cll) : list (point * point * point * M) :=
    match c with AddRoots zs a b m => map (fun z => (z, a, b, m)) zs | AddRoot z a b m => [(z, a, b, m)] | _ => [] end.
  Definition boxes (c : cll) : list (point * point) :=
    match c with AddRoots _ a b _ => [(a, b)] | AddRoot _ a b _ => [(a, b)] | AddPotential _ a b _ => [(a, b)] | _ => [] end.
  Definition pots (c : cll) : list point := match c with AddPotential ps _ _ _ => ps | _ => [] end.

  Lemma intervals_from s c B : incl (intervals s) B -> (forall z a b m, In (z, a, b, m) (possible_duplicates s) -> In (a, b) B) ->
    incl (boxes c) B -> incl (intervals (step s c)) B /\ (forall z a b m, In (z, a, b, m) (possible_duplicates (step s c)) -> In (a, b) B).
  Proof.
    intros Hi Hd Hb; destruct c as [zs a b m|z a b m|ps a b m| |]; simpl in *.
    - assert (Hab : In (a, b) B) by (apply Hb; left; reflexivity).
      set (P := fun s' : trk => incl (intervals s') B /\ forall z' a' b' m', In (z', a', b', m') (possible_duplicates s') -> In (a', b') B).
      assert (Hf : P (fold_left (add_one a b m) zs s)).
      { apply fold_inv; [|split; assumption]. intros s' z [Hi' Hd']; unfold add_one.
        destruct (rootInBox z a b); [|destruct (existsb _ _)]; (split; [|]); simpl; try assumption.
        - intros p Hp; apply in_app_or in Hp; destruct Hp as [Hp|[<-|[]]]; auto.
        - intros z' a' b' m' Hp; apply in_app_or in Hp; destruct Hp as [Hp|[Hp|[]]]; [eapply Hd'; exact Hp|].
          inversion Hp; subst; assumption. }
      destruct Hf as [Hi' Hd']; split; [exact Hi'|]. intros z' a' b' m' Hp; apply filter_In in Hp; eapply Hd'; apply (proj1 Hp).
    - split; [|assumption]. intros p Hp; apply in_app_or in Hp; destruct Hp as [Hp|[<-|[]]]; [auto|apply Hb; left; reflexivity].
    - split; [|assumption]. intros p Hp; apply in_app_or in Hp; destruct Hp as [Hp|Hp]; [auto|].
      apply repeat_spec in Hp; subst; apply Hb; left; reflexivity.
    - split; [intros p []|assumption].
    - split; [|intros ? ? ? ? []].
      assert (Hg : forall l (s' : trk), incl (intervals s') B -> (forall z a b m, In (z, a, b, m) l -> In (a, b) B) ->
        incl (intervals (fold_left (fun s d => let '(zero, a, b, method) := d in add_root s zero a b method) l s')) B).
      { induction l as [|[[[z a] b] m] l IH]; intros s' Hs' Hl; simpl; [assumption|].
        apply IH; [|intros; eapply Hl; right; eassumption].
        simpl; intros p Hp; apply in_app_or in Hp; destruct Hp as [Hp|[<-|[]]]; [auto|eapply Hl; left; reflexivity]. }
      apply Hg; assumption.
  Qed.

  (** ** No root is forgotten *)
  Definition acc (B : list (point * point)) (s : trk) (z : point) : Prop :=
    In z (roots s) \/ (exists a b m, In (z, a, b, m) (possible_duplicates s)) \/ (exists a b, In (a, b) B /\ rootInBox z a b = true).
  Lemma acc_mono B B' s z : incl B B' -> acc B s z -> acc B' s z.
  Proof. intros H [?|[?|[a [b [? ?]]]]]; [left|right; left|right; right]; auto. exists a, b; auto. Qed.
  Lemma keep_roots l (s : trk) : let s' := fold_left (fun s d => let '(zero, a, b, method) := d in add_root s zero a b method) l s in
    roots s' = roots s ++ map (fun d => fst (fst (fst d))) l /\ intervals s' = intervals s ++ map (fun d => (snd (fst (fst d)), snd (fst d))) l /\
    methods s' = methods s ++ map (fun d => snd d) l /\ potential_roots s' = potential_roots s.
  Proof.
    simpl; revert s; induction l as [|[[[z a] b] m] l IH]; intro s; simpl; [rewrite !app_nil_r; auto|].
    destruct (IH (add_root s z a b m)) as [H1 [H2 [H3 H4]]]. rewrite H1, H2, H3, H4; simpl; rewrite <- !app_assoc; auto.
  Qed.
  Lemma acc_one B a b m s z z' : In (a, b) B -> acc B s z -> acc B (add_one a b m s z') z.
  Proof.
    intros Hab Hz; unfold add_one. destruct (rootInBox z' a b); [|destruct (existsb _ _); [assumption|]].
    - destruct Hz as [H|[H|H]]; [left; simpl; apply in_or_app; auto|right; left; exact H|right; right; exact H].
    - destruct Hz as [H|[[a' [b' [m' H]]]|H]]; [left; exact H|right; left|right; right; exact H].
      exists a', b', m'; simpl; apply in_or_app; auto.
  Qed.
  Lemma acc_new B a b m s z : incl (intervals s) B -> acc B (add_one a b m s z) z.
  Proof.
    intro Hi; unfold add_one. destruct (rootInBox z a b) eqn:E; [left; simpl; apply in_or_app; right; left; reflexivity|].
    destruct (existsb _ _) eqn:E'.
    - apply existsb_exists in E'; destruct E' as [[a' b'] [Hin Hr]]. right; right; exists a', b'; auto.
    - right; left; exists a, b, m; simpl; apply in_or_app; right; left; reflexivity.
  Qed.
  Lemma add_one_int B a b m (s : trk) z : In (a, b) B -> incl (intervals s) B -> incl (intervals (add_one a b m s z)) B.
  Proof.
    intros Hab Hi; unfold add_one. destruct (rootInBox z a b); [|destruct (existsb _ _); assumption].
    simpl; intros p Hp; apply in_app_or in Hp; destruct Hp as [Hp|[<-|[]]]; auto.
  Qed.
  Lemma acc_fold B a b m zs : In (a, b) B -> forall s : trk, incl (intervals s) B ->
    (forall z, acc B s z -> acc B (fold_left (add_one a b m) zs s) z) /\ (forall z, In z zs -> acc B (fold_left (add_one a b m) zs s) z).
  Proof.
    intro Hab; induction zs as [|z zs IH]; intros s Hi; simpl; [split; [auto|intros ? []]|].
    destruct (IH (add_one a b m s z)) as [H1 H2]; [apply add_one_int; assumption|].
    split; [intros z' Hz'; apply H1, acc_one; assumption|].
    intros z' [->|Hz']; [apply H1, acc_new; assumption|apply H2; assumption].
  Qed.
  Lemma acc_drop B a b s z : In (a, b) B -> acc B s z -> acc B (drop_inside a b s) z.
  Proof.
    intros Hab [H|[[a' [b' [m' H]]]|H]]; [left; exact H| |right; right; exact H].
    destruct (rootInBox z a b) eqn:E; [right; right; exists a, b; auto|].
    right; left; exists a', b', m'; simpl; apply filter_In; split; [assumption|rewrite E; reflexivity].
  Qed.
  Lemma acc_step B s c : c <> Polish -> incl (intervals s) B -> incl (boxes c) B ->
    (forall z, acc B s z -> acc B (step s c) z) /\ (forall z a b m, In (z, a, b, m) (handed c) -> acc B (step s c) z).
  Proof.
    intros Hc Hi Hb; destruct c as [zs a b m|z a b m|ps a b m| |]; simpl in *.
    - assert (Hab : In (a, b) B) by (apply Hb; left; reflexivity).
      destruct (acc_fold B a b m zs Hab s Hi) as [H1 H2].
      split; [intros z Hz; apply acc_drop; auto|].
      intros z a' b' m' Hz; apply in_map_iff in Hz; destruct Hz as [z' [E Hin]]; inversion E; subst. apply acc_drop; auto.
    - split.
      + intros z' [H|[H|H]]; [left; simpl; apply in_or_app; auto|right; left; exact H|right; right; exact H].
      + intros z' a' b' m' [E|[]]; inversion E; subst. left; simpl; apply in_or_app; right; left; reflexivity.
    - split; [intros z [H|[H|H]]; [left|right; left|right; right]; exact H|intros ? ? ? ? []].
    - congruence.
    - split; [|intros ? ? ? ? []]. intros z [H|[[a [b [m H]]]|H]]; [| |right; right; exact H]; left; unfold keep_possible_duplicates; cbn [roots].
      + rewrite (proj1 (keep_roots _ s)); apply in_or_app; auto.
      + rewrite (proj1 (keep_roots _ s)); apply in_or_app; right.
        change z with ((fun d : point * point * point * M => fst (fst (fst d))) (z, a, b, m)). apply in_map; assumption.
  Qed.
  Lemma acc_run_gen B h : incl (flat_map boxes h) B -> noPolish h -> forall s : trk, incl (intervals s) B ->
    (forall z a b m, In (z, a, b, m) (possible_duplicates s) -> In (a, b) B) ->
    (forall z, acc B s z -> acc B (fold_left step h s) z) /\
    (forall z a b m, In (z, a, b, m) (flat_map handed h) -> acc B (fold_left step h s) z).
  Proof.
    induction h as [|c h IH]; intros Hb Hp s Hi Hd; simpl; [split; [auto|intros ? ? ? ? []]|].
    assert (Hbc : incl (boxes c) B) by (intros p Hin; apply Hb; simpl; apply in_or_app; auto).
    assert (Hbh : incl (flat_map boxes h) B) by (intros p Hin; apply Hb; simpl; apply in_or_app; auto).
    assert (Hc : c <> Polish) by (intros ->; apply Hp; left; reflexivity).
    assert (Hph : noPolish h) by (intro Hin; apply Hp; right; assumption).
    destruct (intervals_from s c B Hi Hd Hbc) as [Hi' Hd'].
    destruct (acc_step B s c Hc Hi Hbc) as [A1 A2]. destruct (IH Hbh Hph (step s c) Hi' Hd') as [I1 I2].
    split; [intros z Hz; apply I1, A1, Hz|].
    intros z a b m Hin; apply in_app_or in Hin; destruct Hin as [Hin|Hin]; [apply I1; eapply A2; exact Hin|eapply I2; exact Hin].
  Qed.
  Lemma acc_run h z a b m : noPolish h -> In (z, a, b, m) (flat_map handed h) -> acc (flat_map boxes h) (run h) z.
  Proof.
    intros Hp Hin. apply (proj2 (acc_run_gen (flat_map boxes h) h (incl_refl _) Hp init (incl_nil_l _) (fun _ _ _ _ F => match F with end)) z a b m Hin).
  Qed.

  (** ** Potential roots *)
  Lemma pots_add_one a b m (s : trk) z : potential_roots (add_one a b m s z) = potential_roots s.
  Proof. unfold add_one; destruct (rootInBox z a b); [|destruct (existsb _ _)]; reflexivity. Qed.
  Lemma pots_step s c : potential_roots (step s c) = potential_roots s ++ pots c.
  Proof.
    destruct c as [zs a b m|z a b m|ps a b m| |]; simpl; rewrite ?app_nil_r; try reflexivity.
    - revert s; induction zs as [|z zs IH]; intro s; simpl; [reflexivity|]. rewrite IH, pots_add_one; reflexivity.
    - apply (keep_roots (possible_duplicates s) s).
  Qed.
  Lemma pots_run h : potential_roots (run h : trk) = flat_map pots h.
  Proof.
    unfold run. enough (G : forall s : trk, potential_roots (fold_left step h s) = potential_roots s ++ flat_map pots h) by (rewrite G; reflexivity).
    induction h as [|c h IH]; intro s; simpl; [rewrite app_nil_r; reflexivity|]. rewrite IH, pots_step, app_assoc; reflexivity.
  Qed.

  (** ** Roots, intervals and methods go together when there are no potential roots *)
  Definition aligned (H : list (point * point * point * M)) (s : trk) : Prop :=
    (exists L, incl L H /\ roots s = map (fun d => fst (fst (fst d))) L /\ intervals s = map (fun d => (snd (fst (fst d)), snd (fst d))) L /\
      methods s = map (fun d => snd d) L) /\ incl (possible_duplicates s) H.
  Lemma al_root H s z a b m : In (z, a, b, m) H -> aligned H s -> aligned H (add_root s z a b m).
  Proof.
    intros Hin [[L [HL [E1 [E2 E3]]]] Hd]. split; [|exact Hd]. exists (L ++ [(z, a, b, m)]).
    split; [apply incl_app; [assumption|intros p [<-|[]]; assumption]|].
    simpl; rewrite E1, E2, E3, !map_app; auto.
  Qed.
  Lemma al_step H s c : incl (handed c) H -> pots c = [] -> aligned H s -> aligned H (step s c).
  Proof.
    intros Hh Hp Ha; destruct c as [zs a b m|z a b m|ps a b m| |]; simpl in *.
    - assert (Hf : aligned H (fold_left (add_one a b m) zs s)).
      { apply fold_inv_in; [|assumption]. intros s' z Hz Hs. assert (Hin : In (z, a, b, m) H) by (apply Hh; apply in_map_iff; exists z; auto).
        unfold add_one. destruct (rootInBox z a b); [apply al_root; assumption|]. destruct (existsb _ _); [assumption|].
        destruct Hs as [HL Hd]; split; [exact HL|]. simpl; apply incl_app; [assumption|intros p [<-|[]]; assumption]. }
      destruct Hf as [HL Hd]; split; [exact HL|]. simpl; intros p Hpp; apply filter_In in Hpp; apply Hd, (proj1 Hpp).
    - apply al_root; [apply Hh; left; reflexivity|assumption].
    - subst ps. destruct Ha as [[L [HL [E1 [E2 E3]]]] Hd]; split; [|exact Hd]. exists L; simpl; rewrite !app_nil_r; auto.
    - destruct Ha as [_ Hd]; split; [|exact Hd]. exists []; split; [intros ? []|auto].
    - destruct Ha as [[L [HL [E1 [E2 E3]]]] Hd]; split; [|intros ? []].
      exists (L ++ possible_duplicates s). split; [apply incl_app; assumption|].
      destruct (keep_roots (possible_duplicates s) s) as [K1 [K2 [K3 _]]].
      unfold keep_possible_duplicates; cbn [roots intervals methods]. rewrite K1, K2, K3, E1, E2, E3, !map_app; auto.
  Qed.
  Lemma al_run h : (forall ps a b m, In (AddPotential ps a b m) h -> ps = []) -> aligned (flat_map handed h) (run h).
  Proof.
    intro Hp; unfold run. apply fold_inv_in.
    - intros s c Hin; apply al_step.
      + intros d Hd; apply in_flat_map; exists c; auto.
      + destruct c; simpl; auto. eapply Hp; exact Hin.
    - split; [exists []; split; [intros ? []|auto]|intros ? []].
  Qed.
End Generic.

(** ** np.unique *)
Lemma lexlt_irrefl u : @lexlt R R_num u u = false.
Proof. induction u as [|x u IH]; simpl; rnum; [reflexivity|]. rewrite !(proj2 (Rltb_false x x)) by lra. exact IH. Qed.
Lemma lexlt_trans u : forall v w : list R, length u = length v -> length v = length w -> lexlt u v = true -> lexlt v w = true -> lexlt u w = true.
Proof.
  induction u as [|x u IH]; intros [|y v] [|z w]; simpl; rnum; try discriminate; intros L1 L2.
  intros H1 H2.
  destruct (Rltb x y) eqn:A.
  - destruct (Rltb y z) eqn:B; [|destruct (Rltb z y) eqn:C; [discriminate|]];
    (apply Rltb_true in A; try apply Rltb_true in B; try apply Rltb_false in B; try apply Rltb_false in C;
     replace (Rltb x z) with true by (symmetry; apply Rltb_true; lra); reflexivity).
  - destruct (Rltb y x) eqn:A'; [discriminate|]. apply Rltb_false in A; apply Rltb_false in A'. assert (x = y) by lra; subst y.
    destruct (Rltb x z) eqn:B; [reflexivity|]. destruct (Rltb z x) eqn:C; [discriminate|]. eapply IH; [| |exact H1|exact H2]; lia.
Qed.
Lemma lexlt_total u : forall v : list R, length u = length v -> lexlt u v = false -> lexlt v u = false -> u = v.
Proof.
  induction u as [|x u IH]; intros [|y v]; simpl; rnum; try discriminate; intros L H1 H2; [reflexivity|].
  destruct (Rltb x y) eqn:A; [discriminate|]. destruct (Rltb y x) eqn:B; [discriminate|].
  apply Rltb_false in A; apply Rltb_false in B. f_equal; [lra|apply IH; [lia|assumption|assumption]].
Qed.
Definition sized (n : nat) (p : list R * list R) : Prop := length (fst p) = n /\ length (snd p) = n.
Lemma rowOf_inj n p q : sized n p -> sized n q -> rowOf p = rowOf q -> p = q.
Proof.
  destruct p as [a b], q as [a' b']; intros [H1 H2] [H3 H4] E; unfold rowOf in E; simpl in *.
  assert (Ha : a = a').
  { apply (f_equal (firstn n)) in E. rewrite <- H1 in E at 1. rewrite <- H3 in E. rewrite !firstn_app, !firstn_all, !Nat.sub_diag in E; simpl in E.
    rewrite !app_nil_r in E; exact E. }
  subst a'; f_equal. apply app_inv_head in E; exact E.
Qed.
Definition rowLt (p q : list R * list R) : Prop := lexlt (rowOf p) (rowOf q) = true.
Lemma rowLen n p : sized n p -> length (rowOf p) = (n + n)%nat.
Proof. intros [H1 H2]; unfold rowOf; rewrite app_length. exact (f_equal2 Nat.add H1 H2). Qed.
Lemma insertRow_In n p l : sized n p -> Forall (sized n) l -> forall q, In q (insertRow p l) <-> q = p \/ In q l.
Proof.
  intros Hp Hl; induction Hl as [|r l Hr Hl IH]; intro q; simpl; [intuition|].
  destruct (lexlt (rowOf p) (rowOf r)) eqn:A; [simpl; intuition|].
  destruct (lexlt (rowOf r) (rowOf p)) eqn:B; [simpl; rewrite IH; intuition|].
  assert (E : p = r).
  { apply (rowOf_inj n); auto. apply lexlt_total; auto. rewrite !(rowLen n) by assumption; reflexivity. }
  subst r; simpl; intuition.
Qed.
From Coq Require Import Sorted.
Lemma insertRow_sorted n p l : sized n p -> Forall (sized n) l -> StronglySorted rowLt l -> StronglySorted rowLt (insertRow p l).
Proof.
  intros Hp Hl; induction Hl as [|r l Hr Hl IH]; intro S; simpl; [repeat constructor|].
  apply StronglySorted_inv in S; destruct S as [S Hf].
  destruct (lexlt (rowOf p) (rowOf r)) eqn:A.
  - constructor; [constructor; assumption|]. constructor; [exact A|].
    rewrite Forall_forall in *; intros q Hq. apply (lexlt_trans _ (rowOf r)); [rewrite !(rowLen n); auto| |exact A|apply Hf; assumption].
    rewrite !(rowLen n); auto.
  - destruct (lexlt (rowOf r) (rowOf p)) eqn:B; [|constructor; assumption].
    constructor; [apply IH; assumption|]. rewrite Forall_forall in *; intros q Hq.
    apply (insertRow_In n) in Hq; [|assumption|rewrite Forall_forall; assumption]. destruct Hq as [->|Hq]; [exact B|apply Hf; assumption].
Qed.
Lemma uniqueRows_spec n l : Forall (sized n) l ->
  (forall q, In q (uniqueRows l) <-> In q l) /\ StronglySorted rowLt (uniqueRows l).
Proof.
  intro H; induction H as [|p l Hp Hl [IH1 IH2]]; simpl; [split; [intuition|constructor]|].
  assert (Hs : Forall (sized n) (uniqueRows l)) by (rewrite Forall_forall in *; intros q Hq; apply Hl, IH1, Hq).
  split; [intro q; rewrite (insertRow_In n) by assumption; rewrite IH1; intuition|apply (insertRow_sorted n); assumption].
Qed.
Lemma sorted_NoDup l : StronglySorted rowLt l -> NoDup l.
Proof.
  induction 1 as [|p l S IH Hf]; constructor; [|assumption]. intro Hin. rewrite Forall_forall in Hf. specialize (Hf p Hin).
  unfold rowLt in Hf; rewrite lexlt_irrefl in Hf; discriminate.
Qed.
