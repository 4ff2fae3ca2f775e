(** * Sizes: the Macaulay matrix of a square system has at least as many rows as the monomials outside the Bezout box *)
From Coq Require Import List Arith Lia Bool Permutation.
From Verif Require Import Tensor PolyModel PolyArith TermProofs MacaulayBuild.
Import ListNotations.

  Lemma sum_ge l : (forall d, In d l -> 1 <= d) -> length l <= list_sum l.
  Proof. induction l; intros H; cbn [length list_sum fold_right]; [lia|]. pose proof (H a (or_introl eq_refl)). specialize (IHl (fun d Hd => H d (or_intror Hd))). fold (list_sum l). lia. Qed.
  Lemma box_sum l : forall v, inrange l v -> list_sum v + length l <= list_sum l.
  Proof. induction l as [|d l IH]; intros v H; inversion H; subst; cbn [length list_sum fold_right]; [lia|]. match goal with h : Forall2 _ _ l |- _ => specialize (IH _ h) end. fold (list_sum l). match goal with |- context [fold_right Nat.add 0 ?x] => fold (list_sum x) end. lia. Qed.
  Fixpoint reduceMon (l v : list nat) : nat * list nat :=
    match l, v with d :: l', a :: v' => if d <=? a then (0, a - d :: v') else let '(i, m) := reduceMon l' v' in (S i, a :: m) | _, _ => (0, []) end.
  Lemma reduceMon_spec l : forall v, length v = length l -> ~ inrange l v ->
    fst (reduceMon l v) < length l /\ length (snd (reduceMon l v)) = length l /\ list_sum (snd (reduceMon l v)) + nth (fst (reduceMon l v)) l 0 = list_sum v.
  Proof.
    induction l as [|d l IH]; intros [|a v] L H; try discriminate; [exfalso; apply H; constructor|]. cbn [reduceMon]. destruct (Nat.leb_spec d a) as [G|G].
    - cbn in *. fold (list_sum v). repeat split; lia.
    - destruct (IH v) as (A & B & C); [cbn in L; lia|intros I; apply H; constructor; auto|]. destruct (reduceMon l v) as [i m]. cbn in *. fold (list_sum m) in *. fold (list_sum v) in *. repeat split; lia.
  Qed.
  Lemma reduceMon_inj l : forall v v', length v = length l -> length v' = length l -> ~ inrange l v -> ~ inrange l v' -> reduceMon l v = reduceMon l v' -> v = v'.
  Proof.
    induction l as [|d l IH]; intros [|a v] [|a' v'] L L' H H'; try discriminate; [auto|]. cbn [reduceMon].
    assert (K : forall x y, length (x :: y) = length (d :: l) -> x < d -> ~ inrange (d :: l) (x :: y) -> ~ inrange l y) by (intros x y _ Hx Hn I; apply Hn; constructor; auto).
    destruct (Nat.leb_spec d a) as [G|G], (Nat.leb_spec d a') as [G'|G']; intros E.
    - injection E as E1 E2. f_equal; [lia|auto].
    - destruct (reduceMon l v') in E. discriminate.
    - destruct (reduceMon l v) in E. discriminate.
    - specialize (IH v v' ltac:(cbn in L; lia) ltac:(cbn in L'; lia) (K a v L G H) (K a' v' L' G' H')). destruct (reduceMon l v), (reduceMon l v'). injection E as E1 E2 E3. subst. f_equal. auto.
  Qed.
  Lemma sum_zeros n : list_sum (repeat 0 n) = 0.
  Proof. induction n; auto. Qed.
  Lemma low_outside ds : (forall d, In d ds -> 1 <= d) -> 2 <= length ds -> 2 <= list_sum ds + 1 - length ds ->
    exists v, length v = length ds /\ list_sum v = list_sum ds + 1 - length ds - 1 /\ ~ inrange ds v.
  Proof.
    intros Hds H2 HD. destruct ds as [|d [|e r]]; cbn [length] in *; try lia. pose proof (Hds d ltac:(left; auto)). pose proof (Hds e ltac:(right; left; auto)).
    pose proof (sum_ge r (fun x Hx => Hds x (or_intror (or_intror Hx)))). cbn [list_sum fold_right] in *. change (fold_right Nat.add 0 r) with (list_sum r) in *.
    destruct (le_lt_dec d (d + (e + list_sum r) + 1 - S (S (length r)) - 1)) as [L|L].
    - exists ((d + (e + list_sum r) + 1 - S (S (length r)) - 1) :: 0 :: repeat 0 (length r)). cbn [length list_sum fold_right]. rewrite repeat_length. fold (list_sum (repeat 0 (length r))). rewrite sum_zeros. split; auto. split; [lia|]. intros I. inversion I; subst. lia.
    - exists (0 :: (d + (e + list_sum r) + 1 - S (S (length r)) - 1) :: repeat 0 (length r)). cbn [length list_sum fold_right]. rewrite repeat_length. fold (list_sum (repeat 0 (length r))). rewrite sum_zeros. split; auto. split; [lia|]. intros I. inversion I; subst. match goal with h : Forall2 _ _ (e :: r) |- _ => inversion h; subst end. lia.
  Qed.
Section Count.
  Variable ds : list nat.
  Hypothesis Hds : forall d, In d ds -> 1 <= d.
  Let dim := length ds.
  Let D := list_sum ds + 1 - dim.
  Variable terms : list (list nat).
  Hypothesis Nt : NoDup terms.
  Hypothesis It : forall v, In v terms <-> length v = dim /\ list_sum v <= D.
  Hypothesis Hdim : 1 <= dim.
  Definition outBox (v : list nat) : bool := negb (inrangeb ds v).
  Lemma outBox_spec v : outBox v = true <-> ~ inrange ds v.
  Proof. unfold outBox. destruct (inrangeb ds v) eqn:E; cbn; split; try congruence; try tauto. - intros H. exfalso. apply H. apply inrangeb_spec. auto. - intros _ I. apply inrangeb_spec in I. congruence. Qed.
  Lemma filter_split {A} (P : A -> bool) l : length (filter P l) + length (filter (fun x => negb (P x)) l) = length l.
  Proof. induction l; cbn; auto. destruct (P a); cbn; lia. Qed.
  Lemma inBox_count : length (filter (fun v => negb (outBox v)) terms) = prodn ds.
  Proof.
    rewrite <- (length_indices ds). apply Permutation_length. apply NoDup_same_perm; [apply NoDup_filter; auto|apply NoDup_indices|].
    intros v. rewrite filter_In, in_indices, It. unfold outBox. rewrite negb_involutive, inrangeb_spec. split; [tauto|]. intros I. split; auto. split; [apply inrange_length in I; auto|].
    pose proof (box_sum ds v I). unfold D, dim in *. lia.
  Qed.
  Lemma outBox_count : length (filter outBox terms) = length terms - prodn ds.
  Proof. pose proof (filter_split outBox terms). rewrite inBox_count in H. lia. Qed.
  Definition multipliers : list (nat * list nat) := flat_map (fun i => map (pair i) (enum leafLe dim (D - nth i ds 0))) (seq 0 dim).
  Lemma out_le_rows : length terms - prodn ds <= length multipliers.
  Proof.
    rewrite <- outBox_count. rewrite <- (map_length (reduceMon ds) (filter outBox terms)). apply NoDup_incl_length.
    - assert (G : forall l, NoDup l -> (forall v, In v l -> length v = dim /\ ~ inrange ds v) -> NoDup (map (reduceMon ds) l)).
      { induction l as [|v l IH]; intros N H; [constructor|]. inversion N; subst. cbn. constructor; [|apply IH; auto; intros; apply H; right; auto].
        intros I. apply in_map_iff in I. destruct I as (v' & E & Hv'). destruct (H v (or_introl eq_refl)), (H v' (or_intror Hv')). apply (reduceMon_inj ds) in E; auto. congruence. }
      apply G; [apply NoDup_filter; auto|]. intros v Hv. apply filter_In in Hv. destruct Hv as [Hv O]. apply It in Hv. apply outBox_spec in O. tauto.
    - intros p Hp. apply in_map_iff in Hp. destruct Hp as (v & <- & Hv). apply filter_In in Hv. destruct Hv as [Hv O]. apply It in Hv. apply outBox_spec in O.
      destruct (reduceMon_spec ds v (proj1 Hv) O) as (A & B & C). destruct (reduceMon ds v) as [i m]. cbn [fst snd] in *. apply in_flat_map. exists i. split; [apply in_seq; unfold dim; lia|]. apply in_map. apply enumLe_In; auto. unfold dim. lia.
  Qed.
  Variable cut : nat.
  Hypothesis Low : forall v, In v (skipn cut terms) <-> length v = dim /\ list_sum v <= D - 1.
  Lemma box_incl : incl (indices ds) (skipn cut terms).
  Proof. intros v Hv. apply in_indices in Hv. apply Low. split; [apply inrange_length in Hv; auto|]. pose proof (box_sum ds v Hv). unfold D, dim. lia. Qed.
  Lemma bezout_le : prodn ds <= length terms - cut.
  Proof. rewrite <- (length_indices ds), <- skipn_length. apply NoDup_incl_length; [apply NoDup_indices|apply box_incl]. Qed.
  (** with two equations or more and a degree above 1 there is a low monomial outside the box *)
  Lemma bezout_lt : 2 <= dim -> 2 <= D -> prodn ds < length terms - cut.
  Proof.
    intros H2 HD. pose proof (low_outside ds Hds H2 HD) as E.
    destruct E as (v & L & Sv & O). rewrite <- (length_indices ds), <- skipn_length. change (S (length (indices ds)) <= length (skipn cut terms)). change (S (length (indices ds))) with (length (v :: indices ds)).
    apply NoDup_incl_length; [constructor; [rewrite in_indices; auto|apply NoDup_indices]|]. intros x [<-|Hx]; [apply Low; split; auto; lia|apply box_incl; auto].
  Qed.
End Count.
