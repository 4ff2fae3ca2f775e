(** * The sub-interval checks of IntervalChecks.py: every face of the box is examined, or is
    degenerate or indefinite.  The arguments are those of QuadProofs.v, Quad3Proofs.v and
    QuadNdFaces.v with the box in place of the cube. *)
From Coq Require Import List Arith Bool ZArith Reals Lra Lia Sorted.
From Verif Require Import Num RSum Cheb Tensor PolySpec TransformModel TransformChebProofs PartProofs IntervalProofs LinearProofs.
From Verif Require Import QuadModel QuadDescent QuadProofs Quad3Proofs QuadNdProofs QuadNdFaces SubcheckModel SubcheckBox.
Import ListNotations.
Local Open Scope R_scope.

Lemma between_R l h v : @between R R_num l h v = true <-> l < v < h.
Proof. unfold between. rnum. rewrite andb_true_iff, !Rltb_true. reflexivity. Qed.
Lemma edge_decB l h s i n : boxv l h n s -> (i < n)%nat -> ~ freeB l h s i -> s i = l i \/ s i = h i.
Proof. intros H Hi Hf. specialize (H i Hi). unfold freeB in Hf. destruct (Rlt_dec (l i) (s i)); destruct (Rlt_dec (s i) (h i)); [exfalso; tauto|right|left|left]; lra. Qed.

Section Two.
Variable b : @sbox R.

Definition cand2B (c : list R) (X : vec) : Prop := In (X 0%nat, X 1%nat) (@sub2_points R R_num c b).
Lemma faces2B c s : boxv (lo b) (hi b) 2 s -> faceOKB (lo b) (hi b) 2 (B2 c) (H2 c) (cand2B c) (freeB (lo b) (hi b) s) s.
Proof.
  intros Hs. unfold faceOKB.
  set (c1 := nth 1 c 0) in *. set (c2 := nth 2 c 0) in *. set (c3 := nth 3 c 0) in *. set (c4 := nth 4 c 0) in *. set (c5 := nth 5 c 0) in *.
  assert (Hmul : forall X i, mulv 2 (H2 c) X i = H2 c i 0 * X 0%nat + H2 c i 1 * X 1%nat) by (intros; unfold mulv; apply sumn2).
  assert (E00 : H2 c 0 0 = 4 * c3) by reflexivity. assert (E01 : H2 c 0 1 = c4) by reflexivity.
  assert (E10 : H2 c 1 0 = c4) by reflexivity. assert (E11 : H2 c 1 1 = 4 * c5) by reflexivity.
  assert (EB0 : B2 c 0 = c1) by reflexivity. assert (EB1 : B2 c 1 = c2) by reflexivity.
  assert (Hcand : forall X, cand2B c X <-> In (X 0%nat, X 1%nat) (@sub2_points R R_num c b)) by (intros; reflexivity).
  unfold sub2_points in Hcand. rewrite n4_R, n16_R in Hcand. cbn [nadd nsub nmul ndiv nopp nabs nltb nleb neqb n0 n1 R_num] in Hcand.
  fold c1 c2 c3 c4 c5 in Hcand.
  destruct (free_decB (lo b) (hi b) s 0) as [F0|F0]; destruct (free_decB (lo b) (hi b) s 1) as [F1|F1].
  - (* interior *)
    destruct (Req_EM_T (16 * c3 * c5 - c4 * c4) 0) as [D|D].
    + left. destruct (Req_EM_T c3 0) as [Z3|Z3]; [|].
      * assert (Z4 : c4 = 0) by (rewrite Z3 in D; nra).
        exists (vec2 1 0). repeat split; [intros i Hi Hn; two i; contradiction|exists 0%nat; split; [lia|simpl; lra]|].
        intros i Hi _. rewrite Hmul. two i; rewrite ?E00, ?E01, ?E10, ?E11; simpl; rewrite ?Z3, ?Z4; ring.
      * exists (vec2 c4 (- (4 * c3))). repeat split; [intros i Hi Hn; two i; contradiction|exists 1%nat; split; [lia|simpl; lra]|].
        intros i Hi _. rewrite Hmul. two i; rewrite ?E00, ?E01, ?E10, ?E11; simpl; lra.
    + right; right. exists (vec2 ((c2 * c4 - 4 * c1 * c5) / (16 * c3 * c5 - c4 * c4)) ((c1 * c4 - 4 * c2 * c3) / (16 * c3 * c5 - c4 * c4))).
      split; [intros i Hi Hn; two i; contradiction|]. split.
      * intros i Hi _. rewrite Hmul. two i; rewrite ?E00, ?E01, ?E10, ?E11, ?EB0, ?EB1; simpl; field; auto.
      * intros Hin. apply Hcand. rewrite !in_app_iff. right; right; right.
        rewrite (proj2 (Reqb_false _ _) D). cbn [negb].
        pose proof (Hin 0%nat ltac:(lia) F0) as I0. pose proof (Hin 1%nat ltac:(lia) F1) as I1. unfold freeB in I0, I1. cbn [vec2] in I0, I1.
        apply between_R in I0. apply between_R in I1. rewrite I0, I1. left. reflexivity.
  - (* y fixed *)
    destruct (Req_EM_T c3 0) as [Z3|Z3].
    + left. exists (vec2 1 0). repeat split; [intros i Hi Hn; two i; [contradiction|reflexivity]|exists 0%nat; split; [lia|simpl; lra]|].
      intros i Hi Hf. two i; [|contradiction]. rewrite Hmul, E00, E01, Z3. simpl. ring.
    + right; right. exists (vec2 (- (c1 + c4 * s 1%nat) / (4 * c3)) (s 1%nat)).
      split; [intros i Hi Hn; two i; [contradiction|reflexivity]|]. split.
      * intros i Hi Hf. two i; [|contradiction]. rewrite Hmul, E00, E01, EB0. simpl. field. auto.
      * intros Hin. apply Hcand. rewrite !in_app_iff. right; right; left.
        rewrite (proj2 (Reqb_false _ _) Z3). cbn [negb]. apply in_flat_map. exists (s 1%nat). split.
        -- destruct (edge_decB (lo b) (hi b) s 1 2 Hs ltac:(lia) F1) as [E|E]; rewrite E; simpl; auto.
        -- pose proof (Hin 0%nat ltac:(lia) F0) as I0. unfold freeB in I0. cbn [vec2] in I0. apply between_R in I0. rewrite I0. left. reflexivity.
  - (* x fixed *)
    destruct (Req_EM_T c5 0) as [Z3|Z3].
    + left. exists (vec2 0 1). repeat split; [intros i Hi Hn; two i; [reflexivity|contradiction]|exists 1%nat; split; [lia|simpl; lra]|].
      intros i Hi Hf. two i; [contradiction|]. rewrite Hmul, E10, E11, Z3. simpl. ring.
    + right; right. exists (vec2 (s 0%nat) (- (c2 + c4 * s 0%nat) / (4 * c5))).
      split; [intros i Hi Hn; two i; [reflexivity|contradiction]|]. split.
      * intros i Hi Hf. two i; [contradiction|]. rewrite Hmul, E10, E11, EB1. simpl. field. auto.
      * intros Hin. apply Hcand. rewrite !in_app_iff. right; left.
        rewrite (proj2 (Reqb_false _ _) Z3). cbn [negb]. apply in_flat_map. exists (s 0%nat). split.
        -- destruct (edge_decB (lo b) (hi b) s 0 2 Hs ltac:(lia) F0) as [E|E]; rewrite E; simpl; auto.
        -- pose proof (Hin 1%nat ltac:(lia) F1) as I0. unfold freeB in I0. cbn [vec2] in I0. apply between_R in I0. rewrite I0. left. reflexivity.
  - (* corner *)
    right; right. exists s. split; [auto|]. split; [intros i Hi Hf; two i; contradiction|].
    intros _. apply Hcand. rewrite in_app_iff. left.
    destruct (edge_decB (lo b) (hi b) s 0 2 Hs ltac:(lia) F0) as [E|E]; destruct (edge_decB (lo b) (hi b) s 1 2 Hs ltac:(lia) F1) as [E'|E']; rewrite E, E'; simpl; tauto.
Qed.

End Two.

Section Three.
Variable b : @sbox R.
Definition cand3B (c : list R) (X : vec) : Prop := In (X 0%nat, X 1%nat, X 2%nat) (@sub3_points R R_num c b).
Lemma faces3B c s : boxv (lo b) (hi b) 3 s -> faceOKB (lo b) (hi b) 3 (B3 c) (H3 c) (cand3B c) (freeB (lo b) (hi b) s) s.
Proof.
  intros Hs. unfold faceOKB.
  set (c1 := nth 1 c 0) in *. set (c2 := nth 2 c 0) in *. set (c3 := nth 3 c 0) in *. set (c4 := nth 4 c 0) in *. set (c5 := nth 5 c 0) in *.
  set (c6 := nth 6 c 0) in *. set (c7 := nth 7 c 0) in *. set (c8 := nth 8 c 0) in *. set (c9 := nth 9 c 0) in *.
  assert (Hmul : forall X i, mulv 3 (H3 c) X i = H3 c i 0 * X 0%nat + H3 c i 1 * X 1%nat + H3 c i 2 * X 2%nat) by (intros; unfold mulv; apply sumn3).
  assert (Hcand : forall X, cand3B c X <-> In (X 0%nat, X 1%nat, X 2%nat) (@sub3_points R R_num c b)) by (intros; reflexivity).
  unfold sub3_points in Hcand. rewrite n4_R, n2_R in Hcand. cbn [nadd nsub nmul ndiv nopp nabs nltb nleb neqb n0 n1 R_num] in Hcand.
  fold c1 c2 c3 c4 c5 c6 c7 c8 c9 in Hcand. 
  assert (Hedge : forall i, (i < 3)%nat -> ~ freeB (lo b) (hi b) s i -> s i = lo b i \/ s i = hi b i) by (intros; eapply edge_decB; eauto).
  assert (Hpair : forall i j, (i < 3)%nat -> (j < 3)%nat -> ~ freeB (lo b) (hi b) s i -> ~ freeB (lo b) (hi b) s j -> In (s i, s j) [(lo b i, lo b j);(lo b i, hi b j);(hi b i, lo b j);(hi b i, hi b j)]).
  { intros i j Hi Hj Fi Fj. destruct (Hedge i Hi Fi) as [Ei|Ei]; destruct (Hedge j Hj Fj) as [Ej|Ej]; rewrite Ei, Ej; simpl; tauto. }
  assert (Hside : forall i, (i < 3)%nat -> ~ freeB (lo b) (hi b) s i -> In (s i) [lo b i; hi b i]).
  { intros i Hi Fi. destruct (Hedge i Hi Fi) as [Ei|Ei]; rewrite Ei; simpl; tauto. }
  destruct (free_decB (lo b) (hi b) s 0) as [F0|F0]; destruct (free_decB (lo b) (hi b) s 1) as [F1|F1]; destruct (free_decB (lo b) (hi b) s 2) as [F2|F2].
  - (* interior *)
    match type of Hcand with context [if negb (Reqb ?d 0) then (if _ && between _ _ _ && between _ _ _ then _ else _) else []] => set (det := d) in * end.
    destruct (Req_EM_T det 0) as [D|D].
    + left. destruct (kernel3 (4 * c7) c4 c5 (4 * c8) c6 (4 * c9)) as (u & v & w & Hnz & K1 & K2 & K3); [rewrite <- D; unfold det; ring|].
      exists (vec3 u v w). repeat split; [intros i Hi Hn; three i; contradiction| |].
      * destruct Hnz as [?|[?|?]]; [exists 0%nat|exists 1%nat|exists 2%nat]; split; auto; lia.
      * intros i Hi _. rewrite Hmul. three i; evalH; lra.
    + right; right. eexists (vec3 _ _ _). split; [intros i Hi Hn; three i; contradiction|]. split; cycle 1.
      * intros Hin. apply Hcand. rewrite !in_app_iff. do 7 right. rewrite (proj2 (Reqb_false _ _) D). cbn [negb vec3].
        pose proof (Hin 0%nat ltac:(lia) F0) as I0. pose proof (Hin 1%nat ltac:(lia) F1) as I1. pose proof (Hin 2%nat ltac:(lia) F2) as I2.
        unfold freeB in I0, I1, I2. cbn [vec3] in I0, I1, I2. apply between_R in I0. apply between_R in I1. apply between_R in I2.
        match goal with |- In _ (if between _ _ ?a && between _ _ ?b && between _ _ ?d then _ else _) => match goal with |- In (?x, ?y, ?z) _ => unify x a; unify y b; unify z d end end.
        rewrite I0, I1, I2. left. reflexivity.
      * intros i Hi _. rewrite Hmul. unfold det in *. three i; evalH; field; auto.
  - (* z fixed *)
    match type of Hcand with context [if negb (Reqb (2 * (2 * c7) * (2 * (2 * c8)) - ?d) 0) then _ else _] => set (det := 2 * (2 * c7) * (2 * (2 * c8)) - d) in * end.
    destruct (Req_EM_T det 0) as [D|D].
    + left. destruct (kernel2 (4 * c7) c4 (4 * c8)) as (u & v & Hnz & K1 & K2); [rewrite <- D; unfold det; ring|].
      exists (vec3 u v 0). repeat split; [intros i Hi Hn; three i; [contradiction|contradiction|reflexivity]| |].
      * destruct Hnz as [?|?]; [exists 0%nat|exists 1%nat]; split; auto; lia.
      * intros i Hi Hf. rewrite Hmul. three i; [| |contradiction]; evalH; lra.
    + right; right. eexists (vec3 _ _ (s 2%nat)). split; [intros i Hi Hn; three i; [contradiction|contradiction|reflexivity]|]. split; cycle 1.
      * intros Hin. apply Hcand. rewrite !in_app_iff. do 6 right. left. rewrite (proj2 (Reqb_false _ _) D). cbn [negb vec3].
        apply in_flat_map. exists (s 2%nat). split; [apply Hside; auto; lia|].
        pose proof (Hin 0%nat ltac:(lia) F0) as I0. pose proof (Hin 1%nat ltac:(lia) F1) as I1. unfold freeB in I0, I1. cbn [vec3] in I0, I1. apply between_R in I0. apply between_R in I1.
        match goal with |- In _ (if between _ _ ?a && between _ _ ?b then _ else _) => match goal with |- In (?x, ?y, _) _ => unify x a; unify y b end end.
        rewrite I0, I1. left. reflexivity.
      * intros i Hi Hf. rewrite Hmul. unfold det in *. three i; [| |contradiction]; evalH; field; auto.
  - (* y fixed *)
    match type of Hcand with context [if negb (Reqb (2 * (2 * c7) * (2 * (2 * c9)) - ?d) 0) then _ else _] => set (det := 2 * (2 * c7) * (2 * (2 * c9)) - d) in * end.
    destruct (Req_EM_T det 0) as [D|D].
    + left. destruct (kernel2 (4 * c7) c5 (4 * c9)) as (u & v & Hnz & K1 & K2); [rewrite <- D; unfold det; ring|].
      exists (vec3 u 0 v). repeat split; [intros i Hi Hn; three i; [contradiction|reflexivity|contradiction]| |].
      * destruct Hnz as [?|?]; [exists 0%nat|exists 2%nat]; split; auto; lia.
      * intros i Hi Hf. rewrite Hmul. three i; [|contradiction|]; evalH; lra.
    + right; right. eexists (vec3 _ (s 1%nat) _). split; [intros i Hi Hn; three i; [contradiction|reflexivity|contradiction]|]. split; cycle 1.
      * intros Hin. apply Hcand. rewrite !in_app_iff. do 5 right. left. rewrite (proj2 (Reqb_false _ _) D). cbn [negb vec3].
        apply in_flat_map. exists (s 1%nat). split; [apply Hside; auto; lia|].
        pose proof (Hin 0%nat ltac:(lia) F0) as I0. pose proof (Hin 2%nat ltac:(lia) F2) as I1. unfold freeB in I0, I1. cbn [vec3] in I0, I1. apply between_R in I0. apply between_R in I1.
        match goal with |- In _ (if between _ _ ?a && between _ _ ?b then _ else _) => match goal with |- In (?x, _, ?y) _ => unify x a; unify y b end end.
        rewrite I0, I1. left. reflexivity.
      * intros i Hi Hf. rewrite Hmul. unfold det in *. three i; [|contradiction|]; evalH; field; auto.
  - (* y and z fixed *)
    destruct (Req_EM_T c7 0) as [D|D].
    + left. exists (vec3 1 0 0). repeat split; [intros i Hi Hn; three i; [contradiction|reflexivity|reflexivity]|exists 0%nat; split; [lia|simpl; lra]|].
      intros i Hi Hf. rewrite Hmul. three i; [|contradiction|contradiction]; evalH; rewrite D; ring.
    + right; right. eexists (vec3 _ (s 1%nat) (s 2%nat)). split; [intros i Hi Hn; three i; [contradiction|reflexivity|reflexivity]|]. split; cycle 1.
      * intros Hin. apply Hcand. rewrite !in_app_iff. do 3 right. left. rewrite (proj2 (Reqb_false _ _) D). cbn [negb vec3].
        apply in_flat_map. exists (s 1%nat, s 2%nat). split; [apply Hpair; auto; lia|].
        pose proof (Hin 0%nat ltac:(lia) F0) as I0. unfold freeB in I0. cbn [vec3] in I0. apply between_R in I0.
        match goal with |- In _ (if between _ _ ?a then _ else _) => match goal with |- In (?x, _, _) _ => unify x a end end.
        rewrite I0. left. reflexivity.
      * intros i Hi Hf. rewrite Hmul. three i; [|contradiction|contradiction]; evalH; field; auto.
  - (* x fixed *)
    match type of Hcand with context [if negb (Reqb (2 * (2 * c8) * (2 * (2 * c9)) - ?d) 0) then _ else _] => set (det := 2 * (2 * c8) * (2 * (2 * c9)) - d) in * end.
    destruct (Req_EM_T det 0) as [D|D].
    + left. destruct (kernel2 (4 * c8) c6 (4 * c9)) as (u & v & Hnz & K1 & K2); [rewrite <- D; unfold det; ring|].
      exists (vec3 0 u v). repeat split; [intros i Hi Hn; three i; [reflexivity|contradiction|contradiction]| |].
      * destruct Hnz as [?|?]; [exists 1%nat|exists 2%nat]; split; auto; lia.
      * intros i Hi Hf. rewrite Hmul. three i; [contradiction| |]; evalH; lra.
    + right; right. eexists (vec3 (s 0%nat) _ _). split; [intros i Hi Hn; three i; [reflexivity|contradiction|contradiction]|]. split; cycle 1.
      * intros Hin. apply Hcand. rewrite !in_app_iff. do 4 right. left. rewrite (proj2 (Reqb_false _ _) D). cbn [negb vec3].
        apply in_flat_map. exists (s 0%nat). split; [apply Hside; auto; lia|].
        pose proof (Hin 1%nat ltac:(lia) F1) as I0. pose proof (Hin 2%nat ltac:(lia) F2) as I1. unfold freeB in I0, I1. cbn [vec3] in I0, I1. apply between_R in I0. apply between_R in I1.
        match goal with |- In _ (if between _ _ ?a && between _ _ ?b then _ else _) => match goal with |- In (_, ?x, ?y) _ => unify x a; unify y b end end.
        rewrite I0, I1. left. reflexivity.
      * intros i Hi Hf. rewrite Hmul. unfold det in *. three i; [contradiction| |]; evalH; field; auto.
  - (* x and z fixed *)
    destruct (Req_EM_T c8 0) as [D|D].
    + left. exists (vec3 0 1 0). repeat split; [intros i Hi Hn; three i; [reflexivity|contradiction|reflexivity]|exists 1%nat; split; [lia|simpl; lra]|].
      intros i Hi Hf. rewrite Hmul. three i; [contradiction| |contradiction]; evalH; rewrite D; ring.
    + right; right. eexists (vec3 (s 0%nat) _ (s 2%nat)). split; [intros i Hi Hn; three i; [reflexivity|contradiction|reflexivity]|]. split; cycle 1.
      * intros Hin. apply Hcand. rewrite !in_app_iff. do 2 right. left. rewrite (proj2 (Reqb_false _ _) D). cbn [negb vec3].
        apply in_flat_map. exists (s 0%nat, s 2%nat). split; [apply Hpair; auto; lia|].
        pose proof (Hin 1%nat ltac:(lia) F1) as I0. unfold freeB in I0. cbn [vec3] in I0. apply between_R in I0.
        match goal with |- In _ (if between _ _ ?a then _ else _) => match goal with |- In (_, ?x, _) _ => unify x a end end.
        rewrite I0. left. reflexivity.
      * intros i Hi Hf. rewrite Hmul. three i; [contradiction| |contradiction]; evalH; field; auto.
  - (* x and y fixed *)
    destruct (Req_EM_T c9 0) as [D|D].
    + left. exists (vec3 0 0 1). repeat split; [intros i Hi Hn; three i; [reflexivity|reflexivity|contradiction]|exists 2%nat; split; [lia|simpl; lra]|].
      intros i Hi Hf. rewrite Hmul. three i; [contradiction|contradiction|]; evalH; rewrite D; ring.
    + right; right. eexists (vec3 (s 0%nat) (s 1%nat) _). split; [intros i Hi Hn; three i; [reflexivity|reflexivity|contradiction]|]. split; cycle 1.
      * intros Hin. apply Hcand. rewrite !in_app_iff. right. left. rewrite (proj2 (Reqb_false _ _) D). cbn [negb vec3].
        apply in_flat_map. exists (s 0%nat, s 1%nat). split; [apply Hpair; auto; lia|].
        pose proof (Hin 2%nat ltac:(lia) F2) as I0. unfold freeB in I0. cbn [vec3] in I0. apply between_R in I0.
        match goal with |- In _ (if between _ _ ?a then _ else _) => match goal with |- In (_, _, ?x) _ => unify x a end end.
        rewrite I0. left. reflexivity.
      * intros i Hi Hf. rewrite Hmul. three i; [contradiction|contradiction|]; evalH; field; auto.
  - (* corner *)
    right; right. exists s. split; [auto|]. split; [intros i Hi Hf; three i; contradiction|].
    intros _. apply Hcand. rewrite in_app_iff. left.
    destruct (Hedge 0%nat ltac:(lia) F0) as [E|E]; destruct (Hedge 1%nat ltac:(lia) F1) as [E'|E']; destruct (Hedge 2%nat ltac:(lia) F2) as [E''|E'']; rewrite E, E', E''; simpl; tauto.
Qed.

End Three.
