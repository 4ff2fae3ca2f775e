(** * The 3-D quadratic check *)
From Coq Require Import List Arith Bool ZArith Reals Lra Lia.
From Verif Require Import Num RSum Cheb Tensor PolySpec TransformModel TransformChebProofs PartProofs IntervalProofs LinearProofs QuadModel QuadDescent QuadProofs.
Import ListNotations.
Local Open Scope R_scope.

Lemma kernel2 a b d : a * d - b * b = 0 -> exists u v, (u <> 0 \/ v <> 0) /\ a * u + b * v = 0 /\ b * u + d * v = 0.
Proof.
  intros D. destruct (Req_EM_T a 0) as [Z|Z].
  - assert (b = 0) by nra. exists 1, 0. subst. split; [left; lra|]. split; ring.
  - exists b, (- a). split; [right; lra|]. split; [ring|lra].
Qed.
Lemma kernel3 a b c d e f : (* rows (a b c) (b d e) (c e f) *)
  a * (d * f - e * e) - b * (f * b - c * e) + c * (b * e - d * c) = 0 ->
  exists u v w, (u <> 0 \/ v <> 0 \/ w <> 0) /\ a * u + b * v + c * w = 0 /\ b * u + d * v + e * w = 0 /\ c * u + e * v + f * w = 0.
Proof.
  intros D.
  set (A11 := d * f - e * e). set (A12 := c * e - b * f). set (A13 := b * e - c * d).
  set (A22 := a * f - c * c). set (A23 := b * c - a * e). set (A33 := a * d - b * b).
  destruct (Req_EM_T A11 0) as [Z11|Z11]; [|exists A11, A12, A13; split; [auto|unfold A11, A12, A13; repeat split; lra]].
  destruct (Req_EM_T A12 0) as [Z12|Z12]; [|exists A11, A12, A13; split; [auto|unfold A11, A12, A13; repeat split; lra]].
  destruct (Req_EM_T A13 0) as [Z13|Z13]; [|exists A11, A12, A13; split; [auto|unfold A11, A12, A13; repeat split; lra]].
  destruct (Req_EM_T A22 0) as [Z22|Z22]; [|exists A12, A22, A23; split; [auto|unfold A12, A22, A23; repeat split; lra]].
  destruct (Req_EM_T A23 0) as [Z23|Z23]; [|exists A12, A22, A23; split; [auto|unfold A12, A22, A23; repeat split; lra]].
  destruct (Req_EM_T A33 0) as [Z33|Z33]; [|exists A13, A23, A33; split; [auto|unfold A13, A23, A33; repeat split; lra]].
  destruct (Req_EM_T a 0) as [Za|Za].
  - subst a. assert (b = 0) by (unfold A33 in Z33; nra). assert (c = 0) by (unfold A22 in Z22; nra). exists 1, 0, 0. subst. split; [left; lra|]. repeat split; ring.
  - exists (- b), a, 0. split; [auto|]. unfold A33, A23 in *. repeat split; lra.
Qed.

Definition ix3 : list (list nat) := [[0;0;0];[1;0;0];[0;1;0];[0;0;1];[1;1;0];[1;0;1];[0;1;1];[2;0;0];[0;2;0];[0;0;2]]%nat.
Lemma qc3_coeff_pget (M : tensor R) : wf M -> ndim M = 3%nat -> @qc3_coeff R R_num M = map (@pget R R_num M) ix3.
Proof.
  intros (_ & Hs) Hd. unfold qc3_coeff, pget, inrangeb, ndim, ix3 in *. destruct (shp M) as [|a [|b [|d [|? ?]]]]; try discriminate. cbn [nth map combine forallb fst snd].
  inversion Hs as [|? ? Ha Hs']; subst. inversion Hs' as [|? ? Hb Hs'']; subst. inversion Hs'' as [|? ? Hd' _]; subst.
  assert (Ea : (0 <? a)%nat = true) by (apply Nat.ltb_lt; lia). assert (Eb : (0 <? b)%nat = true) by (apply Nat.ltb_lt; lia). assert (Ed : (0 <? d)%nat = true) by (apply Nat.ltb_lt; lia).
  rewrite Ea, Eb, Ed, !andb_true_r, !andb_true_l. reflexivity.
Qed.
Definition B3 (c : list R) (i : nat) : R := match i with 0%nat => nth 1 c 0 | 1%nat => nth 2 c 0 | _ => nth 3 c 0 end.
Definition H3 (c : list R) (i j : nat) : R :=
  match i, j with
  | 0%nat, 0%nat => 4 * nth 7 c 0 | 0%nat, 1%nat => nth 4 c 0 | 0%nat, _ => nth 5 c 0
  | 1%nat, 0%nat => nth 4 c 0 | 1%nat, 1%nat => 4 * nth 8 c 0 | 1%nat, _ => nth 6 c 0
  | _, 0%nat => nth 5 c 0 | _, 1%nat => nth 6 c 0 | _, _ => 4 * nth 9 c 0
  end.
Definition k3 (c : list R) : R := nth 0 c 0 - nth 7 c 0 - nth 8 c 0 - nth 9 c 0.
Definition vec3 (x y z : R) : vec := fun i => match i with 0%nat => x | 1%nat => y | _ => z end.
Lemma qc3_eval_quadf c x y z : @qc3_eval R R_num c x y z = quadf 3 (k3 c) (B3 c) (H3 c) (vec3 x y z).
Proof. unfold qc3_eval, quadf, dot, mulv, k3, B3, H3, vec3. rewrite !sumn3. rewrite n2_R. rnum. field. Qed.
Definition cand3 (c : list R) (X : vec) : Prop := In (X 0%nat, X 1%nat, X 2%nat) (@qc3_points R R_num c).
Ltac evalH := cbn [H3 B3 vec3]; repeat match goal with x := nth ?k ?c ?d |- context [nth ?k ?c ?d] => change (nth k c d) with x end.
Ltac three i := destruct i as [|[|[|i]]]; [| | |lia].

Lemma faces3 c s : cubev 3 s -> faceOK 3 (B3 c) (H3 c) (cand3 c) (free s) s.
Proof.
  intros Hs. unfold faceOK.
  set (c1 := nth 1 c 0) in *. set (c2 := nth 2 c 0) in *. set (c3 := nth 3 c 0) in *. set (c4 := nth 4 c 0) in *. set (c5 := nth 5 c 0) in *.
  set (c6 := nth 6 c 0) in *. set (c7 := nth 7 c 0) in *. set (c8 := nth 8 c 0) in *. set (c9 := nth 9 c 0) in *.
  assert (Hmul : forall X i, mulv 3 (H3 c) X i = H3 c i 0 * X 0%nat + H3 c i 1 * X 1%nat + H3 c i 2 * X 2%nat) by (intros; unfold mulv; apply sumn3).
  assert (Hcand : forall X, cand3 c X <-> In (X 0%nat, X 1%nat, X 2%nat) (@qc3_points R R_num c)) by (intros; reflexivity).
  unfold qc3_points in Hcand. rewrite n4_R, n2_R in Hcand. cbn [nadd nsub nmul ndiv nopp nabs nltb nleb neqb n0 n1 R_num] in Hcand.
  fold c1 c2 c3 c4 c5 c6 c7 c8 c9 in Hcand. change (Ropp 1) with (-1) in Hcand.
  assert (Hedge : forall i, (i < 3)%nat -> ~ free s i -> s i = -1 \/ s i = 1) by (intros; eapply edge_dec; eauto).
  assert (Hpair : forall i j, (i < 3)%nat -> (j < 3)%nat -> ~ free s i -> ~ free s j -> In (s i, s j) [(-1,-1);(-1,1);(1,-1);(1,1)]).
  { intros i j Hi Hj Fi Fj. destruct (Hedge i Hi Fi) as [Ei|Ei]; destruct (Hedge j Hj Fj) as [Ej|Ej]; rewrite Ei, Ej; simpl; tauto. }
  assert (Hside : forall i, (i < 3)%nat -> ~ free s i -> In (s i) [-1; 1]).
  { intros i Hi Fi. destruct (Hedge i Hi Fi) as [Ei|Ei]; rewrite Ei; simpl; tauto. }
  destruct (free_dec s 0) as [F0|F0]; destruct (free_dec s 1) as [F1|F1]; destruct (free_dec s 2) as [F2|F2].
  - (* interior *)
    match type of Hcand with context [if negb (Reqb ?d 0) then (if _ && inside _ && inside _ then _ else _) else []] => set (det := d) in * end.
    destruct (Req_EM_T det 0) as [D|D].
    + left. destruct (kernel3 (4 * c7) c4 c5 (4 * c8) c6 (4 * c9)) as (u & v & w & Hnz & K1 & K2 & K3); [rewrite <- D; unfold det; ring|].
      exists (vec3 u v w). repeat split; [intros i Hi Hn; three i; contradiction| |].
      * destruct Hnz as [?|[?|?]]; [exists 0%nat|exists 1%nat|exists 2%nat]; split; auto; lia.
      * intros i Hi _. rewrite Hmul. three i; evalH; lra.
    + right; right. eexists (vec3 _ _ _). split; [intros i Hi Hn; three i; contradiction|]. split; cycle 1.
      * intros Hin. apply Hcand. rewrite !in_app_iff. do 7 right. rewrite (proj2 (Reqb_false _ _) D). cbn [negb vec3].
        pose proof (Hin 0%nat ltac:(lia) F0) as I0. pose proof (Hin 1%nat ltac:(lia) F1) as I1. pose proof (Hin 2%nat ltac:(lia) F2) as I2.
        unfold free in I0, I1, I2. cbn [vec3] in I0, I1, I2. apply inside_R in I0. apply inside_R in I1. apply inside_R in I2.
        match goal with |- In _ (if inside ?a && inside ?b && inside ?d then _ else _) => match goal with |- In (?x, ?y, ?z) _ => unify x a; unify y b; unify z d end end.
        rewrite I0, I1, I2. left. reflexivity.
      * intros i Hi _. rewrite Hmul. unfold det in *. three i; evalH; field; auto.
  - (* z fixed *)
    match type of Hcand with context [if negb (Reqb (2 * (2 * c7) * (2 * (2 * c8)) - ?d) 0) then _ else _] => set (det := 2 * (2 * c7) * (2 * (2 * c8)) - d) in * end.
    destruct (Req_EM_T det 0) as [D|D].
    + left. destruct (kernel2 (4 * c7) c4 (4 * c8)) as (u & v & Hnz & K1 & K2); [rewrite <- D; unfold det; ring|].
      exists (vec3 u v 0). repeat split; [intros i Hi Hn; three i; [contradiction|contradiction|reflexivity]| |].
      * destruct Hnz as [?|?]; [exists 0%nat|exists 1%nat]; split; auto; lia.
      * intros i Hi Hf. rewrite Hmul. three i; [| |contradiction]; evalH; lra.
    + right; right. eexists (vec3 _ _ (s 2%nat)). split; [intros i Hi Hn; three i; [contradiction|contradiction|reflexivity]|]. split; cycle 1.
      * intros Hin. apply Hcand. rewrite !in_app_iff. do 6 right. left. rewrite (proj2 (Reqb_false _ _) D). cbn [negb vec3].
        apply in_flat_map. exists (s 2%nat). split; [apply Hside; auto; lia|].
        pose proof (Hin 0%nat ltac:(lia) F0) as I0. pose proof (Hin 1%nat ltac:(lia) F1) as I1. unfold free in I0, I1. cbn [vec3] in I0, I1. apply inside_R in I0. apply inside_R in I1.
        match goal with |- In _ (if inside ?a && inside ?b then _ else _) => match goal with |- In (?x, ?y, _) _ => unify x a; unify y b end end.
        rewrite I0, I1. left. reflexivity.
      * intros i Hi Hf. rewrite Hmul. unfold det in *. three i; [| |contradiction]; evalH; field; auto.
  - (* y fixed *)
    match type of Hcand with context [if negb (Reqb (2 * (2 * c7) * (2 * (2 * c9)) - ?d) 0) then _ else _] => set (det := 2 * (2 * c7) * (2 * (2 * c9)) - d) in * end.
    destruct (Req_EM_T det 0) as [D|D].
    + left. destruct (kernel2 (4 * c7) c5 (4 * c9)) as (u & v & Hnz & K1 & K2); [rewrite <- D; unfold det; ring|].
      exists (vec3 u 0 v). repeat split; [intros i Hi Hn; three i; [contradiction|reflexivity|contradiction]| |].
      * destruct Hnz as [?|?]; [exists 0%nat|exists 2%nat]; split; auto; lia.
      * intros i Hi Hf. rewrite Hmul. three i; [|contradiction|]; evalH; lra.
    + right; right. eexists (vec3 _ (s 1%nat) _). split; [intros i Hi Hn; three i; [contradiction|reflexivity|contradiction]|]. split; cycle 1.
      * intros Hin. apply Hcand. rewrite !in_app_iff. do 5 right. left. rewrite (proj2 (Reqb_false _ _) D). cbn [negb vec3].
        apply in_flat_map. exists (s 1%nat). split; [apply Hside; auto; lia|].
        pose proof (Hin 0%nat ltac:(lia) F0) as I0. pose proof (Hin 2%nat ltac:(lia) F2) as I1. unfold free in I0, I1. cbn [vec3] in I0, I1. apply inside_R in I0. apply inside_R in I1.
        match goal with |- In _ (if inside ?a && inside ?b then _ else _) => match goal with |- In (?x, _, ?y) _ => unify x a; unify y b end end.
        rewrite I0, I1. left. reflexivity.
      * intros i Hi Hf. rewrite Hmul. unfold det in *. three i; [|contradiction|]; evalH; field; auto.
  - (* y and z fixed *)
    destruct (Req_EM_T c7 0) as [D|D].
    + left. exists (vec3 1 0 0). repeat split; [intros i Hi Hn; three i; [contradiction|reflexivity|reflexivity]|exists 0%nat; split; [lia|simpl; lra]|].
      intros i Hi Hf. rewrite Hmul. three i; [|contradiction|contradiction]; evalH; rewrite D; ring.
    + right; right. eexists (vec3 _ (s 1%nat) (s 2%nat)). split; [intros i Hi Hn; three i; [contradiction|reflexivity|reflexivity]|]. split; cycle 1.
      * intros Hin. apply Hcand. rewrite !in_app_iff. do 3 right. left. rewrite (proj2 (Reqb_false _ _) D). cbn [negb vec3].
        apply in_flat_map. exists (s 1%nat, s 2%nat). split; [apply Hpair; auto; lia|].
        pose proof (Hin 0%nat ltac:(lia) F0) as I0. unfold free in I0. cbn [vec3] in I0. apply inside_R in I0.
        match goal with |- In _ (if inside ?a then _ else _) => match goal with |- In (?x, _, _) _ => unify x a end end.
        rewrite I0. left. reflexivity.
      * intros i Hi Hf. rewrite Hmul. three i; [|contradiction|contradiction]; evalH; field; auto.
  - (* x fixed *)
    match type of Hcand with context [if negb (Reqb (2 * (2 * c8) * (2 * (2 * c9)) - ?d) 0) then _ else _] => set (det := 2 * (2 * c8) * (2 * (2 * c9)) - d) in * end.
    destruct (Req_EM_T det 0) as [D|D].
    + left. destruct (kernel2 (4 * c8) c6 (4 * c9)) as (u & v & Hnz & K1 & K2); [rewrite <- D; unfold det; ring|].
      exists (vec3 0 u v). repeat split; [intros i Hi Hn; three i; [reflexivity|contradiction|contradiction]| |].
      * destruct Hnz as [?|?]; [exists 1%nat|exists 2%nat]; split; auto; lia.
      * intros i Hi Hf. rewrite Hmul. three i; [contradiction| |]; evalH; lra.
    + right; right. eexists (vec3 (s 0%nat) _ _). split; [intros i Hi Hn; three i; [reflexivity|contradiction|contradiction]|]. split; cycle 1.
      * intros Hin. apply Hcand. rewrite !in_app_iff. do 4 right. left. rewrite (proj2 (Reqb_false _ _) D). cbn [negb vec3].
        apply in_flat_map. exists (s 0%nat). split; [apply Hside; auto; lia|].
        pose proof (Hin 1%nat ltac:(lia) F1) as I0. pose proof (Hin 2%nat ltac:(lia) F2) as I1. unfold free in I0, I1. cbn [vec3] in I0, I1. apply inside_R in I0. apply inside_R in I1.
        match goal with |- In _ (if inside ?a && inside ?b then _ else _) => match goal with |- In (_, ?x, ?y) _ => unify x a; unify y b end end.
        rewrite I0, I1. left. reflexivity.
      * intros i Hi Hf. rewrite Hmul. unfold det in *. three i; [contradiction| |]; evalH; field; auto.
  - (* x and z fixed *)
    destruct (Req_EM_T c8 0) as [D|D].
    + left. exists (vec3 0 1 0). repeat split; [intros i Hi Hn; three i; [reflexivity|contradiction|reflexivity]|exists 1%nat; split; [lia|simpl; lra]|].
      intros i Hi Hf. rewrite Hmul. three i; [contradiction| |contradiction]; evalH; rewrite D; ring.
    + right; right. eexists (vec3 (s 0%nat) _ (s 2%nat)). split; [intros i Hi Hn; three i; [reflexivity|contradiction|reflexivity]|]. split; cycle 1.
      * intros Hin. apply Hcand. rewrite !in_app_iff. do 2 right. left. rewrite (proj2 (Reqb_false _ _) D). cbn [negb vec3].
        apply in_flat_map. exists (s 0%nat, s 2%nat). split; [apply Hpair; auto; lia|].
        pose proof (Hin 1%nat ltac:(lia) F1) as I0. unfold free in I0. cbn [vec3] in I0. apply inside_R in I0.
        match goal with |- In _ (if inside ?a then _ else _) => match goal with |- In (_, ?x, _) _ => unify x a end end.
        rewrite I0. left. reflexivity.
      * intros i Hi Hf. rewrite Hmul. three i; [contradiction| |contradiction]; evalH; field; auto.
  - (* x and y fixed *)
    destruct (Req_EM_T c9 0) as [D|D].
    + left. exists (vec3 0 0 1). repeat split; [intros i Hi Hn; three i; [reflexivity|reflexivity|contradiction]|exists 2%nat; split; [lia|simpl; lra]|].
      intros i Hi Hf. rewrite Hmul. three i; [contradiction|contradiction|]; evalH; rewrite D; ring.
    + right; right. eexists (vec3 (s 0%nat) (s 1%nat) _). split; [intros i Hi Hn; three i; [reflexivity|reflexivity|contradiction]|]. split; cycle 1.
      * intros Hin. apply Hcand. rewrite !in_app_iff. right. left. rewrite (proj2 (Reqb_false _ _) D). cbn [negb vec3].
        apply in_flat_map. exists (s 0%nat, s 1%nat). split; [apply Hpair; auto; lia|].
        pose proof (Hin 2%nat ltac:(lia) F2) as I0. unfold free in I0. cbn [vec3] in I0. apply inside_R in I0.
        match goal with |- In _ (if inside ?a then _ else _) => match goal with |- In (_, _, ?x) _ => unify x a end end.
        rewrite I0. left. reflexivity.
      * intros i Hi Hf. rewrite Hmul. three i; [contradiction|contradiction|]; evalH; field; auto.
  - (* corner *)
    right; right. exists s. split; [auto|]. split; [intros i Hi Hf; three i; contradiction|].
    intros _. apply Hcand. rewrite in_app_iff. left.
    destruct (Hedge 0%nat ltac:(lia) F0) as [E|E]; destruct (Hedge 1%nat ltac:(lia) F1) as [E'|E']; destruct (Hedge 2%nat ltac:(lia) F2) as [E''|E'']; rewrite E, E', E''; simpl; tauto.
Qed.

Lemma ix3_quad (M : tensor R) c x : length x = 3%nat -> c = map (@pget R R_num M) ix3 ->
  Rsum (map (fun i => @pget R R_num M i * basis chebT i x) ix3) = quadf 3 (k3 c) (B3 c) (H3 c) (fun i => nth i x 0).
Proof.
  intros Hl ->. destruct x as [|x [|y [|z [|? ?]]]]; try discriminate.
  unfold ix3, quadf, dot, mulv, k3, B3, H3. cbn [map nth Rsum fold_right basis]. rewrite !sumn3. cbn [nth].
  rewrite ?chebT_0, ?chebT_1, ?chebT_2. field.
Qed.
Theorem quad3_sound (M : tensor R) tol (g : list R -> R) : wf M -> @quadratic_check_3D R R_num M tol = true ->
  ndim M = 3%nat /\ ((forall x, in_cube 3 x -> Rabs (g x - cheb_eval M x) < tol) -> forall x, in_cube 3 x -> g x <> 0).
Proof.
  intros Hwf Hq. unfold quadratic_check_3D in Hq. destruct (Nat.eqb_spec (ndim M) 3) as [Hd|]; [|discriminate]. split; auto.
  intros Hg x Hx. cbn [negb] in Hq. set (c := qc3_coeff M) in *.
  assert (Hc : c = map (@pget R R_num M) ix3) by (apply qc3_coeff_pget; auto).
  destruct Hx as [Hl Hx].
  assert (HB : Rabs (cheb_eval M x - quadf 3 (k3 c) (B3 c) (H3 c) (fun i => nth i x 0)) <= sumabs M - Rsum (map (fun i => Rabs (@pget R R_num M i)) ix3)).
  { rewrite <- (ix3_quad M c x Hl Hc). apply partial_bound; auto.
    - unfold ix3. repeat constructor; simpl; intuition discriminate.
    - intros i Hi. rewrite Hd. unfold ix3 in Hi. simpl in Hi. intuition (subst; reflexivity). }
  eapply quad_nonzero; [exact HB| |apply Hg; split; auto|].
  - instantiate (1 := other_sum_low M c tol). unfold other_sum_low. rewrite tsumabs_R by auto. unfold nsumabs. rewrite nsum_R. rnum.
    rewrite Hc, map_map. reflexivity.
  - assert (Hcube : cubev 3 (fun i => nth i x 0)) by (intros i Hi; apply Forall_nth; auto; lia).
    assert (Hsym : forall i j, (i < 3)%nat -> (j < 3)%nat -> H3 c i j = H3 c j i) by (intros i j Hi Hj; three i; three j; reflexivity).
    destruct (extrema 3 (k3 c) (B3 c) (H3 c) (cand3 c) Hsym (faces3 c) _ Hcube) as [(y & Hy & Hle) (z & Hz & Hge)].
    assert (Hev : forall X, quadf 3 (k3 c) (B3 c) (H3 c) X = @qc3_eval R R_num c (X 0%nat) (X 1%nat) (X 2%nat)).
    { intros X. rewrite qc3_eval_quadf. apply quadf_ext. intros i Hi. three i; reflexivity. }
    rewrite Hev in Hle. rewrite Hev with (X := z) in Hge.
    apply scan_true in Hq; [|reflexivity]. destruct Hq as [[_ Hall]|[_ Hall]].
    + left. eapply Rle_trans; [|exact Hle]. apply Hall. exact (in_map (fun p => let '(x, y, z) := p in qc3_eval c x y z) _ _ Hy).
    + right. eapply Rle_trans; [exact Hge|]. apply Hall. exact (in_map (fun p => let '(x, y, z) := p in qc3_eval c x y z) _ _ Hz).
Qed.
