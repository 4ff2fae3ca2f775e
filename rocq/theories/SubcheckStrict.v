(** * With a strict error bound the bounding interval never collapses, and keeps every common zero *)
From Coq Require Import List Arith Bool ZArith Reals Lra Lia.
From Verif Require Import Num RSum Cheb Tensor PolySpec TransformModel TransformChebProofs PartProofs IntervalProofs LinearProofs.
From Verif Require Import QuadModel QuadProofs QuadNdProofs QuadNdFaces GaussExample SubcheckModel SubcheckProofs SubcheckBound SubcheckBoundN.
Import ListNotations.
Local Open Scope R_scope.

Lemma merge_wide l x eta : Forall (inI (x - eta)) l -> Forall (inI (x + eta)) l -> 0 < eta ->
  @mergeIntervals R R_num l = (-1, 1) \/ (fst (@mergeIntervals R R_num l) <= x - eta /\ x + eta <= snd (@mergeIntervals R R_num l)).
Proof.
  intros H1 H2 He. unfold mergeIntervals. destruct l as [|p r]; [left; rnum; auto|]. right.
  inversion H1 as [|? ? Hp1 Hr1]; subst. inversion H2 as [|? ? Hp2 Hr2]; subst.
  assert (A : @nmaxl R R_num (fst p) (map fst r) <= x - eta).
  { apply nmaxl_le; [apply Hp1|]. apply Forall_map. eapply Forall_impl; [|exact Hr1]. intros q Hq. apply Hq. }
  assert (B : x + eta <= @nminl R R_num (snd p) (map snd r)).
  { apply nminl_ge; [apply Hp2|]. apply Forall_map. eapply Forall_impl; [|exact Hr2]. intros q Hq. apply Hq. }
  unfold ngtb. cbn [nltb R_num]. rewrite (proj2 (Rltb_false _ _)) by lra. split; auto.
Qed.
Lemma width_strict p : @clamp1 R R_num (fst p) < @clamp1 R R_num (snd p) -> fst (@widthCheck R R_num p) < snd (@widthCheck R R_num p).
Proof.
  intros H. unfold widthCheck. pose proof (clamp1_range (fst p)). pose proof (clamp1_range (snd p)).
  set (a := @clamp1 R R_num (fst p)) in *. set (b := @clamp1 R R_num (snd p)) in *. cbn [neqb nltb R_num].
  destruct (Reqb a b) eqn:E; [apply Reqb_true in E; lra|]. rewrite minWidth_R, n2_R. rnum. destruct (Rltb (b - a) (1 / 100)); cbn [fst snd]; [|lra].
  rewrite !clamp1_R. unfold Rmax, Rmin. repeat destruct Rle_dec; lra.
Qed.
Lemma strict_width l x eta : -1 <= x <= 1 -> 0 < eta -> Forall (inI (x - eta)) l -> Forall (inI (x + eta)) l ->
  let q := @widthCheck R R_num (@mergeIntervals R R_num l) in inI x q /\ fst q < snd q.
Proof.
  intros Hx He H1 H2. cbv zeta.
  assert (A : fst (@mergeIntervals R R_num l) <= x <= snd (@mergeIntervals R R_num l) /\ @clamp1 R R_num (fst (@mergeIntervals R R_num l)) < @clamp1 R R_num (snd (@mergeIntervals R R_num l))).
  { destruct (merge_wide l x eta H1 H2 He) as [->|[A B]]; cbn [fst snd].
    - split; auto. rewrite !clamp1_R. unfold Rmax, Rmin. repeat destruct Rle_dec; lra.
    - split; [lra|]. rewrite !clamp1_R. unfold Rmax, Rmin. repeat destruct Rle_dec; lra. }
  destruct A as [A B]. split; [|apply width_strict; auto].
  destruct (width_sound _ x Hx A) as [C|[_ C]]; [auto|lra].
Qed.

(** ** Room to move *)
Definition roomN (n : nat) (r : @linN R) (x : nat -> R) : Prop :=
  length (lt_ r) = n /\ Rabs (cn_ r + sumn n (fun j => nth j (lt_ r) 0 * x j)) < er_ r.
Definition shiftv (x : nat -> R) (var : nat) (t : R) : nat -> R := fun j => if (j =? var)%nat then x j + t else x j.
Lemma shift_sum n (c x : nat -> R) var t : (var < n)%nat -> sumn n (fun j => c j * shiftv x var t j) = sumn n (fun j => c j * x j) + c var * t.
Proof.
  intros Hv. assert (E : sumn n (fun j => c j * (if (j =? var)%nat then t else 0)) = c var * t).
  { rewrite (sumn_single n var); [rewrite Nat.eqb_refl; auto|auto|]. intros i _ Hne. destruct (Nat.eqb_spec i var); [congruence|ring]. }
  rewrite <- E, <- sumn_plus. apply sumn_ext. intros j _. unfold shiftv. destruct (j =? var)%nat; ring.
Qed.
Lemma room_slack (s e c : R) : Rabs s < e -> exists eta, 0 < eta /\ forall t, Rabs t <= eta -> Rabs (s + c * t) <= e.
Proof.
  intros H. pose proof (Rabs_pos c) as Hc. exists ((e - Rabs s) / (Rabs c + 1)). assert (Hd : 0 < Rabs c + 1) by lra. split.
  - apply Rdiv_lt_0_compat; lra.
  - intros t Ht. eapply Rle_trans; [apply Rabs_triang|]. rewrite Rabs_mult.
    assert (Rabs c * Rabs t <= e - Rabs s); [|lra]. eapply Rle_trans; [apply Rmult_le_compat_l; [auto|exact Ht]|].
    replace (Rabs c * ((e - Rabs s) / (Rabs c + 1))) with ((e - Rabs s) * (Rabs c / (Rabs c + 1))) by (field; lra).
    rewrite <- (Rmult_1_r (e - Rabs s)) at 2. apply Rmult_le_compat_l; [lra|]. apply Rmult_le_reg_r with (Rabs c + 1); auto. unfold Rdiv. rewrite Rmult_assoc, Rinv_l by lra. lra.
Qed.
Lemma room_rows n rows x var : (var < n)%nat -> Forall (fun r => roomN n r x) rows ->
  exists eta, 0 < eta /\ forall t, Rabs t <= eta -> Forall (fun r => nearN n r (shiftv x var t)) rows.
Proof.
  intros Hv H. induction H as [|r rows [Hl Hr] _ (eta & He & IH)]; [exists 1; split; [lra|intros; constructor]|].
  destruct (room_slack _ _ (nth var (lt_ r) 0) Hr) as (eta' & He' & Hs).
  exists (Rmin eta eta'). split; [apply Rmin_glb_lt; auto|]. intros t Ht. constructor.
  - split; auto. rewrite (shift_sum n (fun j => nth j (lt_ r) 0)) by auto. rewrite <- Rplus_assoc. apply Hs. eapply Rle_trans; [exact Ht|apply Rmin_r].
  - apply IH. eapply Rle_trans; [exact Ht|apply Rmin_l].
Qed.
Lemma linNOf_room (M : tensor R) tol x : wf M -> hasLinear M = true -> in_cube (ndim M) x -> Rabs (0 - cheb_eval M x) < tol -> roomN (ndim M) (linNOf (M, tol)) (fun i => nth i x 0).
Proof.
  intros Hwf Hl Hx Hv. destruct (linNOf_near M (Rabs (0 - cheb_eval M x)) x Hwf Hl Hx ltac:(lra)) as [A B].
  split; [exact A|]. eapply Rle_lt_trans; [exact B|]. unfold linNOf. cbn [er_ lt_ cn_]. rnum. lra.
Qed.

Definition goodBox (n : nat) (s : @sbox R) (x : list R) : Prop :=
  length (fst s) = n /\ length (snd s) = n /\ forall i, (i < n)%nat -> lo s i <= nth i x 0 <= hi s i /\ lo s i < hi s i.

Theorem boundingND_strict n lasolve (ps : list (tensor R * R)) methods s x : lasolve_ok n lasolve -> length ps = n ->
  Forall (fun p => wf (fst p) /\ ndim (fst p) = n) ps -> boundingND lasolve ps methods = Done s -> in_cube n x ->
  Forall (fun p => Rabs (0 - cheb_eval (fst p) x) < snd p) ps -> goodBox n s x.
Proof.
  intros Hok Hl Hps Hs Hx Hz. unfold boundingND in Hs. destruct (forallb _ ps) eqn:E; [|discriminate].
  destruct (reduceN lasolve (map linNOf ps) methods (repeat [] (length ps))) as [acc| |] eqn:Er; try discriminate. cbv zeta in Hs. injection Hs as <-.
  assert (Hn : Forall (fun r => roomN n r (fun i => nth i x 0)) (map linNOf ps)).
  { apply Forall_map. rewrite Forall_forall in *. intros [M tol] Hp. destruct (Hps _ Hp) as [H1 H2]. cbn [fst] in *. rewrite forallb_forall in E. specialize (E _ Hp). cbn [fst] in E.
    rewrite <- H2 in *. apply linNOf_room; auto. apply (Hz _ Hp). }
  assert (Hx1 : forall j, (j < n)%nat -> -1 <= nth j x 0 <= 1) by (intros j Hj; destruct Hx as [H1 H2]; apply Forall_nth; auto; lia).
  assert (L1 : length acc = n) by (rewrite (reduceN_length _ _ _ _ _ Er), repeat_length; auto).
  assert (L2 : forall i, (i < n)%nat -> exists eta, 0 < eta /\ Forall (inI (nth i x 0 - eta)) (nth i acc []) /\ Forall (inI (nth i x 0 + eta)) (nth i acc [])).
  { intros i Hi. destruct (room_rows n _ _ i Hi Hn) as (eta & He & Hsh). exists eta. split; auto.
    assert (G : forall t, Rabs t <= eta -> Forall (inI (nth i x 0 + t)) (nth i acc [])).
    { intros t Ht.
      pose proof (reduceN_sound n lasolve Hok (map linNOf ps) ltac:(rewrite map_length; auto) (shiftv (fun i => nth i x 0) i t) (Hsh t Ht) i Hi) as Hr.
      unfold shiftv in Hr at 2 3. rewrite Nat.eqb_refl in Hr. 
      apply (Hr ltac:(intros j Hj Hne; unfold shiftv; destruct (Nat.eqb_spec j i); [congruence|apply abs_le_iff; auto]) methods (repeat [] (length ps)) acc).
      - rewrite repeat_length; auto.
      - rewrite nth_repeat. constructor.
      - exact Er. }
    split; [|apply G; rewrite Rabs_right; lra]. replace (nth i x 0 - eta) with (nth i x 0 + - eta) by ring. apply G. rewrite Rabs_Ropp, Rabs_right; lra. }
  unfold goodBox. cbn [fst snd]. rewrite !map_length. split; auto. split; auto. intros i Hi. unfold lo, hi. cbn [fst snd n0 R_num]. rewrite !map_map.
  set (F := fun c => fst (@widthCheck R R_num (mergeIntervals c))). set (G := fun c => snd (@widthCheck R R_num (mergeIntervals c))).
  rewrite nth_indep with (d' := F []) by (rewrite map_length; lia). rewrite (map_nth F).
  rewrite (nth_indep (map G acc)) with (d' := G []) by (rewrite map_length; lia). rewrite (map_nth G).
  destruct (L2 i Hi) as (eta & He & H1 & H2). exact (strict_width _ _ _ (Hx1 i Hi) He H1 H2).
Qed.

(** ** Two equations *)
Definition room2 (e : @lin2 R) (x y : R) : Prop := Rabs (ct e + xt e * x + yt e * y) < et e.
Lemma linOf_room (M : tensor R) tol x y : wf M -> ndim M = 2%nat -> hasLinear M = true -> in_cube 2 [x; y] -> Rabs (0 - cheb_eval M [x; y]) < tol -> room2 (linOf M tol) x y.
Proof.
  intros Hwf Hd Hl Hx Hv. pose proof (linOf_near M (Rabs (0 - cheb_eval M [x; y])) x y 0 Hwf Hd Hl Hx ltac:(lra) eq_refl) as B.
  unfold room2. eapply Rle_lt_trans; [exact B|]. unfold linOf. cbn [et xt yt ct]. rnum. lra.
Qed.
Lemma room2_x e x y : room2 e x y -> exists eta, 0 < eta /\ forall t, Rabs t <= eta -> near2 e (x + t) y.
Proof. intros H. destruct (room_slack _ _ (xt e) H) as (eta & He & Hs). exists eta. split; auto. intros t Ht. unfold near2. replace (ct e + xt e * (x + t) + yt e * y) with (ct e + xt e * x + yt e * y + xt e * t) by ring. auto. Qed.
Lemma room2_y e x y : room2 e x y -> exists eta, 0 < eta /\ forall t, Rabs t <= eta -> near2 e x (y + t).
Proof. intros H. destruct (room_slack _ _ (yt e) H) as (eta & He & Hs). exists eta. split; auto. intros t Ht. unfold near2. replace (ct e + xt e * x + yt e * (y + t)) with (ct e + xt e * x + yt e * y + yt e * t) by ring. auto. Qed.

Theorem bounding2D_strict (P1 P2 : tensor R) e1 e2 methods s x y : wf P1 -> wf P2 -> ndim P1 = 2%nat -> ndim P2 = 2%nat ->
  bounding2D P1 P2 e1 e2 methods = Done s -> in_cube 2 [x; y] ->
  Rabs (0 - cheb_eval P1 [x; y]) < e1 -> Rabs (0 - cheb_eval P2 [x; y]) < e2 -> goodBox 2 s [x; y].
Proof.
  intros W1 W2 D1 D2 Hs Hx V1 V2. unfold bounding2D in Hs. destruct (hasLinear P1 && hasLinear P2) eqn:E; [|discriminate].
  apply andb_true_iff in E. destruct E as [L1 L2]. cbv zeta in Hs. injection Hs as <-. split; [reflexivity|]. split; [reflexivity|].
  pose proof (linOf_room P1 e1 x y W1 D1 L1 Hx V1) as N1. pose proof (linOf_room P2 e2 x y W2 D2 L2 Hx V2) as N2.
  destruct Hx as [_ Hx]. inversion Hx as [|? ? Hx0 Hx']; subst. inversion Hx' as [|? ? Hy0 _]; subst.
  assert (Ax : Rabs x <= 1) by (apply abs_le_iff; lra). assert (Ay : Rabs y <= 1) by (apply abs_le_iff; lra).
  set (p := linOf P1 e1) in *. set (q := linOf P2 e2) in *.
  intros i Hi. destruct i as [|[|i]]; [| |lia]; unfold lo, hi; cbn [nth fst snd].
  - destruct (room2_x p x y N1) as (h1 & Hh1 & G1). destruct (room2_x q x y N2) as (h2 & Hh2 & G2).
    assert (Hm : 0 < Rmin h1 h2) by (apply Rmin_glb_lt; auto).
    match goal with |- context [widthCheck (mergeIntervals ?l)] => set (L := l) end.
    assert (HF : forall t, Rabs t <= Rmin h1 h2 -> Forall (inI (x + t)) L).
    { intros t Ht. assert (M1 := G1 t (Rle_trans _ _ _ Ht (Rmin_l _ _))). assert (M2 := G2 t (Rle_trans _ _ _ Ht (Rmin_r _ _))).
      apply Forall_flat_map'. intros [|] _; [apply Forall_app; split; apply improveX_sound with y; auto|apply parallelX_sound with y; auto]. }
    apply (strict_width L x (Rmin h1 h2)); auto; [replace (x - Rmin h1 h2) with (x + - Rmin h1 h2) by ring|]; apply HF; rewrite ?Rabs_Ropp, Rabs_right; lra.
  - destruct (room2_y p x y N1) as (h1 & Hh1 & G1). destruct (room2_y q x y N2) as (h2 & Hh2 & G2).
    assert (Hm : 0 < Rmin h1 h2) by (apply Rmin_glb_lt; auto).
    match goal with |- context [widthCheck (mergeIntervals ?l)] => set (L := l) end.
    assert (HF : forall t, Rabs t <= Rmin h1 h2 -> Forall (inI (y + t)) L).
    { intros t Ht. assert (M1 := G1 t (Rle_trans _ _ _ Ht (Rmin_l _ _))). assert (M2 := G2 t (Rle_trans _ _ _ Ht (Rmin_r _ _))).
      apply Forall_flat_map'. intros [|] _; [apply Forall_app; split; apply improveY_sound with x; auto|apply parallelY_sound with x; auto]. }
    apply (strict_width L y (Rmin h1 h2)); auto; [replace (y - Rmin h1 h2) with (y + - Rmin h1 h2) by ring|]; apply HF; rewrite ?Rabs_Ropp, Rabs_right; lra.
Qed.

(** ** getBoundingInterval *)
Lemma combine_F2 {A B} (P : A -> B -> Prop) l l' : Forall2 P l l' -> Forall (fun p => P (fst p) (snd p)) (combine l l').
Proof. induction 1; simpl; constructor; auto. Qed.
Lemma len2 {A B} (P : A -> B -> Prop) l l' : Forall2 P l l' -> length l = length l'.
Proof. induction 1; simpl; auto. Qed.

(** every polynomial has [n] variables and is within its error of zero at [x] *)
Definition zeroAt (n : nat) (polys : list (tensor R)) (errors : list R) (x : list R) : Prop :=
  Forall2 (fun P e => wf P /\ ndim P = n /\ Rabs (0 - cheb_eval P x) < e) polys errors.
Definition zeroAtW (n : nat) (polys : list (tensor R)) (errors : list R) (x : list R) : Prop :=
  Forall2 (fun P e => wf P /\ ndim P = n /\ Rabs (0 - cheb_eval P x) <= e) polys errors.

Theorem getBounding_strict n lasolve polys errors methods s x : lasolve_ok n lasolve -> in_cube n x -> zeroAt n polys errors x ->
  getBoundingInterval lasolve polys errors methods = Done (Some s) -> goodBox n s x.
Proof.
  intros Hok Hx Hz H. unfold getBoundingInterval in H. destruct polys as [|P polys]; [discriminate|]. inversion Hz as [|? e ? errs HP Hz']; subst. destruct HP as (W & D & V).
  destruct (length (P :: polys) =? ndim P)%nat eqn:El; cbn [negb] in H; [|discriminate]. apply Nat.eqb_eq in El. rewrite D in El.
  destruct (length (P :: polys) =? 2)%nat eqn:E2.
  - apply Nat.eqb_eq in E2. assert (n = 2%nat) by lia. subst n. destruct polys as [|P2 [|]]; try discriminate. inversion Hz' as [|? e2 ? errs2 HP2 Hz2]; subst. destruct HP2 as (W2 & D2 & V2).
    cbn [nth] in H. destruct (bounding2D P P2 e e2 methods) as [s'| |] eqn:Eb; try discriminate. injection H as ->.
    destruct x as [|x [|y [|]]]; try (destruct Hx; discriminate). exact (bounding2D_strict P P2 e e2 methods s x y W W2 D D2 Eb Hx V V2).
  - destruct (boundingND lasolve (combine (P :: polys) (e :: errs)) methods) as [s'| |] eqn:Eb; try discriminate. injection H as ->.
    apply boundingND_strict with lasolve (combine (P :: polys) (e :: errs)) methods; auto.
    + rewrite combine_length, <- (len2 _ _ _ Hz). lia.
    + eapply Forall_impl; [|exact (combine_F2 _ _ _ Hz)]. cbn. tauto.
    + eapply Forall_impl; [|exact (combine_F2 _ _ _ Hz)]. cbn. tauto.
Qed.
Theorem getBounding_sound n lasolve polys errors methods s x : lasolve_ok n lasolve -> in_cube n x -> zeroAtW n polys errors x ->
  getBoundingInterval lasolve polys errors methods = Done (Some s) ->
  length (fst s) = n /\ length (snd s) = n /\ forall i, (i < n)%nat -> lo s i <= nth i x 0 <= hi s i \/ (lo s i = 0 /\ hi s i = 0).
Proof.
  intros Hok Hx Hz H. unfold getBoundingInterval in H. destruct polys as [|P polys]; [discriminate|]. inversion Hz as [|? e ? errs HP Hz']; subst. destruct HP as (W & D & V).
  destruct (length (P :: polys) =? ndim P)%nat eqn:El; cbn [negb] in H; [|discriminate]. apply Nat.eqb_eq in El. rewrite D in El.
  destruct (length (P :: polys) =? 2)%nat eqn:E2.
  - apply Nat.eqb_eq in E2. assert (n = 2%nat) by lia. subst n. destruct polys as [|P2 [|]]; try discriminate. inversion Hz' as [|? e2 ? errs2 HP2 Hz2]; subst. destruct HP2 as (W2 & D2 & V2).
    cbn [nth] in H. destruct (bounding2D P P2 e e2 methods) as [s'| |] eqn:Eb; try discriminate. injection H as ->.
    destruct x as [|x [|y [|]]]; try (destruct Hx; discriminate). exact (bounding2D_sound P P2 e e2 methods s x y W W2 D D2 Eb Hx V V2).
  - destruct (boundingND lasolve (combine (P :: polys) (e :: errs)) methods) as [s'| |] eqn:Eb; try discriminate. injection H as ->.
    apply boundingND_sound with lasolve (combine (P :: polys) (e :: errs)) methods; auto.
    + rewrite combine_length, <- (len2 _ _ _ Hz). lia.
    + eapply Forall_impl; [|exact (combine_F2 _ _ _ Hz)]. cbn. tauto.
    + eapply Forall_impl; [|exact (combine_F2 _ _ _ Hz)]. cbn. tauto.
Qed.

(** ** A linear solver meeting the contract *)
Lemma gsol_inj m : forall A sol, @gsol R R_num m A = Some sol -> forall v : nat -> R, (forall i, (i < m)%nat -> sumn m (fun j => A i j * v j) = 0) -> forall i, (i < m)%nat -> v i = 0.
Proof.
  induction m as [|m IH]; intros A sol Hs v Hv i Hi; [lia|]. cbn [gsol] in Hs.
  pose proof (pivot_ok m (fun i => A i m)) as Hpv. destruct (pivot m (fun i => A i m)) as [p|]; [|discriminate]. destruct Hpv as [Hp Hpiv].
  set (P := fun i j => A (swp p m i) j) in *. cbv zeta in Hs.
  assert (HPm : P m m <> 0). { unfold P, swp. rewrite Nat.eqb_refl. destruct (Nat.eqb_spec m p); [subst; auto|auto]. }
  assert (HP : forall k, (k <= m)%nat -> sumn m (fun j => P k j * v j) + P k m * v m = 0).
  { intros k Hk. exact (Hv (swp p m k) ltac:(pose proof (swp_lt p m k Hp Hk); lia)). }
  match type of Hs with context [gsol m ?X] => change X with (fun i j : nat => P i j - P i m / P m m * P m j) in Hs end.
  destruct (gsol m (fun i j => P i j - P i m / P m m * P m j)) as [sol'|] eqn:E; [clear Hs|discriminate].
  assert (Hlow : forall k, (k < m)%nat -> v k = 0).
  { apply (IH _ _ E). intros k Hk.
    assert (E2 : sumn m (fun j => (P k j - P k m / P m m * P m j) * v j) = sumn m (fun j => P k j * v j) - P k m / P m m * sumn m (fun j => P m j * v j)).
    { rewrite <- sumn_scal, <- sumn_minus. apply sumn_ext. intros. ring. }
    rewrite E2. pose proof (HP k ltac:(lia)) as K1. pose proof (HP m ltac:(lia)) as K2.
    replace (sumn m (fun j => P k j * v j)) with (- P k m * v m) by lra. replace (sumn m (fun j => P m j * v j)) with (- P m m * v m) by lra. field. auto. }
  destruct (Nat.eq_dec i m) as [->|Hne]; [|apply Hlow; lia].
  pose proof (HP m ltac:(lia)) as K. rewrite sumn_zero in K by (intros j Hj; rewrite Hlow by auto; ring).
  apply Rmult_eq_reg_l with (P m m); auto. lra.
Qed.
Definition gauss_lasolve {T} {NT : Num T} (A : list (list T)) (b : list T) : option (list T) :=
  if gauss_rank A then Some (gauss_solve A b) else None.
Lemma gauss_lasolve_ok n : lasolve_ok n (@gauss_lasolve R R_num).
Proof.
  intros A b X HA _ Hb H. unfold gauss_lasolve, gauss_rank, gauss_solve in H. rewrite HA in H. change (ent A) with (entry A) in H.
  pose proof (gsol_ok n (entry A)) as Hg. pose proof (gsol_inj n (entry A)) as Hi. destruct (gsol n (entry A)) as [sol|]; [|discriminate].
  injection H as <-. split; [rewrite map_length, seq_length; auto|]. split.
  - intros i Hn. rewrite <- (Hg (fun i => nth i b 0) i Hn). apply sumn_ext. intros j Hj. rewrite nth_map_seq; auto.
  - exact (Hi sol eq_refl).
Qed.
