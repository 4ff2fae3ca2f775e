(** * Property theorems C40-C45, C58: MultiCheb and MultiPower objects *)
From Coq Require Import Reals List Lia Lra Arith Bool ZArith.
From Verif Require Import Num RSum Cheb Tensor PolySpec TransformModel PolyModel PolyEval PolyArith PolyCheb PolyGrad.
Import ListNotations.
Local Open Scope R_scope.

Lemma evalT_cheb t x : evalT chebT t x = cheb_eval t x. Proof. symmetry. apply cheb_eval_sumidx. Qed.
Lemma evalT_power t x : evalT pw t x = power_eval t x. Proof. symmetry. apply power_eval_sumidx. Qed.

(** ** C40: calling *)

(** The rows a caller means by what it passes: a matrix is its rows; a vector is one point of a
    polynomial in several variables and a list of points of a polynomial in one variable. *)
Definition meantPoints (dim : nat) (p : @points R) : list (list R) :=
  match p with
  | PMat _ rows => rows
  | PScalar v => [[v]]
  | PVec l => if Nat.eqb dim 1 then map (fun v => [v]) l else [l]
  end.
(** a matrix of numbers: every row has the stated width *)
Definition wellShaped (p : @points R) : Prop := match p with PMat nc rows => Forall (fun r => length r = nc) rows | _ => True end.
(** the width numpy sees *)
Definition width (dim : nat) (p : @points R) : nat :=
  match p with PMat nc _ => nc | PScalar _ => 1 | PVec l => if Nat.eqb dim 1 then 1 else length l end.

Lemma normPoints_ok dim p : (1 <= dim)%nat -> wellShaped p ->
  (width dim p = dim /\ normPoints dim p = Val (meantPoints dim p) /\ Forall (fun r => length r = dim) (meantPoints dim p)) \/
  (width dim p <> dim /\ normPoints dim p = ValueError).
Proof.
  intros H1 W. unfold normPoints, width, meantPoints, wellShaped in *. destruct p as [x|l|nc rows].
  - destruct (Nat.ltb_spec 1 dim) as [L|L]; destruct (Nat.eqb_spec 1 dim) as [D|D]; auto; try lia; left; repeat split; auto.
  - destruct (Nat.ltb_spec 1 dim) as [L|L]; destruct (Nat.eqb_spec dim 1) as [D|D]; try lia.
    + destruct (Nat.eqb_spec (length l) dim); auto.
    + subst. cbn. left. repeat split; auto. apply Forall_forall. intros r Hr. apply in_map_iff in Hr. destruct Hr as (? & <- & _). reflexivity.
  - destruct (Nat.eqb_spec nc dim); auto. left. subst. auto.
Qed.
Lemma polyCall_ok ev phi (t : tensor R) p : evalsBasis ev phi -> wf t -> (1 <= ndim t)%nat -> wellShaped p ->
  (width (ndim t) p = ndim t -> @polyCall R R_num ev t p = Val (map (evalT phi t) (meantPoints (ndim t) p))) /\
  (width (ndim t) p <> ndim t -> @polyCall R R_num ev t p = ValueError).
Proof.
  intros HE W H1 Hp. unfold polyCall. destruct (normPoints_ok (ndim t) p H1 Hp) as [(E & -> & F)|(E & ->)]; split; intros; try congruence.
  f_equal. apply map_ext_in. intros r Hr. rewrite Forall_forall in F. apply evalAt_eval; auto.
Qed.

Theorem C40_MultiCheb_call : forall (t : tensor R) (p : points), wf t -> (1 <= ndim t)%nat -> wellShaped p ->
  (width (ndim t) p = ndim t -> polyCall chebval t p = Val (map (cheb_eval t) (meantPoints (ndim t) p))) /\
  (width (ndim t) p <> ndim t -> polyCall chebval t p = ValueError).
Proof.
  intros t p W H1 Hp. destruct (polyCall_ok chebval chebT t p (fun x c => chebval_R x c) W H1 Hp) as [A B]. split; auto.
  intros E. rewrite A by auto. f_equal. apply map_ext. intros x. apply evalT_cheb.
Qed.
Print Assumptions C40_MultiCheb_call.

Theorem C40_MultiPower_call : forall (t : tensor R) (p : points), wf t -> (1 <= ndim t)%nat -> wellShaped p ->
  (width (ndim t) p = ndim t -> polyCall polyval t p = Val (map (power_eval t) (meantPoints (ndim t) p))) /\
  (width (ndim t) p <> ndim t -> polyCall polyval t p = ValueError).
Proof.
  intros t p W H1 Hp. destruct (polyCall_ok polyval pw t p (fun x c => polyval_R x c) W H1 Hp) as [A B]. split; auto.
  intros E. rewrite A by auto. f_equal. apply map_ext. intros x. apply evalT_power.
Qed.
Print Assumptions C40_MultiPower_call.

(** The Chebyshev form of f(x,y) = 1 + 2 y + 3 x + 4 x y + 5 T_2(x) + 6 T_2(x) y at (2,3) *)
Example C40_case : let t := mkT [3; 2]%nat [1; 2; 3; 4; 5; 6] in
  wf t /\ (1 <= ndim t)%nat /\ wellShaped (PVec [2; 3]) /\ width (ndim t) (PVec [2; 3]) = ndim t /\
  polyCall chebval t (PVec [2; 3]) = Val [1 + 2 * 3 + 3 * 2 + 4 * 2 * 3 + 5 * 7 + 6 * 7 * 3] /\
  polyCall polyval t (PMat 2 [[2; 3]; [0; 1]]) = Val [1 + 2 * 3 + 3 * 2 + 4 * 2 * 3 + 5 * 4 + 6 * 4 * 3; 1 + 2] /\
  polyCall chebval t (PVec [2; 3; 4]) = ValueError /\ polyCall chebval t (PScalar 2) = ValueError.
Proof.
  cbv zeta. assert (W : wf (mkT [3; 2]%nat [1; 2; 3; 4; 5; 6])) by (split; [reflexivity|repeat constructor]).
  split; [exact W|]. split; [cbn; lia|]. split; [exact I|]. split; [reflexivity|]. split; [|split; [|split]].
  - destruct (C40_MultiCheb_call _ (PVec [2; 3]) W ltac:(cbn; lia) I) as [A _]. rewrite A by reflexivity. cbn [meantPoints ndim shp length Nat.eqb map].
    f_equal. f_equal. rewrite cheb_eval_sumidx. cbn [sumidx sumn shp basis tget ravel_index prodn fold_right Nat.mul Nat.add dat nth]. rewrite !chebT_0, !chebT_1, !chebT_2. ring.
  - destruct (C40_MultiPower_call _ (PMat 2 [[2; 3]; [0; 1]]) W ltac:(cbn; lia) ltac:(repeat constructor)) as [A _]. rewrite A by reflexivity. cbn [meantPoints ndim shp length Nat.eqb map].
    f_equal. rewrite !power_eval_sumidx. cbn [sumidx sumn shp basis tget ravel_index prodn fold_right Nat.mul Nat.add dat nth pow]. f_equal; [ring|f_equal; ring].
  - apply (C40_MultiCheb_call _ (PVec [2; 3; 4]) W ltac:(cbn; lia) I). cbn. lia.
  - apply (C40_MultiCheb_call _ (PScalar 2) W ltac:(cbn; lia) I). cbn. lia.
Qed.

(** ** C58: evaluate_grid *)
Lemma evaluateGrid_ok ev phi (t : tensor R) rows : evalsBasis ev phi -> wf t -> (1 <= ndim t)%nat -> rows <> [] -> Forall (fun r => length r = ndim t) rows ->
  exists v, @evaluateGrid R R_num ev t (PMat (ndim t) rows) = Val v /\ shp v = repeat (length rows) (ndim t) /\
  forall ii, length ii = ndim t -> Forall (fun i => (i < length rows)%nat) ii ->
    tget v ii = evalT phi t (map (fun j => nth j (nth (nth j ii 0%nat) rows []) 0) (seq 0 (ndim t))).
Proof.
  intros HE W H1 Hr HF. unfold evaluateGrid, normPoints. rewrite Nat.eqb_refl. eexists. split; [reflexivity|].
  set (cols := map (fun i => map (fun r => nth i r n0) rows) (seq 0 (ndim t))).
  assert (Ln : map (@length R) cols = repeat (length rows) (ndim t)).
  { assert (H : forall l, map (@length R) (map (fun i => map (fun r => nth i r 0) rows) l) = repeat (length rows) (length l)) by (intros l; induction l; cbn; rewrite ?map_length; congruence).
    etransitivity; [exact (H (seq 0 (ndim t)))|]. rewrite seq_length. reflexivity. }
  destruct (gridEval_eval ev phi cols t HE W) as [A B].
  - unfold cols. rewrite map_length, seq_length. auto.
  - apply Forall_forall. intros c Hc K. subst c. unfold cols in Hc. apply in_map_iff in Hc. destruct Hc as (i & E & _). destruct rows; [congruence|discriminate].
  - split; [rewrite A; exact Ln|]. intros ii Li Fi. rewrite B.
    + f_equal. clear B A. unfold cols. assert (G : forall l s, length l = length ii -> (forall k, (k < length l)%nat -> nth k l 0%nat = (s + k)%nat) -> 
        gridPoint (map (fun i => map (fun r => nth i r n0) rows) l) ii = map (fun j => nth j (nth (nth (j - s) ii 0%nat) rows []) 0) l).
      { clear - Fi. induction ii as [|i ii IH]; intros [|j l] s L Hl; cbn [length] in L; try lia; auto. cbn [map gridPoint].
        apply Forall_cons_iff in Fi. destruct Fi as [Fi Fi']. pose proof (Hl 0%nat ltac:(cbn; lia)) as E0. cbn in E0. rewrite Nat.add_0_r in E0. subst j. rewrite Nat.sub_diag. cbn [nth]. f_equal.
        - rewrite (nth_indep _ _ ((fun r => nth s r n0) [])) by (rewrite map_length; auto). rewrite (map_nth (fun r => nth s r n0)). reflexivity.
        - rewrite (IH Fi' l (S s)) by (try lia; intros k Hk; specialize (Hl (S k) ltac:(cbn; lia)); cbn in Hl; lia).
          apply map_ext_in. intros j Hj. destruct (In_nth _ _ 0%nat Hj) as (k & Hk & <-). specialize (Hl (S k) ltac:(cbn; lia)). cbn [nth] in Hl. rewrite Hl.
          replace (s + S k - s)%nat with (S k) by lia. replace (s + S k - S s)%nat with k by lia. reflexivity. }
      rewrite (G (seq 0 (ndim t)) 0%nat); [|rewrite seq_length; auto|intros k Hk; rewrite seq_length in Hk; rewrite seq_nth; auto].
      apply map_ext. intros j. rewrite Nat.sub_0_r. reflexivity.
    + rewrite Ln. clear - Li Fi. revert Li. generalize (ndim t). induction ii; intros n L; destruct n; cbn in L; try lia; cbn; constructor; try (apply Forall_cons_iff in Fi; apply Fi). apply IHii; [apply Forall_cons_iff in Fi; apply Fi|lia].
Qed.

(** [evaluate_grid] on a matrix of points (one column per variable) returns, at position (i_1,...,i_n),
    the value at the point whose j-th coordinate is entry i_j of column j. *)
Theorem C58_evaluate_grid : forall (t : tensor R) (rows : list (list R)), wf t -> (1 <= ndim t)%nat -> rows <> [] -> Forall (fun r => length r = ndim t) rows ->
  (exists v, evaluateGrid chebval t (PMat (ndim t) rows) = Val v /\ shp v = repeat (length rows) (ndim t) /\
    forall ii, length ii = ndim t -> Forall (fun i => (i < length rows)%nat) ii ->
      tget v ii = cheb_eval t (map (fun j => nth j (nth (nth j ii 0%nat) rows []) 0) (seq 0 (ndim t)))) /\
  (exists v, evaluateGrid polyval t (PMat (ndim t) rows) = Val v /\ shp v = repeat (length rows) (ndim t) /\
    forall ii, length ii = ndim t -> Forall (fun i => (i < length rows)%nat) ii ->
      tget v ii = power_eval t (map (fun j => nth j (nth (nth j ii 0%nat) rows []) 0) (seq 0 (ndim t)))).
Proof.
  intros t rows W H1 Hr HF. split.
  - destruct (evaluateGrid_ok chebval chebT t rows (fun x c => chebval_R x c) W H1 Hr HF) as (v & A & B & C). exists v. split; auto. split; auto. intros. rewrite C by auto. apply evalT_cheb.
  - destruct (evaluateGrid_ok polyval pw t rows (fun x c => polyval_R x c) W H1 Hr HF) as (v & A & B & C). exists v. split; auto. split; auto. intros. rewrite C by auto. apply evalT_power.
Qed.
Print Assumptions C58_evaluate_grid.
Example C58_case : let t := mkT [3; 2]%nat [1; 2; 3; 4; 5; 6] in wf t /\ (1 <= ndim t)%nat /\ [[2; 3]; [0; 1]] <> [] /\ Forall (fun r => length r = ndim t) [[2; 3]; [0; 1]] /\
  forall v, evaluateGrid chebval t (PMat 2 [[2; 3]; [0; 1]]) = Val v -> tget v [0; 1]%nat = cheb_eval t [2; 1].
Proof.
  cbv zeta. assert (W : wf (mkT [3; 2]%nat [1; 2; 3; 4; 5; 6])) by (split; [reflexivity|repeat constructor]). split; [exact W|]. split; [cbn; lia|]. split; [discriminate|]. split; [repeat constructor|].
  intros v E. destruct (C58_evaluate_grid _ [[2; 3]; [0; 1]] W ltac:(cbn; lia) ltac:(discriminate) ltac:(repeat constructor)) as [(w & E' & _ & V) _].
  cbn [ndim shp length] in E'. rewrite E in E'. injection E' as <-. rewrite V; [reflexivity|reflexivity|repeat constructor].
Qed.

(** ** C41: arithmetic *)
Lemma sameSize_val (a b : tensor R) : ndim a = ndim b -> exists a' b', @sameSize R R_num a b = Val (a', b').
Proof.
  intros E. destruct (@sameSize R R_num a b) as [[a' b']|] eqn:S; eauto. apply sameSize_raises in S. congruence.
Qed.
(** [op] computes the sum, difference or product of the functions [ev a] and [ev b] *)
Definition computes (op : tensor R -> tensor R -> pyres (tensor R)) (ev : tensor R -> list R -> R) (f : R -> R -> R) : Prop :=
  forall a b : tensor R, wf a -> wf b ->
    (ndim a = ndim b -> exists c, op a b = Val c /\ wf c /\ ndim c = ndim a /\ forall x, length x = ndim a -> ev c x = f (ev a x) (ev b x)) /\
    (ndim a <> ndim b -> op a b = ValueError).
Lemma computes_zip phi f (post : tensor R -> tensor R) :
  (forall a b : tensor R, wf a -> ndim (post (@tzip R R_num f a b)) = ndim a /\ wf (post (@tzip R R_num f a b)) /\ (shp a = shp b -> forall x, evalT phi (post (@tzip R R_num f a b)) x = f (evalT phi a x) (evalT phi b x))) ->
  computes (fun a b => pmap (fun p => post (@tzip R R_num f (fst p) (snd p))) (@sameSize R R_num a b)) (evalT phi) f.
Proof.
  intros H a b Wa Wb. split; intros E.
  - destruct (sameSize_val a b E) as (a' & b' & S). rewrite S. cbn [pmap fst snd]. destruct (sameSize_ok _ _ _ _ phi Wa Wb S) as (Wa' & Wb' & Es & En & Ea & Eb).
    destruct (H a' b' Wa') as (N & W & V). eexists. split; [reflexivity|]. split; auto. split; [congruence|]. intros x _. rewrite (V Es), Ea, Eb. auto.
  - apply sameSize_raises in E. rewrite E. reflexivity.
Qed.
Lemma post_id phi f : (forall (a b : tensor R) x, shp a = shp b -> evalT phi (@tzip R R_num f a b) x = f (evalT phi a x) (evalT phi b x)) ->
  forall a b : tensor R, wf a -> ndim (@tzip R R_num f a b) = ndim a /\ wf (@tzip R R_num f a b) /\ (shp a = shp b -> forall x, evalT phi (@tzip R R_num f a b) x = f (evalT phi a x) (evalT phi b x)).
Proof. intros H a b W. split; [unfold tzip, ndim; rewrite shp_tbuild; auto|]. split; [apply wf_tzip; auto|]. intros. apply H. auto. Qed.
Lemma computes_ext op ev ev' f : (forall t x, ev t x = ev' t x) -> computes op ev f -> computes op ev' f.
Proof.
  intros E H a b Wa Wb. destruct (H a b Wa Wb) as [A B]. split; auto. intros En. destruct (A En) as (c & C1 & C2 & C3 & C4).
  exists c. repeat split; auto; try apply C2. intros x Lx. rewrite <- !E. auto.
Qed.

Theorem C41_MultiCheb_add : computes chebAdd cheb_eval Rplus.
Proof.
  apply (computes_ext _ (evalT chebT)); [apply evalT_cheb|]. apply (computes_zip chebT Rplus clean).
  intros a b W. pose proof (wf_tzip Rplus a b W) as W'. destruct (clean_ok _ W') as [C _]. split; [|split].
  - rewrite (cleaned_ndim _ _ C). unfold tzip, ndim. rewrite shp_tbuild. auto.
  - apply (cl_wf _ _ C).
  - intros E x. rewrite (cleaned_eval chebT _ _ x C). apply evalT_add; auto.
Qed.
Print Assumptions C41_MultiCheb_add.
Theorem C41_MultiCheb_sub : computes chebSub cheb_eval Rminus.
Proof. apply (computes_ext _ (evalT chebT)); [apply evalT_cheb|]. apply (computes_zip chebT Rminus (fun t => t)). apply post_id. intros. apply evalT_sub; auto. Qed.
Print Assumptions C41_MultiCheb_sub.
Theorem C41_MultiPower_add : computes powAdd power_eval Rplus.
Proof. apply (computes_ext _ (evalT pw)); [apply evalT_power|]. apply (computes_zip pw Rplus (fun t => t)). apply post_id. intros. apply evalT_add; auto. Qed.
Print Assumptions C41_MultiPower_add.
Theorem C41_MultiPower_sub : computes powSub power_eval Rminus.
Proof. apply (computes_ext _ (evalT pw)); [apply evalT_power|]. apply (computes_zip pw Rminus (fun t => t)). apply post_id. intros. apply evalT_sub; auto. Qed.
Print Assumptions C41_MultiPower_sub.
Theorem C41_MultiPower_mul : computes powMul power_eval Rmult.
Proof.
  apply (computes_ext _ (evalT pw)); [apply evalT_power|]. intros a b Wa Wb. unfold powMul. split; intros E.
  - destruct (sameSize_val a b E) as (a' & b' & S). rewrite S. cbn [pmap fst snd]. destruct (sameSize_ok _ _ _ _ pw Wa Wb S) as (Wa' & Wb' & Es & En & Ea & Eb).
    pose proof (wf_convolve a' b' Wa' Wb') as W. destruct (clean_ok _ W) as [C _].
    assert (Nc : ndim (@convolve R R_num a' b') = ndim a').
    { unfold convolve, ndim. rewrite shp_tbuild. rewrite Es. generalize (shp b'). intros s. induction s; cbn; auto. }
    eexists. split; [reflexivity|]. split; [apply (cl_wf _ _ C)|]. split; [rewrite (cleaned_ndim _ _ C); congruence|].
    intros x Lx. rewrite (cleaned_eval pw _ _ x C). rewrite evalT_convolve; [rewrite Ea, Eb; auto|unfold ndim; congruence|congruence].
  - apply sameSize_raises in E. rewrite E. reflexivity.
Qed.
Print Assumptions C41_MultiPower_mul.
(** operands of different shapes *)
Example C41_case : let a := mkT [3; 1]%nat [1; 2; 3] in let b := mkT [1; 2]%nat [5; 7] in
  wf a /\ wf b /\ ndim a = ndim b /\ (exists c, powMul a b = Val c /\ power_eval c [2; 10] = 17 * 75) /\ (exists c, chebAdd a b = Val c /\ cheb_eval c [2; 10] = 26 + 75) /\
  powMul a (mkT [2]%nat [1; 1]) = ValueError.
Proof.
  cbv zeta. assert (Wa : wf (mkT [3; 1]%nat [1; 2; 3])) by (split; [reflexivity|repeat constructor]). assert (Wb : wf (mkT [1; 2]%nat [5; 7])) by (split; [reflexivity|repeat constructor]).
  split; [exact Wa|]. split; [exact Wb|]. split; [reflexivity|]. split; [|split].
  - destruct (C41_MultiPower_mul _ _ Wa Wb) as [A _]. destruct (A eq_refl) as (c & Ec & _ & _ & V). exists c. split; auto. rewrite V by reflexivity. rewrite !power_eval_sumidx.
    cbn [sumidx sumn shp basis tget ravel_index prodn fold_right Nat.mul Nat.add dat nth pow]. ring.
  - destruct (C41_MultiCheb_add _ _ Wa Wb) as [A _]. destruct (A eq_refl) as (c & Ec & _ & _ & V). exists c. split; auto. rewrite V by reflexivity. rewrite !cheb_eval_sumidx.
    cbn [sumidx sumn shp basis tget ravel_index prodn fold_right Nat.mul Nat.add dat nth pow]. rewrite !chebT_0, !chebT_1, !chebT_2. ring.
  - assert (Wc : wf (mkT [2]%nat [1; 1])) by (split; [reflexivity|repeat constructor]). apply (C41_MultiPower_mul _ _ Wa Wc). cbn. lia.
Qed.

(** ** C42: cleaning *)
(** the last slice along axis [d] has a non-zero entry *)
Definition lastSliceNonzero (d : nat) (t : tensor R) : Prop :=
  exists idx, inrange (shp t) idx /\ nth d idx 0%nat = (nth d (shp t) 0 - 1)%nat /\ tget t idx <> 0.
Theorem C42_cleaning_preserves_the_polynomial : forall t : tensor R, wf t ->
  wf (clean t) /\ ndim (clean t) = ndim t /\
  (forall x, cheb_eval (clean t) x = cheb_eval t x) /\ (forall x, power_eval (clean t) x = power_eval t x) /\
  (forall idx, inrange (shp (clean t)) idx -> tget (clean t) idx = tget t idx) /\
  (forall d, (d < ndim t)%nat -> (1 <= nth d (shp (clean t)) 0 <= nth d (shp t) 0)%nat) /\
  (forall d, (d < ndim t)%nat -> nth d (shp (clean t)) 0%nat = 1%nat \/ lastSliceNonzero d (clean t)).
Proof.
  intros t W. destruct (clean_ok t W) as [C D]. split; [apply (cl_wf _ _ C)|]. split; [apply (cleaned_ndim _ _ C)|].
  split; [intros x; rewrite <- !evalT_cheb; apply cleaned_eval; auto|]. split; [intros x; rewrite <- !evalT_power; apply cleaned_eval; auto|].
  split; [apply (cl_get _ _ C)|]. split.
  - intros d Hd. pose proof (cleaned_ndim _ _ C) as N. split.
    + destruct (cl_wf _ _ C) as [_ P]. rewrite Forall_forall in P. apply P. apply nth_In. unfold ndim in *. lia.
    + pose proof (cl_le _ _ C) as L. clear - L. revert d. induction L; intros [|d]; cbn; auto.
  - exact D.
Qed.
Print Assumptions C42_cleaning_preserves_the_polynomial.
Example C42_case : let t := mkT [3; 2]%nat [1; 0; 2; 0; 0; 0] in wf t /\ clean t = mkT [2; 1]%nat [1; 2].
Proof.
  cbv zeta. set (t0 := mkT [3; 2]%nat [1; 0; 2; 0; 0; 0]). split; [split; [reflexivity|repeat constructor]|].
  set (t1 := mkT [2; 2]%nat [1; 0; 2; 0]). set (t2 := mkT [2; 1]%nat [1; 2]).
  assert (D0 : @dropLast R R_num 0 t0 = t1) by reflexivity. assert (D1 : @dropLast R R_num 1 t1 = t2) by reflexivity.
  assert (Z : Rabs 0 = 0) by apply Rabs_R0.
  assert (S0 : Reqb (@nsumabs R R_num (lastSlice 0 t0)) 0 = true) by (apply Reqb_true; cbn; rewrite Z; ring).
  assert (S1 : Reqb (@nsumabs R R_num (lastSlice 0 t1)) 0 = false).
  { apply Reqb_false. cbn. rewrite Z, (Rabs_pos_eq 2) by lra. lra. }
  assert (S2 : Reqb (@nsumabs R R_num (lastSlice 1 t1)) 0 = true) by (apply Reqb_true; cbn; rewrite Z; ring).
  unfold clean. cbn [ndim shp length seq fold_left t0 nth]. fold t0.
  assert (A : @cleanAxis R R_num 3 0 t0 = t1).
  { cbn [cleanAxis]. change (Nat.eqb (nth 0 (shp t0) 0%nat) 1) with false. cbv iota. cbn [neqb R_num n0]. rewrite S0, D0.
    change (Nat.eqb (nth 0 (shp t1) 0%nat) 1) with false. cbv iota. rewrite S1. reflexivity. }
  rewrite A. change (nth 1 (shp t1) 0%nat) with 2%nat. cbn [cleanAxis]. change (Nat.eqb (nth 1 (shp t1) 0%nat) 1) with false. cbv iota. cbn [neqb R_num n0]. rewrite S2, D1.
  change (Nat.eqb (nth 1 (shp t2) 0%nat) 1) with true. reflexivity.
Qed.

(** ** C43: conversion to the Chebyshev basis *)
Theorem C43_to_cheb_is_exact : forall (t : tensor R) (x : list R), wf t -> length x = ndim t ->
  shp (toCheb t) = shp t /\ cheb_eval (toCheb t) x = power_eval t x.
Proof.
  intros t x W L. destruct (toCheb_ok t x W L) as (_ & S & E). split; auto. rewrite <- evalT_cheb, <- evalT_power. exact E.
Qed.
Print Assumptions C43_to_cheb_is_exact.
(** x^3 y + 2 and the coefficients of its Chebyshev form *)
Example C43_case : let t := mkT [4; 2]%nat [2; 0; 0; 0; 0; 0; 0; 1] in wf t /\ toCheb t = mkT [4; 2]%nat [2; 0; 0; 3 / 4; 0; 0; 0; 1 / 4].
Proof.
  cbv zeta. split; [split; [reflexivity|repeat constructor]|]. cbv -[Rplus Rmult Rdiv Rinv Rminus Ropp IZR]. unfold n2. f_equal.
  apply (f_equal2 (@cons R)); [lra|]. repeat (apply (f_equal2 (@cons R)); [lra|]). reflexivity.
Qed.

(** ** C44: equality *)
Lemma allcloseT_spec : forall a b : list R, length a = length b ->
  (@allcloseT R R_num a b = true <-> forall k, (k < length a)%nat -> Rabs (nth k a 0 - nth k b 0) <= 1 / 100000000 + 1 / 100000 * Rabs (nth k b 0)).
Proof.
  unfold allcloseT. rewrite !nlit_R. induction a as [|u a IH]; intros [|v b] L; cbn [length] in L; try lia; cbn [combine forallb].
  - split; auto. cbn. intros. lia.
  - rewrite andb_true_iff, IH by lia. cbn [fst snd]. split.
    + intros [A B] [|k] Hk; cbn [nth]; [apply Rleb_true in A; rnum; exact A|apply B; cbn in Hk; lia].
    + intros A. split; [apply Rleb_true; exact (A 0%nat ltac:(cbn; lia))|]. intros k Hk. exact (A (S k) ltac:(cbn; lia)).
Qed.
Lemma wf_eq_len (a b : tensor R) : wf a -> wf b -> shp a = shp b -> length (dat a) = length (dat b).
Proof. intros [A _] [B _] E. rewrite A, B, E. auto. Qed.

(** [==] holds exactly when the shapes are equal and every coefficient of the first operand is within
    1e-8 + 1e-5 |b_k| of the second operand's coefficient b_k. *)
Theorem C44_equality_is_closeness : forall a b : tensor R, wf a -> wf b ->
  (polyEq a b = true <-> shp a = shp b /\ forall k, (k < length (dat a))%nat -> Rabs (nth k (dat a) 0 - nth k (dat b) 0) <= 1 / 100000000 + 1 / 100000 * Rabs (nth k (dat b) 0)).
Proof.
  intros a b Wa Wb. unfold polyEq. destruct (list_eq_dec Nat.eq_dec (shp a) (shp b)) as [E|E].
  - rewrite allcloseT_spec by (apply wf_eq_len; auto). tauto.
  - split; [discriminate|intros [? _]; contradiction].
Qed.
Print Assumptions C44_equality_is_closeness.
Theorem C44_equality_is_reflexive : forall a : tensor R, wf a -> polyEq a a = true.
Proof.
  intros a W. apply C44_equality_is_closeness; auto. split; auto. intros k _. rewrite Rminus_diag_eq by reflexivity. rewrite Rabs_R0. pose proof (Rabs_pos (nth k (dat a) 0)). lra.
Qed.
Print Assumptions C44_equality_is_reflexive.
Lemma polyEq1 u v : polyEq (mkT [1%nat] [u]) (mkT [1%nat] [v]) = true <-> Rabs (u - v) <= 1 / 100000000 + 1 / 100000 * Rabs v.
Proof.
  rewrite C44_equality_is_closeness by (split; [reflexivity|repeat constructor]). cbn [shp dat length]. split.
  - intros [_ H]. exact (H 0%nat ltac:(lia)).
  - intros H. split; auto. intros [|k] Hk; [exact H|lia].
Qed.
Theorem C44_equality_symmetric_refuted : exists a b : tensor R, wf a /\ wf b /\ polyEq a b = true /\ polyEq b a = false.
Proof.
  exists (mkT [1%nat] [1 - 1001 / 100000000]), (mkT [1%nat] [1]). split; [split; [reflexivity|repeat constructor]|]. split; [split; [reflexivity|repeat constructor]|]. split.
  - apply polyEq1. rewrite Rabs_left, Rabs_pos_eq by lra. lra.
  - apply not_true_is_false. intros H. apply polyEq1 in H. rewrite !Rabs_pos_eq in H by lra. lra.
Qed.
Print Assumptions C44_equality_symmetric_refuted.
Theorem C44_equality_transitive_refuted : exists a b c : tensor R, wf a /\ wf b /\ wf c /\ polyEq a b = true /\ polyEq b c = true /\ polyEq a c = false.
Proof.
  exists (mkT [1%nat] [0]), (mkT [1%nat] [1 / 100000000]), (mkT [1%nat] [2 / 100000000]). do 3 (split; [split; [reflexivity|repeat constructor]|]). split; [|split].
  - apply polyEq1. rewrite Rabs_left, Rabs_pos_eq by lra. lra.
  - apply polyEq1. rewrite Rabs_left, Rabs_pos_eq by lra. lra.
  - apply not_true_is_false. intros H. apply polyEq1 in H. rewrite Rabs_left, Rabs_pos_eq in H by lra. lra.
Qed.
Print Assumptions C44_equality_transitive_refuted.
(** (T_0 + T_1) - T_1 is the same function as T_0 but does not compare equal to it *)
Theorem C44_same_function_equal_refuted : exists a b c d : tensor R, wf a /\ wf b /\ wf c /\ wf d /\ clean a = a /\ clean b = b /\ clean d = d /\
  chebSub a b = Val c /\ (forall x, cheb_eval c x = cheb_eval d x) /\ polyEq c d = false.
Proof.
  exists (mkT [2%nat] [1; 1]), (mkT [2%nat] [0; 1]), (mkT [2%nat] [1 - 0; 1 - 1]), (mkT [1%nat] [1]). do 4 (split; [split; [reflexivity|repeat constructor]|]).
  assert (N : forall t1 : list R, Reqb (@nsumabs R R_num [1]) 0 = false) by (intros; apply Reqb_false; cbn; rewrite Rabs_pos_eq by lra; lra).
  assert (C : forall u, @clean R R_num (mkT [2%nat] [u; 1]) = mkT [2%nat] [u; 1]).
  { intros u. unfold clean. cbn [ndim shp length seq fold_left nth]. cbn [cleanAxis shp nth Nat.eqb]. cbn [neqb R_num n0].
    change (@lastSlice R R_num 0 (mkT [2%nat] [u; 1])) with [1]. rewrite (N []). reflexivity. }
  split; [apply C|]. split; [apply C|]. split; [reflexivity|]. split; [reflexivity|]. split.
  - intros x. rewrite !cheb_eval_sumidx. cbn [shp sumidx sumn tget ravel_index prodn fold_right Nat.mul Nat.add dat nth]. ring.
  - reflexivity.
Qed.
Print Assumptions C44_same_function_equal_refuted.

(** ** C45: gradients *)
(** The partial derivative of [f] in its [d]-th argument at [x] is [l]. *)
Definition partial_deriv (f : list R -> R) (d : nat) (x : list R) (l : R) : Prop := derivable_pt_lim (fun v => f (upd x d v)) (nth d x 0) l.
(** What a history of calls can leave in the object's cache: nothing, or the derivative tensors.  (No
    method other than grad writes to it, and no method changes the coefficients.) *)
Definition gradCache (der : list R -> list R) (t : tensor R) (jac : option (list (tensor R))) : Prop := jac = None \/ jac = Some (jacobian der t).
Lemma grad_ok ev phi der (t : tensor R) jac x : evalsBasis ev phi -> isDer phi der -> (forall c, c <> [] -> length (der c) = Nat.max 1 (length c - 1)) ->
  wf t -> (1 <= ndim t)%nat -> gradCache der t jac -> length x = ndim t ->
  exists out jac', @grad R R_num ev der t jac x = Val (out, jac') /\ gradCache der t jac' /\ length out = ndim t /\
    forall d, (d < ndim t)%nat -> partial_deriv (evalT phi t) d x (nth d out 0).
Proof.
  intros HE HD HL W H1 HJ Lx. unfold grad.
  assert (E : exists rows, normPoints (ndim t) (PVec x) = Val rows).
  { destruct (normPoints_ok (ndim t) (PVec x) H1 I) as [(_ & -> & _)|(N & _)]; eauto. exfalso. apply N. cbn. destruct (Nat.eqb_spec (ndim t) 1); auto. }
  destruct E as [rows ->]. assert (J : match jac with Some j => j | None => jacobian der t end = jacobian der t) by (destruct HJ as [->| ->]; reflexivity).
  rewrite J. rewrite <- Lx, firstn_all. do 2 eexists. split; [reflexivity|]. split; [right; reflexivity|]. split; [unfold jacobian; rewrite !map_length, seq_length; auto|].
  intros d Hd. rewrite Lx in Hd. apply (jacobian_deriv phi der HD HL ev t x d); auto.
Qed.
Lemma partial_ext f h d x l : (forall y, f y = h y) -> partial_deriv f d x l -> partial_deriv h d x l.
Proof. intros E. apply dlim_ext. intros. apply E. Qed.

Theorem C45_MultiCheb_gradient : forall (t : tensor R) (jac : option (list (tensor R))) (x : list R),
  wf t -> (1 <= ndim t)%nat -> gradCache chebder t jac -> length x = ndim t ->
  exists out jac', grad chebval chebder t jac x = Val (out, jac') /\ gradCache chebder t jac' /\ length out = ndim t /\
    forall d, (d < ndim t)%nat -> partial_deriv (cheb_eval t) d x (nth d out 0).
Proof.
  intros t jac x W H1 HJ Lx. destruct (grad_ok chebval chebT chebder t jac x (fun x c => chebval_R x c) chebder_isDer chebder_length W H1 HJ Lx) as (out & j & A & B & C & D).
  exists out, j. repeat split; auto. intros d Hd. apply (partial_ext (evalT chebT t)); [apply evalT_cheb|auto].
Qed.
Print Assumptions C45_MultiCheb_gradient.
Theorem C45_MultiPower_gradient : forall (t : tensor R) (jac : option (list (tensor R))) (x : list R),
  wf t -> (1 <= ndim t)%nat -> gradCache polyder t jac -> length x = ndim t ->
  exists out jac', grad polyval polyder t jac x = Val (out, jac') /\ gradCache polyder t jac' /\ length out = ndim t /\
    forall d, (d < ndim t)%nat -> partial_deriv (power_eval t) d x (nth d out 0).
Proof.
  intros t jac x W H1 HJ Lx. destruct (grad_ok polyval pw polyder t jac x (fun x c => polyval_R x c) polyder_isDer polyder_length W H1 HJ Lx) as (out & j & A & B & C & D).
  exists out, j. repeat split; auto. intros d Hd. apply (partial_ext (evalT pw t)); [apply evalT_power|auto].
Qed.
Print Assumptions C45_MultiPower_gradient.
(** T_3(x) + 2 y at (1/2, 5): the gradient is (12 x^2 - 3, 2) = (0, 2) *)
Example C45_case : let t := mkT [4; 2]%nat [0; 2; 0; 0; 0; 0; 1; 0] in
  wf t /\ (1 <= ndim t)%nat /\ gradCache chebder t None /\ length [1 / 2; 5] = ndim t /\ exists j, grad chebval chebder t None [1 / 2; 5] = Val ([0; 2], j).
Proof.
  cbv zeta. split; [split; [reflexivity|repeat constructor]|]. split; [cbn; lia|]. split; [left; reflexivity|]. split; [reflexivity|]. eexists.
  unfold grad. cbn [normPoints ndim shp length Nat.ltb Nat.leb Nat.eqb]. f_equal. f_equal.
  cbv -[Rplus Rmult Rdiv Rinv Rminus Ropp IZR]. apply (f_equal2 (@cons R)); [field|]. apply (f_equal2 (@cons R)); [field|]. reflexivity.
Qed.
(** Finding: on a polynomial in one variable grad does not check the length of the point: any vector is
    accepted and only its first entry is used. *)
Theorem C45_grad_rejects_wrong_length_refuted : exists (t : tensor R) (x : list R) r, wf t /\ ndim t = 1%nat /\ length x = 3%nat /\ grad polyval polyder t None x = Val r.
Proof. exists (mkT [2%nat] [1; 2]), [1; 2; 3]. eexists. split; [split; [reflexivity|repeat constructor]|]. split; [reflexivity|]. split; [reflexivity|]. reflexivity. Qed.
Print Assumptions C45_grad_rejects_wrong_length_refuted.
