(** * Properties C81, C82, C83: linear systems (utils.solve_linear, utils.triangular_solve, LinearProjection.rref and nullspace) *)
From Coq Require Import Reals List Lia Lra Arith Bool Permutation QArith.
From Verif Require Import Num RSum Cheb Tensor PolySpec LinAlgSpec LinAlgModel LinAlgProofs LinAlgProofs2.
Import ListNotations.
Local Open Scope R_scope.

(** the argument of solve_linear as it is meant: as many polynomials as variables, all linear, every axis of length two or more *)
Definition linearSystem (n : nat) (polys : list (tensor R)) : Prop :=
  (1 <= n)%nat /\ length polys = n /\ forall t, In t polys -> ndim t = n /\ Forall (fun k => (2 <= k)%nat) (shp t) /\ isLinear t.

(** C81: a point is returned precisely when it is the only common zero. *)
Theorem C81_root_is_the_only_zero :
  forall n polys x, linearSystem n polys ->
    (solve_linear polys = Root x <-> commonZero n polys x /\ forall y, commonZero n polys y -> y = x).
Proof. intros n polys x (H1 & H2 & H3). apply solve_root; auto. Qed.
Print Assumptions C81_root_is_the_only_zero.

(** C81: an empty answer is right, and with any answer other than a point there is not exactly one zero; no IndexError. *)
Theorem C81_empty_means_no_zero :
  forall n polys, linearSystem n polys ->
    (solve_linear polys = NoRoots -> forall x, ~ commonZero n polys x) /\
    (solve_linear polys = TooManyRoots -> forall x, commonZero n polys x -> exists y, commonZero n polys y /\ y <> x) /\
    solve_linear polys <> IndexError.
Proof.
  intros n polys (H1 & H2 & H3). split; [|split].
  - intros H x. apply no_roots; auto.
  - intros H x Hx. rewrite (solve_call n polys H1 H2 H3) in H. destruct (existsb _ (seq 0 n)) eqn:E; [|discriminate].
    apply existsb_exists in E. destruct E as [i [Ii Ei]]. apply in_seq in Ii. apply Reqb_true in Ei.
    apply (not_unique n polys H1 H2 H3 x); auto. exists i. split; [lia|auto].
  - rewrite (solve_call n polys H1 H2 H3). destruct (existsb _ (seq 0 n)); [|discriminate]. destruct (existsb _ _); discriminate.
Qed.
Print Assumptions C81_empty_means_no_zero.

(** x |-> c + a x + b y as an array *)
Definition plane (c a b : R) : tensor R := mkT [2; 2]%nat [c; b; a; 0].
Lemma plane_linear c a b : ndim (plane c a b) = 2%nat /\ Forall (fun k => (2 <= k)%nat) (shp (plane c a b)) /\ isLinear (plane c a b).
Proof.
  split; [reflexivity|]. split; [repeat constructor|]. intros idx H S. unfold inrange in H. cbn in H. inversion H as [|i a' r s' Hi Hr]; subst. inversion Hr as [|j b' r' s'' Hj Hr']; subst. inversion Hr'; subst.
  assert (E : (i = 1 /\ j = 1)%nat) by (cbn in S; lia). destruct E as [-> ->]. reflexivity.
Qed.
Lemma plane_value c a b x y : cheb_eval (plane c a b) [x; y] = c + a * x + b * y.
Proof. unfold cheb_eval. cbn. unfold tget. cbn. rewrite ?chebT_0, ?chebT_1. cbn. ring. Qed.
Lemma planes_system c a b c' a' b' : linearSystem 2 [plane c a b; plane c' a' b'].
Proof. split; [lia|]. split; [reflexivity|]. intros t [<-|[<-|[]]]; apply plane_linear. Qed.
Ltac rcompute := cbv -[Rplus Rmult Ropp Rinv Rminus Rdiv Rabs Rltb Reqb Rleb IZR Rmax Rmin Rlt Rle].
Ltac rdec := repeat match goal with
  | |- context [Rltb ?a ?b] => let e := fresh in (assert (e : Rltb a b = true) by (apply Rltb_true; unfold Rabs; repeat destruct Rcase_abs; lra)) || (assert (e : Rltb a b = false) by (apply Rltb_false; unfold Rabs; repeat destruct Rcase_abs; lra)); rewrite e; clear e
  | |- context [Reqb ?a ?b] => let e := fresh in (assert (e : Reqb a b = true) by (apply Reqb_true; lra)) || (assert (e : Reqb a b = false) by (apply Reqb_false; lra)); rewrite e; clear e end.

(** C81 is false for the answer TooManyRoots: y = 1 together with y = 2 is reported as having infinitely many roots.  The pivot columns are
    read off an LU factorisation, which is not an echelon form. *)
Theorem C81_too_many_roots_refuted :
  solve_linear [plane (-1) 0 1; plane (-2) 0 1] = TooManyRoots /\ forall x, ~ commonZero 2 [plane (-1) 0 1; plane (-2) 0 1] x.
Proof.
  split.
  - rcompute. do 8 (rdec; rcompute). reflexivity.
  - intros x [L H]. destruct x as [|u [|v [|w x]]]; try discriminate. pose proof (H _ (or_introl eq_refl)) as A. pose proof (H _ (or_intror (or_introl eq_refl))) as B.
    rewrite plane_value in A, B. lra.
Qed.
Print Assumptions C81_too_many_roots_refuted.

(** C81 is false for arrays with a first axis of length one: x = 1/2 together with y = 1/2, the second as an array of shape (1, 2) (what
    MultiCheb makes of it after cleaning), is reported as having no root. *)
Theorem C81_short_first_axis_refuted :
  let f := plane (-1/2) 1 0 in let g := mkT [1; 2]%nat [-1/2; 1] in
  solve_linear [f; g] = NoRoots /\ commonZero 2 [f; g] [1/2; 1/2].
Proof.
  cbv zeta. split.
  - rcompute. do 8 (rdec; rcompute). reflexivity.
  - split; [reflexivity|]. intros t [<-|[<-|[]]]; [rewrite plane_value; lra|]. unfold cheb_eval. cbn. unfold tget. cbn. rewrite ?chebT_0, ?chebT_1. lra.
Qed.
Print Assumptions C81_short_first_axis_refuted.
(** ... and x - 1/2 as an array of shape (2, 1) raises IndexError, whatever the other polynomial. *)
Theorem C81_short_last_axis_refuted :
  forall g, solve_linear [mkT [2; 1]%nat [-1/2; 1]; g] = IndexError.
Proof. intros g. reflexivity. Qed.
Print Assumptions C81_short_last_axis_refuted.

(** x + 2 y = 3, 2 x + y = 3 *)
Example C81_case :
  let sys := [plane (-3) 1 2; plane (-3) 2 1] in
  linearSystem 2 sys /\ solve_linear sys = Root [1; 1].
Proof.
  cbv zeta. split; [apply planes_system|]. apply (C81_root_is_the_only_zero 2); [apply planes_system|]. split.
  - split; [reflexivity|]. intros t [<-|[<-|[]]]; rewrite plane_value; lra.
  - intros y [L H]. destruct y as [|u [|v [|w y]]]; try discriminate. pose proof (H _ (or_introl eq_refl)) as A. pose proof (H _ (or_intror (or_introl eq_refl))) as B.
    rewrite plane_value in A, B. f_equal; [lra|f_equal; lra].
Qed.

(** C82: triangular_solve turns a row echelon form without zero rows into the reduced row echelon form: same pivot columns, same solutions. *)
Theorem C82_reduced_echelon_form :
  forall m n (M : nat -> nat -> R) p, isEchelon m n M p ->
    exists R', triangular_solve m n M = Some R' /\ isReduced m n R' p /\ forall v, inKernel m n R' v <-> inKernel m n M v.
Proof. intros m n M p H. apply triangular_ok. auto. Qed.
Print Assumptions C82_reduced_echelon_form.

(** C82 is false for square matrices with a zero row: every square matrix is answered with the identity, so solutions are lost. *)
Theorem C82_square_refuted :
  forall n (M : nat -> nat -> R), exists R', triangular_solve n n M = Some R' /\ (forall i c, R' i c = if (i =? c)%nat then 1 else 0) /\
    forall v, inKernel n n M v -> (exists c, (c < n)%nat /\ v c <> 0) -> ~ inKernel n n R' v.
Proof.
  intros n M. unfold triangular_solve. rewrite Nat.eqb_refl. eexists. split; [reflexivity|]. split; [reflexivity|].
  intros v _ [c [Hc N]] K. apply N. specialize (K c Hc). unfold rowTimes in K. rewrite (sumn_single n c) in K; auto.
  - rewrite Nat.eqb_refl in K. revert K. rnum. lra.
  - intros i Hi Hne. destruct (Nat.eqb_spec c i); [congruence|]. rnum. ring.
Qed.
Print Assumptions C82_square_refuted.
(** ... and a zero row in a matrix that is not square raises ValueError. *)
Theorem C82_zero_row_refuted :
  triangular_solve 2 3 (fun i c => if (i =? 0)%nat then 1 else 0) = None.
Proof. unfold triangular_solve. cbn. rdec. cbn. rdec. cbn. reflexivity. Qed.
Print Assumptions C82_zero_row_refuted.

Definition echelonExample (i c : nat) : R := nth (i * 4 + c) [2; 4; 6; 2;   0; 0; 3; 9] 0.
Example C82_case :
  isEchelon 2 4 echelonExample (fun i => 2 * i)%nat /\
  (exists v, inKernel 2 4 echelonExample v /\ v 3%nat <> 0) /\
  match @triangular_solve Q Q_num 2 4 (fun i c => nth (i * 4 + c) [2; 4; 6; 2;   0; 0; 3; 9]%Q 0%Q) with
  | Some R' => map (fun i => map (fun c => Qred (R' i c)) (seq 0 4)) (seq 0 2) = [[1; 2; 0; -8]; [0; 0; 1; 3]]%Q
  | None => False end.
Proof.
  split; [|split].
  - split; [|split].
    + intros i Hi. destruct i as [|[|i]]; [| |lia]; cbn; (split; [lia|lra]).
    + intros i i' H. lia.
    + intros i c Hi Hc. destruct i as [|[|i]]; [lia| |lia]. destruct c as [|[|c]]; [reflexivity|reflexivity|lia].
  - exists (fun c => nth c [8; 0; -3; 1] 0). split; [|cbn; lra]. intros i Hi. unfold rowTimes. destruct i as [|[|i]]; [| |lia]; cbn; lra.
  - vm_compute. reflexivity.
Qed.

(** C83: [rref] on m equations in the unknowns v_0, ..., v_(n-2) (v_(n-1) = 1 carries the constants).  The answer has unit columns on the left,
    the recorded order Pc of the columns is a permutation that leaves the constants in place, every solution of the system solves the
    rows returned, and unless the system has no solution at all the rows returned have no other solutions. *)
Theorem C83_same_solutions :
  forall m n (A : nat -> nat -> R) r M Pc, (1 <= n)%nat -> rref true m n A = Reduced r M Pc ->
    (r <= m)%nat /\ (r <= n - 1)%nat /\ Permutation Pc (seq 0 n) /\ nth (n - 1) Pc 0%nat = (n - 1)%nat /\
    (forall i c, (i < r)%nat -> (c < r)%nat -> M i c = if (i =? c)%nat then 1 else 0) /\
    (forall v, inKernel m n A v -> inKernel r n M (fun c => v (nth c Pc 0%nat))) /\
    ((forall v, v (n - 1)%nat = 1 -> inKernel r n M (fun c => v (nth c Pc 0%nat)) -> inKernel m n A v) \/
     (forall v, v (n - 1)%nat = 1 -> ~ inKernel m n A v)).
Proof.
  intros m n A r M Pc Hn H. unfold rref in H. pose proof (rrefLoop_spec m n A m 0 A (seq 0 n) eq_refl (rrefInv_start m n A Hn)) as G. rewrite H in G.
  destruct G as (Lr & (U & P & La & K) & Z & Lc). cbn [Nat.max] in Lc.
  split; auto. split; auto. split; auto. split; auto. split; [intros i c Hi Hc; apply U; lia|].
  split; [intros v Hv; apply K in Hv; intros i Hi; apply Hv; lia|].
  destruct (Nat.eq_dec r m) as [->|N].
  - left. intros v _ Hv. apply K. auto.
  - destruct (Z ltac:(lia)) as [Ln Zr].
    assert (Row : forall v i, v (n - 1)%nat = 1 -> (r <= i < m)%nat -> rowTimes n (M i) (fun c => v (nth c Pc 0%nat)) = M i (n - 1)%nat).
    { intros v i Hv Hi. unfold rowTimes. rewrite (sumn_single n (n - 1)); [rewrite La, Hv; ring|lia|]. intros c Hc Nc.
      destruct (lt_dec c r); [rewrite U by lia; destruct (Nat.eqb_spec i c); [lia|ring]|]. rewrite Zr by lia. ring. }
    destruct (existsb (fun i => negb (Reqb (M i (n - 1)%nat) 0)) (seq r (m - r))) eqn:E.
    + right. intros v Hv Hk. apply existsb_exists in E. destruct E as [i [Ii Ei]]. apply in_seq in Ii. destruct (Reqb (M i (n - 1)%nat) 0) eqn:B; [discriminate|].
      apply Reqb_false in B. apply B. rewrite <- (Row v i) by (auto; lia). apply K; auto. lia.
    + left. intros v Hv Hk. apply K. intros i Hi. destruct (lt_dec i r) as [G|G]; [apply Hk; auto|]. rewrite Row by (auto; lia).
      destruct (Reqb (M i (n - 1)%nat) 0) eqn:B; [apply Reqb_true; auto|].
      assert (X : existsb (fun i => negb (Reqb (M i (n - 1)%nat) 0)) (seq r (m - r)) = true); [|congruence].
      apply existsb_exists. exists i. split; [apply in_seq; lia|]. rewrite B. auto.
Qed.
Print Assumptions C83_same_solutions.

(** an assignment of the permuted columns comes from an assignment of the columns *)
Lemma unpermute n Pc (u : nat -> R) : Permutation Pc (seq 0 n) -> exists v, forall c, (c < n)%nat -> v (nth c Pc 0%nat) = u c.
Proof.
  intros P. exists (fun a => u (nth a (inverse_P Pc) 0%nat)). intros c Hc. pose proof (Permutation_length P) as L. rewrite seq_length in L.
  f_equal. apply inverse_P_spec; [|intros d Hd|lia].
  - apply (Permutation_NoDup (l := seq 0 n)); [apply Permutation_sym; auto|apply seq_NoDup].
  - apply (Permutation_in _ P) in Hd. apply in_seq in Hd. lia.
Qed.

(** C83 does not hold of systems without a solution: whatever the system, the rows returned can be solved, so "no solution" is never visible. *)
Theorem C83_inconsistency_hidden_refuted :
  forall m n (A : nat -> nat -> R) r M Pc, (1 <= n)%nat -> rref true m n A = Reduced r M Pc ->
    exists v, v (n - 1)%nat = 1 /\ inKernel r n M (fun c => v (nth c Pc 0%nat)).
Proof.
  intros m n A r M Pc Hn H. destruct (C83_same_solutions m n A r M Pc Hn H) as (Lr & Lc & P & La & U & _).
  destruct (unpermute n Pc (fun c => if (c <? r)%nat then - M c (n - 1)%nat else if (c =? n - 1)%nat then 1 else 0) P) as [v Hv].
  exists v. assert (V1 : v (n - 1)%nat = 1).
  { rewrite <- La at 1. rewrite Hv by lia. destruct (Nat.ltb_spec (n - 1) r); [lia|]. rewrite Nat.eqb_refl. auto. }
  split; auto. intros i Hi. unfold rowTimes. rewrite (sumn_ext n _ (fun c => (if Nat.eqb c i then - M i (n - 1)%nat else 0) + (if Nat.eqb c (n - 1) then M i (n - 1)%nat else 0))).
  - rewrite sumn_plus. rewrite (sumn_single n i (fun c => if (c =? i)%nat then _ else 0)); [|lia|intros k Hk Nk; destruct (Nat.eqb_spec k i); congruence].
    rewrite (sumn_single n (n - 1) (fun c => if (c =? n - 1)%nat then _ else 0)); [|lia|intros k Hk Nk; destruct (Nat.eqb_spec k (n - 1)); congruence].
    rewrite !Nat.eqb_refl. ring.
  - intros c Hc. rewrite Hv by auto. destruct (Nat.ltb_spec c r) as [G|G].
    + rewrite U by auto. destruct (Nat.eqb_spec c (n - 1)); [lia|]. destruct (Nat.eqb_spec i c), (Nat.eqb_spec c i); subst; try lia; ring.
    + destruct (Nat.eqb_spec c i); [lia|]. destruct (Nat.eqb_spec c (n - 1)); subst; ring.
Qed.
Print Assumptions C83_inconsistency_hidden_refuted.

(** C83 does not hold of more equations than unknowns: if they determine a single point, rref raises ValueError (the maximum of an empty block). *)
Theorem C83_overdetermined_refuted :
  forall m n (A : nat -> nat -> R), (1 <= n <= m)%nat ->
    (exists v, v (n - 1)%nat = 1 /\ inKernel m n A v /\
       forall w, w (n - 1)%nat = 1 -> inKernel m n A w -> forall c, (c < n)%nat -> w c = v c) ->
    rref true m n A = ValueError.
Proof.
  intros m n A Hn (v & Hv & Kv & Uq). destruct (rref true m n A) as [r M Pc| |] eqn:E; auto; exfalso.
  2:{ unfold rref in E. pose proof (rrefLoop_spec m n A m 0 A (seq 0 n) eq_refl (rrefInv_start m n A ltac:(lia))) as G. rewrite E in G. exact G. }
  destruct (C83_same_solutions m n A r M Pc ltac:(lia) E) as (Lr & Lc & P & La & U & Fw & Bw).
  assert (Ln : (r < n - 1)%nat).
  { unfold rref in E. pose proof (rrefLoop_spec m n A m 0 A (seq 0 n) eq_refl (rrefInv_start m n A ltac:(lia))) as G. rewrite E in G. destruct G as (_ & _ & Z & _). apply Z. lia. }
  destruct Bw as [Bw|Bw]; [|apply (Bw v); auto].
  destruct (unpermute n Pc (fun c => v (nth c Pc 0%nat) + (if (c <? r)%nat then - M c r else if (c =? r)%nat then 1 else 0)) P) as [w Hw].
  assert (W1 : w (n - 1)%nat = 1).
  { rewrite <- La at 1. rewrite Hw by lia. rewrite La, Hv. destruct (Nat.ltb_spec (n - 1) r), (Nat.eqb_spec (n - 1) r); try lia. ring. }
  assert (Kw : inKernel m n A w).
  { apply Bw; auto. intros i Hi. unfold rowTimes.
    rewrite (sumn_ext n _ (fun c => M i c * v (nth c Pc 0%nat) + ((if Nat.eqb c i then - M i r else 0) + (if Nat.eqb c r then M i r else 0)))).
    - rewrite !sumn_plus. specialize (Fw v Kv i Hi). unfold rowTimes in Fw. rewrite Fw.
      rewrite (sumn_single n i (fun c => if (c =? i)%nat then _ else 0)); [|lia|intros k Hk Nk; destruct (Nat.eqb_spec k i); congruence].
      rewrite (sumn_single n r (fun c => if (c =? r)%nat then _ else 0)); [|lia|intros k Hk Nk; destruct (Nat.eqb_spec k r); congruence].
      rewrite !Nat.eqb_refl. ring.
    - intros c Hc. rewrite Hw by auto. destruct (Nat.ltb_spec c r) as [G|G].
      + rewrite U by auto. destruct (Nat.eqb_spec c r); [lia|]. destruct (Nat.eqb_spec i c), (Nat.eqb_spec c i); subst; try lia; ring.
      + destruct (Nat.eqb_spec c i); [lia|]. destruct (Nat.eqb_spec c r); subst; ring. }
  assert (Bd : (nth r Pc 0 < n)%nat).
  { pose proof (Permutation_length P) as L. rewrite seq_length in L. assert (I : In (nth r Pc 0%nat) Pc) by (apply nth_In; lia). apply (Permutation_in _ P) in I. apply in_seq in I. lia. }
  specialize (Uq w W1 Kw (nth r Pc 0%nat) Bd). rewrite Hw in Uq by lia. rewrite Nat.ltb_irrefl, Nat.eqb_refl in Uq. lra.
Qed.
Print Assumptions C83_overdetermined_refuted.

(** C83, with the numpy of requirements.txt (1.24.3): np.float is gone, every call raises AttributeError. *)
Theorem C83_new_numpy_refuted : forall m n (A : nat -> nat -> R), rref false m n A = AttributeError.
Proof. reflexivity. Qed.
Print Assumptions C83_new_numpy_refuted.

(** C83 for polynomials: nullspace hands rref one row per linear polynomial, so the rows returned describe the common zeros. *)
Theorem C83_nullspace :
  forall n polys version, polys <> [] -> (forall t, In t polys -> ndim t = n /\ Forall (fun k => (2 <= k)%nat) (shp t) /\ isLinear t) ->
    exists A, nullspace version polys = Some (rref version (length polys) (n + 1) A) /\
      forall x, length x = n -> (commonZero n polys x <-> inKernel (length polys) (n + 1) A (fun c => if (c <? n)%nat then nth c x 0 else 1)).
Proof.
  intros n polys version Hne Hp. unfold nullspace. replace (match polys with [] => 0%nat | c :: _ => ndim c end) with n.
  2:{ destruct polys as [|t l] eqn:E; [congruence|]. symmetry. apply (Hp t). left; auto. }
  set (rowOf := fun t : tensor R => map (coefOf n t) (seq 0 n) ++ [constOf n t]).
  rewrite (optAll_map _ rowOf).
  2:{ intros t Ht. destruct (Hp t Ht) as (D & F & L). unfold nullspaceRow, rowOf.
      assert (G : forall (a : list (option R)) b (c : option R) d, optAll a = Some b -> c = Some d -> optAll (a ++ [c]) = Some (b ++ [d])).
      { induction a as [|[z|] a IH]; intros b c d H1 H2; cbn in *; [injection H1 as <-; rewrite H2; auto| |discriminate].
        destruct (optAll a) eqn:E; [|discriminate]. injection H1 as <-. rewrite (IH l c d eq_refl H2). auto. }
      apply G.
      - apply optAll_map. intros c Hc. apply item_ok. rewrite <- D. apply unit_inrange. auto.
      - apply item_ok. rewrite <- D. apply zero_inrange. auto. }
  eexists. split; [reflexivity|]. set (A := fun i c => _). intros x Lx.
  assert (Row : forall i, (i < length polys)%nat -> rowTimes (n + 1) (A i) (fun c => if (c <? n)%nat then nth c x 0 else 1) = cheb_eval (nth i polys (mkT [] [])) x).
  { intros i Hi. destruct (Hp (nth i polys (mkT [] []))) as (D & F & L); [apply nth_In; auto|]. rewrite cheb_linear by (auto; lia). rewrite D.
    assert (EA : A i = fun c => nth c (rowOf (nth i polys (mkT [] []))) 0).
    { unfold A. rewrite (nth_indep _ [] (rowOf (mkT [] []))) by (rewrite map_length; auto). rewrite map_nth. reflexivity. }
    rewrite EA. unfold rowTimes. rewrite sumn_split. cbn [sumn]. rewrite Nat.add_0_r, Nat.ltb_irrefl. unfold rowOf.
    rewrite app_nth2 by (rewrite map_length, seq_length; lia). rewrite map_length, seq_length, Nat.sub_diag. cbn [nth].
    rewrite (sumn_ext n _ (fun d => tget (nth i polys (mkT [] [])) (unitIdx n d) * nth d x 0)).
    - unfold constOf. ring.
    - intros c Hc. destruct (Nat.ltb_spec c n); [|lia]. f_equal. rewrite app_nth1 by (rewrite map_length, seq_length; auto).
      rewrite (nth_indep _ 0 (coefOf n (nth i polys (mkT [] [])) 0)) by (rewrite map_length, seq_length; auto). rewrite map_nth, seq_nth by auto. reflexivity. }
  split.
  - intros [_ H] i Hi. rewrite Row by auto. apply H, nth_In. auto.
  - intros H. split; auto. intros t Ht. destruct (In_nth polys t (mkT [] []) Ht) as [i [Hi <-]]. rewrite <- Row by auto. apply H. auto.
Qed.
Print Assumptions C83_nullspace.

(** x + y = 1, x + y = 2 has no solution; rref keeps one of the two equations.  x = 1, y = 2, x + y = 3 raises ValueError. *)
Example C83_case :
  match @rref Q Q_num true 2 3 (fun i c => nth (i * 3 + c) [1; 1; -1;  1; 1; -2]%Q 0%Q) with
  | Reduced r M Pc => r = 1%nat /\ map (fun c => Qred (M 0%nat c)) (seq 0 3) = [1; 1; -1]%Q /\ Pc = [0; 1; 2]%nat
  | _ => False end /\
  (forall v : nat -> R, v 2%nat = 1 -> ~ inKernel 2 3 (fun i c => nth (i * 3 + c) [1; 1; -1;  1; 1; -2] 0) v) /\
  rref true 3 3 (fun i c => nth (i * 3 + c) [1; 0; -1;  0; 1; -2;  1; 1; -3] 0) = ValueError.
Proof.
  split; [|split].
  - vm_compute. repeat split; reflexivity.
  - intros v Hv K. pose proof (K 0%nat ltac:(lia)) as A. pose proof (K 1%nat ltac:(lia)) as B. unfold rowTimes in *. cbn in A, B. rewrite Hv in *. lra.
  - apply C83_overdetermined_refuted; [lia|]. exists (fun c => nth c [1; 2; 1] 0). split; [reflexivity|]. split.
    + intros i Hi. unfold rowTimes. destruct i as [|[|[|i]]]; try lia; cbn; lra.
    + intros w Hw K c Hc. pose proof (K 0%nat ltac:(lia)) as A. pose proof (K 1%nat ltac:(lia)) as B. unfold rowTimes in *. cbn in A, B. cbn in Hw. rewrite Hw in *.
      destruct c as [|[|[|c]]]; try lia; cbn; lra.
Qed.
