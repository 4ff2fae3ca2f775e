(** * Property theorems C05, C06, C07, C08, C46, C55: the quadratic checks *)
From Coq Require Import List Arith Bool ZArith QArith Qreals Reals Lra Lia Sorted.
From Verif Require Import Num RSum Cheb Tensor PolySpec Transfer QuadModel QuadDescent QuadProofs Quad3Proofs QuadNdProofs QuadNdFaces QuadTransfer GaussExample.
Import ListNotations.
Local Open Scope R_scope.

(** [sym_solver_ok] (QuadNdFaces) is all that is asked of the rank test and the linear solver;
    [gauss_ok] (GaussExample) shows that it can be met in every dimension. *)

(** ** C05 *)
Theorem C05_quadratic_check_2D_sound :
  forall (rank_full : list (list R) -> bool) (solve : list (list R) -> list R -> list R)
         (M : tensor R) (tol : R) (g : list R -> R),
    wf M -> ndim M = 2%nat ->
    @quadratic_check R R_num rank_full solve M tol false = true ->
    (forall x, in_cube 2 x -> Rabs (g x - cheb_eval M x) < tol) ->
    forall x, in_cube 2 x -> g x <> 0.
Proof.
  intros rk sv M tol g Hwf Hd Hq. unfold quadratic_check in Hq. rewrite Hd in Hq. exact (proj2 (quad2_sound M tol g Hwf Hq)).
Qed.
Print Assumptions C05_quadratic_check_2D_sound.

(** ** C06 *)
Theorem C06_quadratic_check_3D_sound :
  forall (rank_full : list (list R) -> bool) (solve : list (list R) -> list R -> list R)
         (M : tensor R) (tol : R) (g : list R -> R),
    wf M -> ndim M = 3%nat ->
    @quadratic_check R R_num rank_full solve M tol false = true ->
    (forall x, in_cube 3 x -> Rabs (g x - cheb_eval M x) < tol) ->
    forall x, in_cube 3 x -> g x <> 0.
Proof.
  intros rk sv M tol g Hwf Hd Hq. unfold quadratic_check in Hq. rewrite Hd in Hq. exact (proj2 (quad3_sound M tol g Hwf Hq)).
Qed.
Print Assumptions C06_quadratic_check_3D_sound.

(** ** C07 *)
(** every dimension, whichever version is selected *)
Theorem C07_quadratic_check_nd_sound :
  forall (rank_full : list (list R) -> bool) (solve : list (list R) -> list R -> list R)
         (M : tensor R) (tol : R) (nd_check : bool) (g : list R -> R),
    sym_solver_ok (ndim M) rank_full solve -> wf M ->
    @quadratic_check R R_num rank_full solve M tol nd_check = true ->
    (forall x, in_cube (ndim M) x -> Rabs (g x - cheb_eval M x) < tol) ->
    forall x, in_cube (ndim M) x -> g x <> 0.
Proof.
  intros rk sv M tol nd g Hor Hwf Hq. unfold quadratic_check in Hq.
  destruct ((ndim M =? 2)%nat && negb nd) eqn:E2; [|destruct ((ndim M =? 3)%nat && negb nd) eqn:E3].
  - apply andb_true_iff in E2. destruct E2 as [E2 _]. apply Nat.eqb_eq in E2. rewrite E2. exact (proj2 (quad2_sound M tol g Hwf Hq)).
  - apply andb_true_iff in E3. destruct E3 as [E3 _]. apply Nat.eqb_eq in E3. rewrite E3. exact (proj2 (quad3_sound M tol g Hwf Hq)).
  - exact (quadN_sound M rk sv Hor tol g Hwf Hq).
Qed.
Print Assumptions C07_quadratic_check_nd_sound.

(** ** The hypotheses are met *)
(** In each case the sum of the absolute values of the other coefficients exceeds the constant
    term, so the constant check does not apply.
    2-D: 5/2 + 1/16 T_3(y) + 1/2 x y + 2 T_2(x) + 1/4 y *)
Definition ex2 : tensor Q := mkT [3;4]%nat [5#2; 1#4; 0#1; 1#16;  0#1; 1#2; 0#1; 0#1;  2#1; 0#1; 0#1; 0#1].
(** 3-D: 4 + T_2(z) + 1/4 y + 1/4 x z + 1/2 x y + 5/2 T_2(x) + 1/8 T_2(x) y *)
Definition ex3 : tensor Q := mkT [3;2;3]%nat
  [4#1; 0#1; 1#1;  1#4; 0#1; 0#1;   0#1; 1#4; 0#1;  1#2; 0#1; 0#1;   5#2; 0#1; 0#1; 1#8; 0#1; 0#1].
(** 4-D: 13/4 + T_2(y) + 2 T_2(x) + 1/8 T_2(x) T_2(y) + 1/2 x y *)
Definition ex4 : tensor Q := mkT [3;3;1;1]%nat [13#4; 0#1; 1#1;  0#1; 1#2; 0#1;   2#1; 0#1; 1#8].
Notation Qcheck := (@quadratic_check Q Q_num (@gauss_rank Q Q_num) (@gauss_solve Q Q_num)) (only parsing).
Notation Rcheck := (@quadratic_check R R_num (@gauss_rank R R_num) (@gauss_solve R R_num)) (only parsing).
Lemma check_Q (M : tensor Q) tol nd : Rcheck (tmap Q2R M) (Q2R tol) nd = Qcheck M tol nd.
Proof. symmetry. apply (h_quadratic_check (NA := Q_num) (h := Q2R)); intros; [apply (h_gauss_rank (NA := Q_num) (h := Q2R))|apply (h_gauss_solve (NA := Q_num) (h := Q2R))]. Qed.
Example C05_case : wf (tmap Q2R ex2) /\ ndim (tmap Q2R ex2) = 2%nat /\ Rcheck (tmap Q2R ex2) (Q2R (1#100)) false = true.
Proof. split; [split; [reflexivity|repeat constructor]|]. split; [reflexivity|]. rewrite check_Q. vm_compute. reflexivity. Qed.
Example C06_case : wf (tmap Q2R ex3) /\ ndim (tmap Q2R ex3) = 3%nat /\ Rcheck (tmap Q2R ex3) (Q2R (1#100)) false = true.
Proof. split; [split; [reflexivity|repeat constructor]|]. split; [reflexivity|]. rewrite check_Q. vm_compute. reflexivity. Qed.
Example C07_case : sym_solver_ok (ndim (tmap Q2R ex4)) (@gauss_rank R R_num) (@gauss_solve R R_num) /\ wf (tmap Q2R ex4) /\
  ndim (tmap Q2R ex4) = 4%nat /\ Rcheck (tmap Q2R ex4) (Q2R (1#100)) false = true.
Proof. split; [apply gauss_ok|]. split; [split; [reflexivity|repeat constructor]|]. split; [reflexivity|]. rewrite check_Q. vm_compute. reflexivity. Qed.
(** ... and it does not always say yes *)
Example C05_case_no : Rcheck (tmap Q2R ex2) (Q2R (1#2)) false = false.
Proof. rewrite check_Q. vm_compute. reflexivity. Qed.

(** ** C08 *)
(** With a non-strict bound the statement is false: 1 - T_3(x) has the root x = 1, and the check with
    tol = 0 (a correct bound for g = p) reports that there is none. *)
Theorem C08_nonstrict_tolerance_refuted :
  exists (M : tensor R) (tol : R) (g : list R -> R),
    wf M /\ ndim M = 2%nat /\
    (forall x, in_cube 2 x -> Rabs (g x - cheb_eval M x) <= tol) /\
    (exists x, in_cube 2 x /\ g x = 0) /\
    forall rank_full solve, @quadratic_check R R_num rank_full solve M tol false = true.
Proof.
  exists (tmap Q2R (mkT [4;1]%nat [1#1; 0#1; 0#1; -1#1])), (Q2R (0#1)), (cheb_eval (tmap Q2R (mkT [4;1]%nat [1#1; 0#1; 0#1; -1#1]))).
  split; [split; [reflexivity|repeat constructor]|]. split; [reflexivity|]. split; [|split].
  - intros x _. rewrite Rminus_diag_eq by reflexivity. rewrite Rabs_R0. unfold Q2R. simpl. lra.
  - exists [1; 0]. split; [split; [reflexivity|repeat constructor; lra]|].
    unfold cheb_eval, tget, tmap. cbn [shp dat map indices flat_map seq app Rsum fold_right basis ravel_index prodn fold_right Nat.mul Nat.add nth].
    rewrite ?chebT_0, ?chebT_1, ?chebT_2. rewrite (chebT_SS 1 1), chebT_2, chebT_1. unfold Q2R. cbn [Qnum Qden n0 R_num]. lra.
  - intros rk sv. unfold quadratic_check. cbn [ndim shp tmap length Nat.eqb andb negb].
    rewrite <- (h_quad2 (NA := Q_num) (h := Q2R)). vm_compute. reflexivity.
Qed.
Print Assumptions C08_nonstrict_tolerance_refuted.

(** ** C46 *)
Theorem C46_fixed_vars_enumerates_faces :
  forall dim : nat,
    (* every listed set is a strictly increasing list of variables, not empty and not all of them ... *)
    (forall c, In c (get_fixed_vars dim) <->
       StronglySorted lt c /\ Forall (fun i => (i < dim)%nat) c /\ (0 < length c < dim)%nat) /\
    (* ... no set is listed twice ... *)
    NoDup (get_fixed_vars dim) /\
    (* ... and larger sets come first. *)
    StronglySorted (fun c d => (length d <= length c)%nat) (get_fixed_vars dim).
Proof. intros dim. split; [exact (in_fixed dim)|]. split; [exact (NoDup_fixed dim)|exact (sorted_fixed dim)]. Qed.
Print Assumptions C46_fixed_vars_enumerates_faces.
Example C46_case : get_fixed_vars 3 = [[0;1];[0;2];[1;2];[0];[1];[2]]%nat.
Proof. reflexivity. Qed.

(** ** C55 *)
(** numpy's matrix_rank(A, hermitian=True) for a diagonal matrix: the number of diagonal entries
    whose absolute value exceeds max|d| * size * 2^-52.  On other matrices: whatever [other] says. *)
Section Numpy.
  Context {T : Type} {NT : Num T}.
  Definition diagonalb (A : list (list T)) : bool :=
    forallb (fun i => forallb (fun j => (i =? j)%nat || neqb (mij A i j) n0) (seq 0 (length A))) (seq 0 (length A)).
  Definition diagOf (A : list (list T)) : list T := map (fun i => mij A i i) (seq 0 (length A)).
  Definition numpyRankFull (other : list (list T) -> bool) (A : list (list T)) : bool :=
    if diagonalb A then
      let m := fold_left nmax (map nabs (diagOf A)) n0 in
      forallb (fun d => ngtb (nabs d) (nmul (nmul m (nofnat (length A))) (nlit 1 4503599627370496))) (diagOf A)
    else other A.
End Numpy.
Section NH.
  Context {A B} {NA : Num A} {NB : Num B} {h : A -> B} {H : NumHom NA NB h}.
  Lemma h_numpyRank (o : list (list A) -> bool) o' L : (forall L, o L = o' (map (map h) L)) -> numpyRankFull o L = numpyRankFull o' (map (map h) L).
  Proof.
    intros Eo. unfold numpyRankFull.
    assert (Ed : diagonalb L = diagonalb (map (map h) L)).
    { unfold diagonalb. rewrite map_length. generalize (seq 0 (length L)) at 2 4. intros lo. induction lo as [|a l IH]; auto. cbn [forallb]. rewrite IH. f_equal.
      generalize (seq 0 (length L)). intros l'. induction l' as [|b l' IH']; auto. cbn [forallb]. rewrite IH', (h_eqb (h:=h)), h_mij, (h_0 (h:=h)). reflexivity. }
    rewrite <- Ed. destruct (diagonalb L); [|apply Eo].
    assert (EL : map h (diagOf L) = diagOf (map (map h) L)) by (unfold diagOf; rewrite map_length, map_map; apply map_ext; intros; apply h_mij).
    assert (EM : h (fold_left nmax (map nabs (diagOf L)) n0) = fold_left nmax (map nabs (diagOf (map (map h) L))) n0).
    { rewrite <- EL, <- (h_0 (h:=h)). clear EL. generalize (@n0 A NA). induction (diagOf L) as [|d l IH]; intros z; auto. cbn [map fold_left]. rewrite IH. f_equal. homs h. reflexivity. }
    cbv zeta. rewrite <- EM, <- EL, map_length. generalize (fold_left nmax (map nabs (diagOf L)) n0). intros mm. clear EM EL.
    induction (diagOf L) as [|d l IH]; auto. cbn [map forallb]. rewrite IH, (h_gtb (h:=h)). homs h. reflexivity.
  Qed.
End NH.
(** 4-D polynomial 1 + 2^-51 + T_2(x0) + 2^-51 T_2(x1), tol = 2^-50.  It is 0 at the origin.  The exact
    checks of C07 keep it; with numpy's rank threshold the candidate inside the box is skipped and the box
    is discarded. *)
Definition thr4 : tensor Q := mkT [3;3;1;1]%nat
  [2251799813685249#2251799813685248; 0#1; 1#2251799813685248;  0#1; 0#1; 0#1;   1#1; 0#1; 0#1].
Theorem C55_rank_threshold_unsound_refuted :
  exists (M : tensor R) (tol : R),
    wf M /\ ndim M = 4%nat /\ 0 < tol /\
    (exists x, in_cube 4 x /\ cheb_eval M x = 0) /\
    @quadratic_check R R_num (numpyRankFull (@gauss_rank R R_num)) (@gauss_solve R R_num) M tol false = true /\
    @quadratic_check R R_num (@gauss_rank R R_num) (@gauss_solve R R_num) M tol false = false.
Proof.
  exists (tmap Q2R thr4), (Q2R (1#1125899906842624)).
  split; [split; [reflexivity|repeat constructor]|]. split; [reflexivity|]. split; [unfold Q2R; cbn [Qnum Qden]; lra|]. split; [|split].
  - exists [0; 0; 0; 0]. split; [split; [reflexivity|repeat constructor; lra]|].
    unfold cheb_eval, tget, tmap, thr4. cbn [shp dat map indices flat_map seq app Rsum fold_right basis ravel_index prodn fold_right Nat.mul Nat.add nth].
    rewrite ?chebT_0, ?chebT_1, ?chebT_2. unfold Q2R. cbn [Qnum Qden n0 R_num]. lra.
  - rewrite <- (h_quadratic_check (NA := Q_num) (h := Q2R) (@numpyRankFull Q Q_num (@gauss_rank Q Q_num)) (@gauss_solve Q Q_num)).
    + vm_compute. reflexivity.
    + intros L. apply (h_numpyRank (NA := Q_num) (h := Q2R)). apply (h_gauss_rank (NA := Q_num) (h := Q2R)).
    + apply (h_gauss_solve (NA := Q_num) (h := Q2R)).
  - rewrite check_Q. vm_compute. reflexivity.
Qed.
Print Assumptions C55_rank_threshold_unsound_refuted.
