(** * Property theorem C18: trimming *)
From Coq Require Import List Arith ZArith QArith Qreals Reals Lra Lia.
From Verif Require Import Num RSum Cheb Tensor PolySpec SystemSpec LinearModel QuadModel SolverModel TrimProofs.
Import ListNotations.
Local Open Scope R_scope.

(** For every polynomial: the new tensor has no longer axes, an axis that got shorter still has at least
    3 entries, the two polynomials differ on [-1,1]^n by at most the growth of the error, and that growth
    is below relApproxTol * error + absApproxTol unless nothing changed at all. *)
Theorem C18_trimming_accounts_for_its_error :
  forall (n : nat) (rel abs : R) (Ms : list (tensor R)) (errors : list R) (Ms' : list (tensor R)) (errors' : list R),
    squareSystem n Ms errors -> @trimMsTol R R_num rel abs Ms errors = (Ms', errors') ->
    squareSystem n Ms' errors' /\
    forall i, (i < n)%nat ->
      let M := nth i Ms noT in let M' := nth i Ms' noT in let e := nth i errors 0 in let e' := nth i errors' 0 in
      (forall d, (nth d (shp M') 0 <= nth d (shp M) 0)%nat) /\
      (forall d, (nth d (shp M') 0 < nth d (shp M) 0)%nat -> (3 <= nth d (shp M') 0)%nat) /\
      (forall x, in_cube n x -> Rabs (cheb_eval M' x - cheb_eval M x) <= e' - e) /\
      ((M' = M /\ e' = e) \/ e' - e < rel * e + abs).
Proof.
  intros n rel abs Ms errors Ms' errors' (Hn & HM & He & HF) E.
  pose proof (trimMs_spec n rel abs Ms errors Hn HM He HF) as S. cbv zeta in S. rewrite E in S. cbn [fst snd] in S. destruct S as (L1 & L2 & S). split.
  - split; auto. split; auto. split; auto. apply Forall_forall. intros M HM'. destruct (In_nth _ _ noT HM') as (i & Hi & <-). rewrite L1 in Hi.
    destruct (S i Hi) as [(W & D & _) _]. split; auto. etransitivity; [exact D|]. rewrite Forall_forall in HF. apply HF. apply nth_In. lia.
  - intros i Hi. cbv zeta. destruct (S i Hi) as [(W & D & A1 & A2 & A3 & A4) B]. change (mkT [] []) with noT in *.
    assert (Dn : ndim (nth i Ms noT) = n) by (rewrite Forall_forall in HF; apply HF; apply nth_In; lia). rewrite Dn in A4.
    split; auto. split; auto. split; auto. destruct B as [B|B]; [left; inversion B; auto|right; lra].
Qed.
Print Assumptions C18_trimming_accounts_for_its_error.

(** a polynomial of degree 4 with two small leading coefficients: both are trimmed *)
Example C18_case : let M := mkT [5%nat] [1; 2; 3; 1 / 10; 1 / 10] in
  squareSystem 1 [M] [1] /\ fst (@trimMsTol R R_num (1 / 2) 0 [M] [1]) = [mkT [3%nat] [1; 2; 3]].
Proof.
  cbv zeta. split; [split; [lia|]; split; auto; split; auto; repeat constructor; cbn; lia|].
  unfold trimMsTol. cbn [ndim nth shp length map combine fst snd]. unfold trimM. cbn [seq fold_left nth shp].
  set (M4 := mkT [4%nat] [1; 2; 3; 1 / 10]). set (M3 := mkT [3%nat] [1; 2; 3]).
  assert (E : forall al e, 1 / 5 < al -> @trimAxis R R_num 5 0 (mkT [5%nat] [1; 2; 3; 1 / 10; 1 / 10]) al e = (M3, al - 1 / 10 - 1 / 10, e + 1 / 10 + 1 / 10)).
  { intros al e Ha. cbn [trimAxis].
    assert (S1 : @nsumabs R R_num (lastSlice (mkT [5%nat] [1; 2; 3; 1 / 10; 1 / 10]) 0) = 1 / 10) by (cbn; rewrite Rabs_pos_eq; lra).
    assert (S2 : @nsumabs R R_num (lastSlice M4 0) = 1 / 10) by (cbn; rewrite Rabs_pos_eq; lra).
    assert (D1 : dropLast (mkT [5%nat] [1; 2; 3; 1 / 10; 1 / 10]) 0 = M4) by reflexivity. assert (D2 : dropLast M4 0 = M3) by reflexivity.
    rewrite S1, D1, S2, D2. rnum.
    assert (R1 : Rltb (1 / 10) al = true) by (apply Rltb_true; lra). assert (R2 : Rltb (1 / 10) (al - 1 / 10) = true) by (apply Rltb_true; lra).
    rewrite R1. cbn [andb Nat.ltb Nat.leb nth shp]. rewrite R2. cbn [andb Nat.ltb Nat.leb nth shp M4 M3]. rewrite Bool.andb_false_r. reflexivity. }
  rnum. rewrite E by lra. reflexivity.
Qed.
