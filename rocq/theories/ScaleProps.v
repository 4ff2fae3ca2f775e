(** * Property C116: the units of the equations do not matter *)
From Coq Require Import List Arith Bool Lia ZArith Reals Lra.
From Flocq Require Import Core.
From Verif Require Import Num Tensor PolySpec SystemSpec IntervalModel SolverModel ExtExample SolverProps ExtProps AffineProps ScaleTransform ScaleProofs ScaleSolve.
From Coq Require Import List.
Import ListNotations.
Local Open Scope R_scope.

(** every coefficient of the polynomial multiplied by 2^k (k may be negative) *)
Definition times2 (k : Z) (M : tensor R) : tensor R := mkT (shp M) (map (fun c => powerRZ 2 k * c) (dat M)).
(** the i-th polynomial and the i-th error multiplied by 2^(k_i) *)
Definition scalePolys (ks : list Z) (Ms : list (tensor R)) : list (tensor R) := map (fun p => times2 (fst p) (snd p)) (combine ks Ms).
Definition scaleErrors (ks : list Z) (errors : list R) : list R := map (fun p => powerRZ 2 (fst p) * snd p) (combine ks errors).

Lemma scalePolys_eq ks : forall Ms, scalePolys ks Ms = sT (map (powerRZ 2) ks) Ms.
Proof. induction ks as [|k ks IH]; intros [|M Ms]; auto. unfold scalePolys, scaleErrors, sT, sE in *. cbn [combine map fst snd]. rewrite IH. reflexivity. Qed.
Lemma scaleErrors_eq ks : forall es, scaleErrors ks es = sE (map (powerRZ 2) ks) es.
Proof. induction ks as [|k ks IH]; intros [|M Ms]; auto. unfold scalePolys, scaleErrors, sT, sE in *. cbn [combine map fst snd]. rewrite IH. reflexivity. Qed.
Lemma powers ks : Forall isPow2 (map (powerRZ 2) ks).
Proof. rewrite Forall_map. apply Forall_forall. intros k _. exists k. rewrite bpow_powerRZ. reflexivity. Qed.

(** solveChebyshevSubdivision: the same outcome, in every respect, for the same equations in other units.
    No bound on the number of variables, the degrees, the coefficients or the recursion; all options. *)
Theorem C116_units_do_not_matter :
  forall (X : ext R) (fuel : nat) (o : opts) (ks : list Z) (Ms : list (tensor R)) (errors : list R),
    externalsOK (length Ms) X -> Forall wf Ms -> length ks = length Ms -> length errors = length Ms ->
    @solveChebyshevSubdivision R R_num X fuel o (scalePolys ks Ms) (scaleErrors ks errors) =
    @solveChebyshevSubdivision R R_num X fuel o Ms errors.
Proof.
  intros X fuel o ks Ms es HX HW Lk Le. rewrite scalePolys_eq, scaleErrors_eq. set (ls := map (powerRZ 2) ks). assert (Ll : length ls = length Ms) by (unfold ls; rewrite map_length; auto).
  pose proof (powers ks) as Hp. fold ls in Hp. clearbody ls. unfold solveChebyshevSubdivision. rewrite sT_length, sE_length by congruence.
  assert (E : existsb (fun M : tensor R => negb (ndim M =? length Ms)%nat) (sT ls Ms) = existsb (fun M => negb (ndim M =? length Ms)%nat) Ms).
  { set (m := length Ms) at 1 2. clearbody m. clear -Ll. revert Ms Ll. induction ls as [|l ls IH]; intros [|M Ms] L; try discriminate; auto. cbn [sT combine map existsb fst snd]. f_equal. apply IH. cbn in L. lia. }
  rewrite E. destruct (existsb _ Ms) eqn:Ex; auto. destruct (negb _); auto.
  destruct Ms as [|M0 Ms]; [destruct ls; [reflexivity|discriminate]|]. destruct ls as [|l ls]; [discriminate|].
  assert (G : good (length (M0 :: Ms)) (M0 :: Ms) es).
  { split; [auto|]. split; [auto|]. apply Forall_forall. intros M HM. rewrite Forall_forall in HW. split; [auto|].
    destruct (Nat.eqb_spec (ndim M) (length (M0 :: Ms))) as [|N]; auto. exfalso. apply not_true_iff_false in Ex. apply Ex. apply existsb_exists. exists M. split; auto. apply negb_true_iff, Nat.eqb_neq. auto. }
  pose proof (solvePoly_sc X (length (M0 :: Ms)) (l :: ls) ltac:(cbn; lia) HX Hp Ll o fuel 0 (M0 :: Ms) (newInterval (repeat (- n1, n1)%num (ndim M0))) es G) as H.
  change (sT (l :: ls) (M0 :: Ms)) with (tscale l M0 :: sT ls Ms) in *. cbv iota. change (ndim (tscale l M0)) with (ndim M0). rewrite H. reflexivity.
Qed.
Print Assumptions C116_units_do_not_matter.

(** a system of two equations, x y - 1/2 and x^2 - y, the first in units 8 times smaller and the second in units 1024
    times larger, meets the hypotheses; and the theorem carries the known answer of x - 1/4 (C114) over to 4096 x - 1024 *)
Example C116_example :
  (let Ms := [mkT [2; 2]%nat [-1/2; 0; 0; 1]; mkT [3; 2]%nat [1/2; -1; 0; 0; 1/2; 0]] in
   exists X, externalsOK (length Ms) X /\ Forall wf Ms /\
     nth 0 (scalePolys [3; -10]%Z Ms) (mkT [] []) = mkT [2; 2]%nat [-4; 0; 0; 8] /\ nth 1 (scaleErrors [3; -10]%Z [1; 1]) 0 = / 1024) /\
  exists fuel t root, @solveChebyshevSubdivision R R_num (@ext1 R R_num) fuel (defaultOpts false true true false) [mkT [2]%nat [-1024; 4096]] [4096 * / 4503599627370496] = Ok (mkSol [[root]] [t] false false) /\
    Rabs (root - 1 / 4) <= / 100000000000000000000000000000000.
Proof.
  assert (P3 : powerRZ 2 3 = 8) by (change (2 ^ 3 = 8); ring). assert (P10 : powerRZ 2 (-10) = / 1024) by (change (/ 2 ^ 10 = / 1024); f_equal; ring). assert (P12 : powerRZ 2 12 = 4096) by (change (2 ^ 12 = 4096); ring). split.
  - cbv zeta. destruct C01_externals_exist as [X HX]. exists X. split; [apply HX|]. split; [repeat constructor; cbn; lia|]. unfold scalePolys, scaleErrors, times2. cbn [combine map nth fst snd shp dat]. rewrite P3, P10. split; [repeat f_equal; lra|lra].
  - destruct (C114_solver_finds_the_zero (@ext1 R R_num) (defaultOpts false true true false) (-1 / 4) 1 (/ 4503599627370496)) as [f HF]; try lra; try (cbn; lia); try apply ext1_ok.
    { rewrite (Rabs_left (-1 / 4)), Rabs_pos_eq by lra. lra. }
    destruct (HF f (le_n f)) as (t & root & lo & hi & E & _ & _ & _ & _ & Hr). exists f, t, root. specialize (Hr eq_refl). split; [|replace (1 / 4) with (- (-1 / 4) / 1) by lra; exact Hr].
    rewrite <- E, <- (C116_units_do_not_matter (@ext1 R R_num) f (defaultOpts false true true false) [12%Z] [affine1 (-1 / 4) 1] [/ 4503599627370496]); auto; [|apply ext1_ok|repeat constructor; cbn; lia].
    f_equal; unfold scalePolys, scaleErrors, times2, affine1; cbn [combine map fst snd shp dat]; rewrite P12; repeat f_equal; lra.
Qed.
