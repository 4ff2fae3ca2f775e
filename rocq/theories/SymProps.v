(** * Property C118: neither the order nor the signs of the equations matter *)
From Coq Require Import List Arith Bool Lia ZArith Permutation Reals Lra.
From Verif Require Import Num Tensor PolySpec SystemSpec LinearProofs OrderProofs IntervalModel SolverModel ExtExample SolverProps ExtProps AffineProps ScaleTransform ScaleProofs ScaleSolve SymProofs SymSolve.
From Coq Require Import List.
Import ListNotations.
Local Open Scope R_scope.

(** the polynomial with every coefficient negated *)
Definition negated (M : tensor R) : tensor R := mkT (shp M) (map Ropp (dat M)).
(** the second system consists of the equations of the first, each as it is or negated, in the same order *)
Definition upToSign (Ms Ms' : list (tensor R)) : Prop := Forall2 (fun M M' => M' = M \/ M' = negated M) Ms Ms'.
(** ... and of the same pairs (polynomial, error), in any order *)
Definition sameEquations (Ms : list (tensor R)) (errors : list R) (Ms' : list (tensor R)) (errors' : list R) : Prop :=
  length errors = length Ms /\ length errors' = length Ms' /\ Permutation (combine Ms errors) (combine Ms' errors').

Lemma tscale_one M : tscale 1 M = M.
Proof. destruct M as [s d]. unfold tscale. cbn [shp dat]. f_equal. rewrite <- (map_id d) at 2. apply map_ext. intros; ring. Qed.
Lemma tscale_neg M : tscale (-1) M = negated M.
Proof. unfold tscale, negated. f_equal. apply map_ext. intros; ring. Qed.

Lemma solver_sym X fuel o P e (Ms : list (tensor R)) errors : externalsOK (length Ms) X -> Forall wf Ms -> length errors = length Ms ->
  Permutation P (seq 0 (length Ms)) -> (forall k, isSign (e k)) ->
  @solveChebyshevSubdivision R R_num X fuel o (yT (length Ms) P e Ms) (yE (length Ms) P errors) = @solveChebyshevSubdivision R R_num X fuel o Ms errors.
Proof.
  intros HX HW Le HP He. unfold solveChebyshevSubdivision. rewrite yT_length, yE_length, Le.
  assert (E : existsb (fun M : tensor R => negb (ndim M =? length Ms)%nat) (yT (length Ms) P e Ms) = existsb (fun M => negb (ndim M =? length Ms)%nat) Ms).
  { apply eq_true_iff_eq. rewrite !existsb_exists. unfold yT. split.
    - intros (M & HM & H). apply in_map_iff in HM. destruct HM as (k & <- & Hk). apply in_seq in Hk. exists (nth (pk P k) Ms noT). split; [apply nth_In, (pk_lt (length Ms) P HP); lia|exact H].
    - intros (M & HM & H). destruct (In_nth _ _ noT HM) as (j & Hj & <-). destruct (pk_onto _ P HP j Hj) as (k & Hk & <-). eexists. split; [apply in_map_iff; exists k; split; [reflexivity|apply in_seq; lia]|exact H]. }
  rewrite E. destruct (existsb _ Ms) eqn:Ex; auto. destruct (negb _); auto.
  assert (HD : Forall (fun M => wf M /\ ndim M = length Ms) Ms).
  { apply Forall_forall. intros M HM. rewrite Forall_forall in HW. split; [auto|]. destruct (Nat.eqb_spec (ndim M) (length Ms)) as [|N]; auto. exfalso. apply not_true_iff_false in Ex. apply Ex. apply existsb_exists. exists M. split; auto. apply negb_true_iff, Nat.eqb_neq. auto. }
  remember (length Ms) as n eqn:Hn. destruct Ms as [|M0 Ms]; [subst n; reflexivity|]. assert (Hp : (0 < n)%nat) by (subst n; cbn; lia).
  assert (G : good n (M0 :: Ms) errors) by (repeat split; auto).
  pose proof (solvePoly_sym X n P e Hp HX HP He o fuel 0 (M0 :: Ms) (newInterval (repeat (- n1, n1)%num n)) errors G) as H.
  pose proof (dim0 n P e Hp HP (M0 :: Ms) errors G) as [D1 D2]. cbn [nth] in D2.
  destruct (yT n P e (M0 :: Ms)) as [|M1 Ms1] eqn:EY; [exfalso; pose proof (yT_length n P e (M0 :: Ms)) as L; rewrite EY in L; cbn in L; lia|]. cbn [nth] in D1. rewrite D1, D2, H. reflexivity.
Qed.

(** solveChebyshevSubdivision: the same outcome, in every respect, when the equations are listed in another order (each with its own error) *)
Theorem C118_order_does_not_matter :
  forall (X : ext R) (fuel : nat) (o : opts) (Ms Ms' : list (tensor R)) (errors errors' : list R),
    externalsOK (length Ms) X -> Forall wf Ms -> sameEquations Ms errors Ms' errors' ->
    @solveChebyshevSubdivision R R_num X fuel o Ms' errors' = @solveChebyshevSubdivision R R_num X fuel o Ms errors.
Proof.
  intros X fuel o Ms Ms' es es' HX HW (L1 & L2 & HPm).
  assert (LM : length Ms' = length Ms) by (apply Permutation_length in HPm; rewrite !combine_length in HPm; lia).
  assert (EC : combine Ms es = map (fun k => (nth k Ms noT, nth k es 0)) (seq 0 (length Ms))).
  { apply (nth_ext _ _ (noT, 0) (noT, 0)); [rewrite combine_length, map_length, seq_length; lia|]. intros i Hi. rewrite combine_length in Hi. rewrite combine_nth, nth_map_seq by lia. reflexivity. }
  rewrite EC in HPm. apply Permutation_sym, Permutation_map_inv in HPm. destruct HPm as (P & E & HP). apply Permutation_sym in HP.
  assert (LP : length P = length Ms) by (rewrite (Permutation_length HP), seq_length; auto).
  rewrite <- (solver_sym X fuel o P (fun _ => 1) Ms es HX HW L1 HP ltac:(intros; left; auto)).
  assert (EP : P = map (pk P) (seq 0 (length Ms))).
  { apply (nth_ext _ _ 0%nat 0%nat); [rewrite map_length, seq_length; auto|]. intros i Hi. rewrite nth_map_seq by lia. reflexivity. }
  assert (Split : forall {A B} (a : list A) (b : list B), length a = length b -> map fst (combine a b) = a /\ map snd (combine a b) = b).
  { clear. intros A B. induction a as [|x a IH]; intros [|y b] L; try discriminate; cbn; auto. destruct (IH b ltac:(cbn in L; lia)) as [-> ->]. auto. }
  destruct (Split _ _ Ms' es' ltac:(lia)) as [F1 F2]. rewrite E, map_map in F1, F2. cbn [fst snd] in F1, F2. rewrite EP, map_map in F1, F2.
  f_equal; [rewrite <- F1|rewrite <- F2]; unfold yT, yE; apply map_ext; intros k; rewrite ?tscale_one; reflexivity.
Qed.
Print Assumptions C118_order_does_not_matter.

(** ... and the same outcome when any of the equations are negated: f = 0 and -f = 0 are searched in the same way *)
Theorem C118_signs_do_not_matter :
  forall (X : ext R) (fuel : nat) (o : opts) (Ms Ms' : list (tensor R)) (errors : list R),
    externalsOK (length Ms) X -> Forall wf Ms -> length errors = length Ms -> upToSign Ms Ms' ->
    @solveChebyshevSubdivision R R_num X fuel o Ms' errors = @solveChebyshevSubdivision R R_num X fuel o Ms errors.
Proof.
  intros X fuel o Ms Ms' es HX HW L H.
  assert (S : exists e, (forall k, isSign (e k)) /\ forall k, (k < length Ms)%nat -> nth k Ms' noT = tscale (e k) (nth k Ms noT)).
  { clear -H. unfold upToSign in H. induction H as [|M M' Ms Ms' HM H (e & He & IH)]; [exists (fun _ => 1); split; [intros; left; auto|cbn; lia]|].
    assert (HS : exists s, isSign s /\ M' = tscale s M) by (destruct HM as [-> | ->]; [exists 1|exists (-1)]; rewrite ?tscale_one, ?tscale_neg; split; auto; [left|right]; auto).
    destruct HS as (s & Hs & ->). exists (fun k => match k with O => s | S k => e k end). split; [intros [|k]; auto|]. intros [|k] Hk; cbn [nth]; auto. apply IH. cbn in Hk. lia. }
  destruct S as (e & He & HE). assert (LM : length Ms' = length Ms) by (clear -H; induction H; cbn; auto).
  rewrite <- (solver_sym X fuel o (seq 0 (length Ms)) e Ms es HX HW L (Permutation_refl _) He).
  assert (PK : forall k, (k < length Ms)%nat -> pk (seq 0 (length Ms)) k = k) by (intros k Hk; unfold pk; rewrite seq_nth; lia).
  f_equal.
  - apply (nth_ext _ _ noT noT); [rewrite yT_length; auto|]. intros k Hk. rewrite LM in Hk. unfold yT. rewrite nth_map_seq, PK by auto. auto.
  - apply (nth_ext _ _ 0 0); [rewrite yE_length; auto|]. intros k Hk. rewrite L in Hk. unfold yE. rewrite nth_map_seq, PK by auto. auto.
Qed.
Print Assumptions C118_signs_do_not_matter.

(** the system x y - 1/2, x^2 - y, with errors 1/8 and 1/4, listed the other way round, and with its first equation negated, meets the hypotheses;
    and the theorem carries the known answer of x - 1/4 (C114) over to 1/4 - x *)
Example C118_example :
  (let M1 := mkT [2; 2]%nat [-1/2; 0; 0; 1] in let M2 := mkT [3; 2]%nat [1/2; -1; 0; 0; 1/2; 0] in
   exists X, externalsOK (length [M1; M2]) X /\ Forall wf [M1; M2] /\ sameEquations [M1; M2] [/ 8; / 4] [M2; M1] [/ 4; / 8] /\ upToSign [M1; M2] [mkT [2; 2]%nat [1/2; 0; 0; -1]; M2]) /\
  exists fuel t root, @solveChebyshevSubdivision R R_num (@ext1 R R_num) fuel (defaultOpts false true true false) [mkT [2]%nat [1 / 4; -1]] [/ 4503599627370496] = Ok (mkSol [[root]] [t] false false) /\
    Rabs (root - 1 / 4) <= / 100000000000000000000000000000000.
Proof.
  split.
  - cbv zeta. destruct C01_externals_exist as [X HX]. exists X. split; [apply HX|]. split; [repeat constructor; cbn; lia|]. split.
    + split; [reflexivity|]. split; [reflexivity|]. cbn [combine]. apply perm_swap.
    + constructor; [right|constructor; [left; reflexivity|constructor]]. unfold negated. cbn [shp dat map]. repeat f_equal; lra.
  - destruct (C114_solver_finds_the_zero (@ext1 R R_num) (defaultOpts false true true false) (-1 / 4) 1 (/ 4503599627370496)) as [f HF]; try lra; try (cbn; lia); try apply ext1_ok.
    { rewrite (Rabs_left (-1 / 4)), Rabs_pos_eq by lra. lra. }
    destruct (HF f (le_n f)) as (t & root & lo & hi & E & _ & _ & _ & _ & Hr). exists f, t, root. specialize (Hr eq_refl). split; [|replace (1 / 4) with (- (-1 / 4) / 1) by lra; exact Hr].
    rewrite <- E. apply C118_signs_do_not_matter; [apply ext1_ok|repeat constructor; cbn; lia|reflexivity|].
    constructor; [right|constructor]. unfold negated, affine1. cbn [shp dat map]. repeat f_equal; lra.
Qed.
