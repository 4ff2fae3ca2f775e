(** * newton_polish and getRootSample, continued (C89): a solver for the examples, a cycle, and the sample of zeros *)
From Coq Require Import Reals List Lia Lra Arith ZArith Bool.
From Coquelicot Require Import Coquelicot.
From Coq Require Import List.
From Verif Require Import Num RSum Cheb Tensor PolySpec PolyModel PolyEval LinAlgModel LinAlgSpec LinAlgProofs LinAlgProps NewtonModel NewtonProofs NewtonProps.
Import ListNotations.
Local Open Scope R_scope.

(** ** A linear solver that meets [solverOK]: the one of solve_linear (C81) *)
Definition linT (a : list R) (c : R) : tensor R :=
  tbuild (repeat 2%nat (length a)) (fun idx => if Nat.eqb (list_sum idx) 0 then c else if Nat.eqb (list_sum idx) 1 then sumn (length a) (fun k => INR (nth k idx 0%nat) * nth k a 0) else 0).
Definition exactSolve (A : list (list R)) (b : list R) : option (list R) :=
  match b with
  | [] => Some []
  | _ => match @solve_linear R R_num (map (fun p => linT (fst p) (- snd p)) (combine A b)) with Root x => Some x | _ => None end
  end.
Lemma two_axes n : Forall (fun k => (2 <= k)%nat) (repeat 2%nat n).
Proof. induction n; cbn; constructor; auto. Qed.
Lemma zero_inr n : inrange (repeat 2%nat n) (repeat 0%nat n).
Proof. induction n; cbn; constructor; auto. Qed.
Lemma linT_linear a c : isLinear (linT a c).
Proof.
  intros idx Hi Hs. unfold linT in *. cbn [shp tbuild] in Hi. rewrite tget_tbuild by auto.
  destruct (Nat.eqb_spec (list_sum idx) 0); [lia|]. destruct (Nat.eqb_spec (list_sum idx) 1); [lia|reflexivity].
Qed.
Lemma linT_ndim a c : ndim (linT a c) = length a.
Proof. unfold ndim, linT. cbn [shp tbuild]. apply repeat_length. Qed.
Lemma nth_unit n : forall d k, (d < n)%nat -> nth k (unitIdx n d) 0%nat = if Nat.eqb k d then 1%nat else 0%nat.
Proof.
  unfold unitIdx. induction n; intros [|d] [|k] H; try lia; cbn [repeat upd nth Nat.eqb]; auto.
  - clear. revert k. induction n; intros [|k]; cbn; auto.
  - apply IHn. lia.
Qed.
Lemma linT_value a c x : length x = length a -> cheb_eval (linT a c) x = c + dot a x.
Proof.
  intros Lx. rewrite cheb_linear; [|apply two_axes|apply linT_linear|rewrite linT_ndim; auto]. rewrite linT_ndim.
  rewrite dot_sumn by auto. rewrite Lx. f_equal.
  - unfold linT. rewrite tget_tbuild by apply zero_inr.
    assert (Z : forall n, list_sum (repeat 0%nat n) = 0%nat) by (induction n; auto). rewrite Z. reflexivity.
  - apply sumn_ext. intros d Hd. f_equal. unfold linT.
    rewrite tget_tbuild by (pose proof (unit_inrange _ (two_axes (length a)) d) as X; rewrite repeat_length in X; exact X).
    rewrite lsum_unit by auto. cbn [Nat.eqb].
    rewrite (sumn_ext _ _ (fun k => if Nat.eqb k d then nth d a 0 else 0)).
    + clear -Hd. induction (length a) as [|m IH]; [lia|]. cbn [sumn]. destruct (Nat.eqb_spec m d) as [->|N].
      * rewrite sumn_zero; [ring|]. intros i Hi. destruct (Nat.eqb_spec i d); [lia|reflexivity].
      * rewrite IH by lia. ring.
    + intros k Hk. rewrite nth_unit by auto. destruct (Nat.eqb_spec k d) as [->|N]; cbn [INR]; ring.
Qed.
Theorem exactSolve_ok : solverOK exactSolve.
Proof.
  intros A b HL HF. set (sys := map (fun p => linT (fst p) (- snd p)) (combine A b)).
  assert (SOL : forall x, commonZero (length b) sys x <-> solution A b x).
  { intros x. unfold commonZero, solution, sys.
    assert (X : forall n A b, length A = length b -> Forall (fun a => length a = n) A -> length x = n ->
       ((forall t, In t (map (fun p => linT (fst p) (- snd p)) (combine A b)) -> cheb_eval t x = 0) <-> map (fun a => dot a x) A = b)).
    { clear. intros n A. induction A as [|a A IH]; intros [|c b] HL HF Lx; try discriminate; [split; [reflexivity|intros _ t []]|]. inversion HF; subst.
      cbn [combine map fst snd]. split.
      - intros H. f_equal; [|apply (IH b); auto; intros; apply H; right; auto]. pose proof (H _ (or_introl eq_refl)) as E. rewrite linT_value in E by auto. lra.
      - intros E t [<-|Ht]; [rewrite linT_value by auto; injection E as E1 _; lra|]. injection E as _ E2. revert t Ht. apply (IH b); auto. }
    split; intros [L H]; split; auto; apply (X (length b) A b); auto. }
  destruct b as [|c b].
  - destruct A; [|discriminate]. cbn. split.
    + intros x E. injection E as <-. split; reflexivity.
    + intros [|] [L _] _; [reflexivity|discriminate].
  - assert (LS : linearSystem (length (c :: b)) sys).
    { split; [cbn; lia|]. split; [unfold sys; rewrite map_length, combine_length, HL; apply Nat.min_id|].
      intros t Ht. unfold sys in Ht. apply in_map_iff in Ht. destruct Ht as ([a v] & <- & Hin). cbn [fst snd]. apply in_combine_l in Hin. rewrite Forall_forall in HF. rewrite <- (HF a Hin).
      split; [apply linT_ndim|]. split; [apply two_axes|apply linT_linear]. }
    unfold exactSolve. fold sys. split.
    + intros x E. apply SOL. destruct (@solve_linear R R_num sys) as [y| | |] eqn:ES; try discriminate. assert (y = x) by congruence. subst y. apply (C81_root_is_the_only_zero _ _ _ LS) in ES. apply ES.
    + intros x Hx Hu. assert (ES : @solve_linear R R_num sys = Root x).
      { apply (C81_root_is_the_only_zero _ _ _ LS). split; [apply SOL; auto|]. intros y Hy. apply Hu, SOL; auto. }
      rewrite ES. reflexivity.
Qed.

(** x + y - 1, x - y: one step from (5, -3) gives (1/2, 1/2) *)
Definition exS : pobj R := OPower (mkT [2; 2]%nat [-1; 1; 1; 0]).
Definition exD : pobj R := OCheb (mkT [2; 2]%nat [0; -1; 1; 0]).
Lemma exS_affine : affine exS (-1) [1; 1].
Proof. intros [|u [|v [|w x]]] L; try discriminate. unfold exS, polyOf, power_eval, dot, Rsum. cbn. ring. Qed.
Lemma exD_affine : affine exD 0 [1; -1].
Proof. intros [|u [|v [|w x]]] L; try discriminate. unfold exD, polyOf, cheb_eval, dot, Rsum. cbn. ring. Qed.
Lemma ex_system : systemIn 2 [exS; exD].
Proof. split; [lia|]. split; [reflexivity|]. repeat constructor. Qed.
Lemma ex_affine p : In p [exS; exD] -> exists c a, length a = 2%nat /\ affine p c a.
Proof. intros [<-|[<-|[]]]; [exists (-1), [1; 1]|exists 0, [1; -1]]; split; auto using exS_affine, exD_affine. Qed.
Lemma ex_zero y : length y = 2%nat -> isZero [exS; exD] y <-> y = [1 / 2; 1 / 2].
Proof.
  intros L. destruct y as [|u [|v [|w y]]]; try discriminate. split.
  - intros H. pose proof (H exS (or_introl eq_refl)) as A. pose proof (H exD (or_intror (or_introl eq_refl))) as B.
    rewrite exS_affine in A by reflexivity. rewrite exD_affine in B by reflexivity. unfold dot, Rsum in A, B. cbn in A, B. repeat (f_equal; try lra).
  - intros E p [<-|[<-|[]]]; [rewrite exS_affine by reflexivity|rewrite exD_affine by reflexivity]; rewrite E; unfold dot, Rsum; cbn; lra.
Qed.
Example C89_degree_one_case : solverOK exactSolve /\ newton_polish exactSolve euclid [exS; exD] [5; -3] 100 (1 / 100000) = NOk [1 / 2; 1 / 2].
Proof.
  split; [apply exactSolve_ok|]. apply (C89_degree_one_systems_are_solved exactSolve 2); auto using exactSolve_ok, ex_system, ex_affine; try lia; try lra.
  - apply ex_zero; reflexivity.
  - intros y Ly Hy. apply ex_zero; auto.
Qed.
(** x^2 - 1 at the simple zero 1 *)
Definition sq1 : pobj R := OPower (mkT [3%nat] [-1; 0; 1]).
Example C89_simple_zero_case : newton_polish exactSolve euclid [sq1] [1] 100 (1 / 100000) = NOk [1].
Proof.
  apply (C89_simple_zero_is_returned exactSolve 1); auto using exactSolve_ok; try lra.
  - split; [lia|]. split; [reflexivity|]. repeat constructor.
  - intros p [<-|[]]. unfold sq1, polyOf, power_eval. cbn. ring.
  - intros [|v [|w d]] [L H]; try discriminate. specialize (H sq1 (or_introl eq_refl)).
    assert (D : is_derive (fun t => polyOf sq1 (plus [1] (scaled t [v]))) 0 (2 * v)).
    { apply (is_derive_ext (fun t => (1 + t * v) ^ 2 - 1)); [intros t; unfold sq1, polyOf, power_eval, plus, scaled; cbn; ring|]. auto_derive; auto. ring. }
    pose proof (is_derive_unique _ _ _ D) as U1. pose proof (is_derive_unique _ _ _ H) as U2. assert (Z : polyOf sq1 [1] = 0) by (unfold sq1, polyOf, power_eval; cbn; ring). rewrite Z in U2. cbn. f_equal. lra.
Qed.

(** ** A result need not be near a zero *)
(** x^3 - 2x + 2 *)
Definition cubic : pobj R := OPower (mkT [4%nat] [2; -2; 0; 1]).
Lemma cubic_value x : polyOf cubic [x] = x ^ 3 - 2 * x + 2.
Proof. unfold cubic, polyOf, power_eval. cbn. ring. Qed.
Lemma cubic_system : systemIn 1 [cubic].
Proof. split; [lia|]. split; [reflexivity|]. repeat constructor. Qed.
Lemma cubic_direction x d : 3 * x ^ 2 - 2 <> 0 -> (newtonDirection [cubic] [x] d <-> d = [- (x ^ 3 - 2 * x + 2) / (3 * x ^ 2 - 2)]).
Proof.
  intros N. assert (D : forall v, is_derive (fun t => polyOf cubic (plus [x] (scaled t [v]))) 0 ((3 * x ^ 2 - 2) * v)).
  { intros v. apply (is_derive_ext (fun t => (x + t * v) ^ 3 - 2 * (x + t * v) + 2)); [intros t; unfold plus, scaled; cbn [map combine fst snd]; rewrite cubic_value; reflexivity|]. auto_derive; auto. ring. }
  split.
  - intros [L H]. destruct d as [|v [|w d]]; try discriminate. specialize (H cubic (or_introl eq_refl)). pose proof (is_derive_unique _ _ _ (D v)) as U1. pose proof (is_derive_unique _ _ _ H) as U2. rewrite cubic_value in U2.
    f_equal. apply (Rmult_eq_reg_l (3 * x ^ 2 - 2)); auto. replace ((3 * x ^ 2 - 2) * v) with (- (x ^ 3 - 2 * x + 2)) by congruence. field. auto.
  - intros ->. split; [reflexivity|]. intros p [<-|[]]. rewrite cubic_value. set (v := - (x ^ 3 - 2 * x + 2) / (3 * x ^ 2 - 2)). assert (E : - (x ^ 3 - 2 * x + 2) = (3 * x ^ 2 - 2) * v) by (unfold v; field; auto). rewrite E. apply D.
Qed.
Lemma euclid1 v : euclid [v] = Rabs v.
Proof. unfold euclid, Rsum. cbn. rewrite Rplus_0_r. apply sqrt_Rsqr_abs. Qed.
Lemma cubic_step solve k tol x y : solverOK solve -> 3 * x ^ 2 - 2 <> 0 -> - (x ^ 3 - 2 * x + 2) / (3 * x ^ 2 - 2) = y - x -> tol <= Rabs (y - x) ->
  newtonLoop solve euclid [cubic] 1 tol (S k) [x] = newtonLoop solve euclid [cubic] 1 tol k [y].
Proof.
  intros HS N E HT. rewrite loop_unfold. destruct (delta_ok solve HS 1 [cubic] cubic_system [x] eq_refl) as [(d & Ed & HD)|[_ U]].
  - rewrite Ed. cbn [nbind]. apply cubic_direction in HD; auto. rewrite E in HD. subst d. rewrite vadd_plus, euclid1.
    replace (@nltb R R_num (Rabs (y - x)) tol) with false by (symmetry; apply Rltb_false; auto). unfold plus. cbn [combine map fst snd]. do 2 f_equal. ring.
  - exfalso. apply U. exists [- (x ^ 3 - 2 * x + 2) / (3 * x ^ 2 - 2)]. split; [apply cubic_direction; auto|]. intros d' Hd. apply cubic_direction in Hd; auto.
Qed.
Lemma cubic_cycle solve tol k : solverOK solve -> tol <= 1 -> newtonLoop solve euclid [cubic] 1 tol (2 * k) [0] = NOk [0].
Proof.
  intros HS HT. induction k as [|k IH]; [reflexivity|]. replace (2 * S k)%nat with (S (S (2 * k))) by lia.
  rewrite (cubic_step solve _ tol 0 1); auto; [|lra|lra|rewrite Rminus_0_r, Rabs_R1; auto].
  rewrite (cubic_step solve _ tol 1 0); auto; [lra|lra|]. replace (0 - 1) with (- (1)) by ring. rewrite Rabs_Ropp, Rabs_R1. auto.
Qed.
(** The answer for x^3 - 2x + 2 from 0 is 0 however often the step is repeated an even number of times, and the value there is 2: no
    tolerance below 1 is met, and nothing tells. *)
Theorem C89_result_is_a_zero_refuted : forall solve tol k, solverOK solve -> tol <= 1 ->
  newton_polish solve euclid [cubic] [0] (2 * k) tol = NOk [0] /\ polyOf cubic [0] = 2 /\ ~ isZero [cubic] [0].
Proof.
  intros solve tol k HS HT. rewrite (polish_loop solve 1 [cubic] cubic_system). split; [apply cubic_cycle; auto|]. rewrite cubic_value. split; [ring|].
  intros H. specialize (H cubic (or_introl eq_refl)). rewrite cubic_value in H. lra.
Qed.
Print Assumptions C89_result_is_a_zero_refuted.

(** ** C89: getRootSample *)
Definition inBox (x : list R) : Prop := Forall (fun v => Rabs v <= 1) x.
(** the point of the cube [-1,1]^n drawn as r in [0,1)^n *)
Definition drawn (r : list R) : list R := map (fun v => 2 * v - 1) r.
Definition polished solve polys r x : Prop := newton_polish solve euclid polys (drawn r) 100 (1 / 10000000000) = NOk x.
Lemma vsub_distance x y : euclid (@vsub R R_num x y) = distance x y.
Proof. reflexivity. Qed.
Lemma drawn_eq r : map (fun v : R => nsub (nmul v n2) n1) r = drawn r.
Proof. unfold drawn. apply map_ext. intros v. rewrite n2_R. rnum. ring. Qed.
Lemma step_eq solve polys roots r : @sampleStep R R_num solve euclid polys (NOk roots) r =
  nbind (newton_polish solve euclid polys (drawn r) 100 (1 / 10000000000)) (fun x =>
    if existsb (fun v => Rltb 1 (Rabs v)) x then NOk roots
    else if existsb (fun root => Rltb (distance x root) (1 / 100000)) roots then NOk roots else NOk (roots ++ [x])).
Proof.
  unfold sampleStep. cbn [nbind]. rewrite drawn_eq. rewrite !nlit_R. replace (IZR 1 / IZR 10000000000) with (1 / 10000000000) by reflexivity. reflexivity.
Qed.
Lemma box_dec x : existsb (fun v => Rltb 1 (Rabs v)) x = false <-> inBox x.
Proof.
  unfold inBox. rewrite Forall_forall. split.
  - intros E v Hv. destruct (Rle_lt_dec (Rabs v) 1); auto. exfalso. assert (X : existsb (fun v => Rltb 1 (Rabs v)) x = true) by (apply existsb_exists; exists v; split; auto; apply Rltb_true; auto). congruence.
  - intros H. destruct (existsb _ x) eqn:E; auto. apply existsb_exists in E. destruct E as (v & Hv & E). apply Rltb_true in E. specialize (H v Hv). lra.
Qed.
Lemma near_dec x roots : existsb (fun root => Rltb (distance x root) (1 / 100000)) roots = false <-> forall y, In y roots -> 1 / 100000 <= distance x y.
Proof.
  split.
  - intros E y Hy. destruct (Rle_lt_dec (1 / 100000) (distance x y)); auto. exfalso. assert (X : existsb (fun root => Rltb (distance x root) (1 / 100000)) roots = true) by (apply existsb_exists; exists y; split; auto; apply Rltb_true; auto). congruence.
  - intros H. destruct (existsb _ roots) eqn:E; auto. apply existsb_exists in E. destruct E as (v & Hv & E). apply Rltb_true in E. specialize (H v Hv). lra.
Qed.
Lemma sample_stuck solve polys acc samples : (forall x : list (list R), acc <> NOk x) -> fold_left (@sampleStep R R_num solve euclid polys) samples acc = acc.
Proof. revert acc. induction samples as [|r l IH]; intros acc H; auto. cbn [fold_left]. destruct acc; cbn [sampleStep nbind]; try (apply IH; intros; discriminate). exfalso. eapply H. reflexivity. Qed.
(** the answer starts from the points already kept and adds, in the order of the samples, each polished sample in the cube that is not near one kept *)
Inductive kept (solve : list (list R) -> list R -> option (list R)) (polys : list (pobj R)) : list (list R) -> list (list R) -> list (list R) -> Prop :=
| kept_nil l : kept solve polys l [] l
| kept_out l r x s o : polished solve polys r x -> ~ inBox x -> kept solve polys l s o -> kept solve polys l (r :: s) o
| kept_near l r x s o y : polished solve polys r x -> inBox x -> In y l -> distance x y < 1 / 100000 -> kept solve polys l s o -> kept solve polys l (r :: s) o
| kept_new l r x s o : polished solve polys r x -> inBox x -> (forall y, In y l -> 1 / 100000 <= distance x y) -> kept solve polys (l ++ [x]) s o -> kept solve polys l (r :: s) o.
Lemma run_kept solve polys : forall samples l o, fold_left (@sampleStep R R_num solve euclid polys) samples (NOk l) = NOk o -> kept solve polys l samples o.
Proof.
  induction samples as [|r s IH]; intros l o H; [cbn in H; assert (l = o) by congruence; subst; constructor|].
  cbn [fold_left] in H. rewrite step_eq in H. destruct (newton_polish solve euclid polys (drawn r) 100 (1 / 10000000000)) as [x| |] eqn:EP; cbn [nbind] in H; try (rewrite sample_stuck in H by discriminate; discriminate).
  destruct (existsb (fun v => Rltb 1 (Rabs v)) x) eqn:EB.
  - apply kept_out with x; auto. intros HB. apply box_dec in HB. congruence.
  - apply box_dec in EB. destruct (existsb (fun root => Rltb (distance x root) (1 / 100000)) l) eqn:EN.
    + apply existsb_exists in EN. destruct EN as (y & Hy & E). apply Rltb_true in E. apply kept_near with x y; auto.
    + apply kept_new with x; auto. apply near_dec; auto.
Qed.
Lemma kept_facts solve polys l s o : kept solve polys l s o ->
  (forall z, In z l -> In z o) /\ (length o <= length l + length s)%nat /\
  (forall z, In z o -> In z l \/ inBox z /\ exists r, In r s /\ polished solve polys r z) /\
  (forall r, In r s -> exists x, polished solve polys r x /\ (inBox x -> exists y, In y o /\ (x = y \/ distance x y < 1 / 100000))) /\
  (ForallOrdPairs (fun a b => 1 / 100000 <= distance b a) l -> ForallOrdPairs (fun a b => 1 / 100000 <= distance b a) o).
Proof.
  induction 1 as [l|l r x s o HP HB HK IH|l r x s o y HP HB Hy HD HK IH|l r x s o HP HB HF HK IH].
  - split; auto. split; [cbn; lia|]. split; auto. split; [intros r []|auto].
  - destruct IH as (I1 & I2 & I3 & I4 & I5). split; auto. split; [cbn; lia|]. split; [|split; auto].
    + intros z Hz. destruct (I3 z Hz) as [H|(H1 & r' & H2 & H3)]; auto. right. split; auto. exists r'. split; auto. right; auto.
    + intros r' [<-|Hr]; auto. exists x. split; auto. intros HB'. contradiction.
  - destruct IH as (I1 & I2 & I3 & I4 & I5). split; auto. split; [cbn; lia|]. split; [|split; auto].
    + intros z Hz. destruct (I3 z Hz) as [H|(H1 & r' & H2 & H3)]; auto. right. split; auto. exists r'. split; auto. right; auto.
    + intros r' [<-|Hr]; auto. exists x. split; auto. intros _. exists y. auto.
  - destruct IH as (I1 & I2 & I3 & I4 & I5). split; [intros z Hz; apply I1, in_or_app; auto|]. split; [rewrite app_length in I2; cbn in *; lia|]. split; [|split].
    + intros z Hz. destruct (I3 z Hz) as [H|(H1 & r' & H2 & H3)].
      * apply in_app_or in H. destruct H as [H|[<-|[]]]; auto. right. split; auto. exists r. split; auto. left; auto.
      * right. split; auto. exists r'. split; auto. right; auto.
    + intros r' [<-|Hr]; auto. exists x. split; auto. intros _. exists x. split; auto. apply I1, in_or_app. right; left; auto.
    + intros HO. apply I5. clear -HO HF. induction HO as [|a l Ha HO IH]; cbn [app]; [repeat constructor|].
      constructor; [|apply IH; intros; apply HF; right; auto]. apply Forall_app. split; auto. constructor; auto. apply HF. left; auto.
Qed.
(** Every returned point lies in the cube and is where Newton's method ended from one of the drawn points, later points are at least 1e-5 away
    from earlier ones, there are no more of them than draws, and every draw that ended in the cube is accounted for. *)
Theorem C89_sample_of_points : forall solve polys samples roots, getRootSample solve euclid polys samples = NOk roots ->
  (forall z, In z roots -> inBox z /\ exists r, In r samples /\ polished solve polys r z) /\
  ForallOrdPairs (fun a b => 1 / 100000 <= distance b a) roots /\
  (length roots <= length samples)%nat /\
  (forall r, In r samples -> exists x, polished solve polys r x /\ (inBox x -> exists y, In y roots /\ (x = y \/ distance x y < 1 / 100000))).
Proof.
  intros solve polys samples roots H. apply run_kept, kept_facts in H. destruct H as (_ & I2 & I3 & I4 & I5).
  split; [intros z Hz; destruct (I3 z Hz) as [[]|]; auto|]. split; [apply I5; constructor|]. split; auto.
Qed.
Print Assumptions C89_sample_of_points.
(** One draw at which Newton's method raises loses all the points found. *)
Theorem C89_sample_returns_unless_a_draw_raises : forall solve polys samples,
  (exists roots, getRootSample solve euclid polys samples = NOk roots) <-> (forall r, In r samples -> exists x, polished solve polys r x).
Proof.
  intros solve polys samples. split.
  - intros [roots H] r Hr. destruct (C89_sample_of_points _ _ _ _ H) as (_ & _ & _ & I). destruct (I r Hr) as (x & P & _). eauto.
  - unfold getRootSample. generalize (@nil (list R)). induction samples as [|r s IH]; intros l H; [exists l; reflexivity|]. destruct (H r (or_introl eq_refl)) as (x & P).
    cbn [fold_left]. rewrite step_eq. unfold polished in P. rewrite P. cbn [nbind].
    destruct existsb; [apply IH; intros; apply H; right; auto|]. destruct existsb; apply IH; intros; apply H; right; auto.
Qed.
Print Assumptions C89_sample_returns_unless_a_draw_raises.
(** For systems of degree one with one zero, one draw is enough: the zero is returned, once, if it lies in the cube. *)
Theorem C89_sample_of_degree_one : forall solve n polys samples z, solverOK solve -> systemIn n polys -> samples <> [] -> (forall r, In r samples -> length r = n) ->
  (forall p, In p polys -> exists c a, length a = n /\ affine p c a) ->
  length z = n -> isZero polys z -> (forall y, length y = n -> isZero polys y -> y = z) ->
  (inBox z -> getRootSample solve euclid polys samples = NOk [z]) /\ (~ inBox z -> getRootSample solve euclid polys samples = NOk []).
Proof.
  intros solve n polys samples z HS Hsys HN HL HA Lz Zz Uz.
  assert (P : forall r, In r samples -> polished solve polys r z).
  { intros r Hr. refine (proj2 (C89_degree_one_systems_are_solved solve n polys (drawn r) 100 (1 / 10000000000) HS Hsys _ _ _ HA) z Lz Zz Uz); [unfold drawn; rewrite map_length; auto|lia|lra]. }
  destruct (proj2 (C89_sample_returns_unless_a_draw_raises solve polys samples)) as [roots HR]; [intros r Hr; exists z; auto|].
  destruct (C89_sample_of_points _ _ _ _ HR) as (I1 & I2 & _ & I4).
  assert (Q : forall y, In y roots -> y = z). { intros y Hy. destruct (I1 y Hy) as (_ & r & Hr & E). specialize (P r Hr). unfold polished in *. congruence. }
  assert (D0 : distance z z = 0).
  { unfold distance, euclid. replace (Rsum (map (fun c => c * c) (map (fun p => fst p - snd p) (combine z z)))) with 0; [apply sqrt_0|]. clear. induction z as [|v z IH]; unfold Rsum in *; cbn [combine map fst snd fold_right]; [reflexivity|]. rewrite <- IH. ring. }
  split; intros HB; rewrite HR; f_equal.
  - destruct samples as [|r s]; [congruence|]. destruct (I4 r (or_introl eq_refl)) as (x & Px & Hx). assert (x = z) by (specialize (P r (or_introl eq_refl)); unfold polished in *; congruence). subst x. destruct (Hx HB) as (y & Hy & _).
    destruct roots as [|a [|b roots]]; [destruct Hy| |].
    + f_equal. apply Q. left; auto.
    + exfalso. inversion I2 as [|? ? F _]; subst. inversion F as [|? ? X _]; subst. rewrite (Q a), (Q b) in X by (cbn; auto). rewrite D0 in X. lra.
  - destruct roots as [|a roots]; auto. exfalso. apply HB. rewrite <- (Q a) by (left; auto). apply I1. left; auto.
Qed.
Print Assumptions C89_sample_of_degree_one.
Example C89_sample_case : getRootSample exactSolve euclid [exS; exD] [[1 / 3; 2 / 3]; [0; 1 / 4]; [1 / 2; 1 / 2]] = NOk [[1 / 2; 1 / 2]].
Proof.
  refine (proj1 (C89_sample_of_degree_one exactSolve 2 [exS; exD] _ [1 / 2; 1 / 2] exactSolve_ok ex_system _ _ ex_affine eq_refl _ _) _).
  - discriminate.
  - intros r [<-|[<-|[<-|[]]]]; reflexivity.
  - apply ex_zero; reflexivity.
  - intros y Ly Hy. apply ex_zero; auto.
  - repeat constructor; rewrite Rabs_pos_eq; lra.
Qed.
(** The points returned need not be zeros: the draw 1/2 for x^3 - 2x + 2, which has no zero in [-1, 1] at all. *)
Theorem C89_sample_of_zeros_refuted : forall solve, solverOK solve ->
  getRootSample solve euclid [cubic] [[1 / 2]] = NOk [[0]] /\ forall x, Rabs x <= 1 -> polyOf cubic [x] <> 0.
Proof.
  intros solve HS. split.
  - unfold getRootSample. cbn [fold_left]. rewrite step_eq. replace (drawn [1 / 2]) with [0] by (unfold drawn; cbn; f_equal; lra).
    rewrite (polish_loop solve 1 [cubic] cubic_system). replace 100%nat with (2 * 50)%nat by reflexivity. rewrite cubic_cycle by (auto; lra). cbn [nbind existsb].
    rewrite Rabs_R0. replace (Rltb 1 0) with false by (symmetry; apply Rltb_false; lra). reflexivity.
  - intros x Hx. rewrite cubic_value. apply Rabs_le_between in Hx. intros E.
    destruct (Rle_lt_dec x (1 / 2)); destruct (Rle_lt_dec x 0); nra.
Qed.
Print Assumptions C89_sample_of_zeros_refuted.
