(** * Properties of newton_polish and getRootSample (C89) *)
From Coq Require Import Reals List Lia Lra Arith ZArith Bool.
From Coquelicot Require Import Coquelicot.
From Coq Require Import List.
From Verif Require Import Num RSum Cheb Tensor PolySpec TransformModel PolyModel PolyEval PolyGrad PolyProps NewtonModel NewtonProofs.
Import ListNotations.
Local Open Scope R_scope.

(** ** Specification *)
Definition polyOf (p : pobj R) : list R -> R := match p with OCheb t => cheb_eval t | OPower t => power_eval t end.
(** n polynomials in n variables *)
Definition systemIn (n : nat) (polys : list (pobj R)) : Prop := (1 <= n)%nat /\ length polys = n /\ Forall (fun p => wf (otensor p) /\ ndim (otensor p) = n) polys.
Definition isZero (polys : list (pobj R)) (x : list R) : Prop := forall p, In p polys -> polyOf p x = 0.
Definition plus (x d : list R) : list R := map (fun p => fst p + snd p) (combine x d).
Definition scaled (t : R) (d : list R) : list R := map (Rmult t) d.
Definition euclid (v : list R) : R := sqrt (Rsum (map (fun c => c * c) v)).
Definition distance (x y : list R) : R := euclid (map (fun p => fst p - snd p) (combine x y)).
(** d zeroes the linear part of every polynomial at x: the derivative of p at x in direction d is -p(x) *)
Definition newtonDirection (polys : list (pobj R)) (x d : list R) : Prop :=
  length d = length x /\ forall p, In p polys -> is_derive (fun t => polyOf p (plus x (scaled t d))) 0 (- polyOf p x).
(** np.linalg.solve in exact arithmetic: an answer solves the system, and a system with exactly one solution is answered *)
Definition dot (a x : list R) : R := Rsum (map (fun p => fst p * snd p) (combine a x)).
Definition solution (A : list (list R)) (b x : list R) : Prop := length x = length b /\ map (fun a => dot a x) A = b.
Definition solverOK (solve : list (list R) -> list R -> option (list R)) : Prop :=
  forall A b, length A = length b -> Forall (fun a => length a = length b) A ->
    (forall x, solve A b = Some x -> solution A b x) /\ (forall x, solution A b x -> (forall y, solution A b y -> y = x) -> solve A b = Some x).

(** ** from the model to the specification *)
Lemma line_plus x d t : line x d t = plus x (scaled t d).
Proof. revert d. induction x as [|v x IH]; intros [|w d]; auto. unfold line, plus, scaled in *. cbn [combine map fst snd]. f_equal. apply IH. Qed.
Lemma plus_0 x d : length d = length x -> plus x (scaled 0 d) = x.
Proof. revert d. induction x as [|v x IH]; intros [|w d] L; try discriminate; auto. unfold plus, scaled in *. cbn [combine map fst snd]. rewrite Rmult_0_l, Rplus_0_r. f_equal. apply IH. cbn in L. lia. Qed.
Lemma plus_1 x d : plus x (scaled 1 d) = plus x d.
Proof. revert d. induction x as [|v x IH]; intros [|w d]; auto. unfold plus, scaled in *. cbn [combine map fst snd]. rewrite Rmult_1_l. f_equal. apply IH. Qed.
Lemma vadd_plus d x : @vadd R R_num d x = plus x d.
Proof. unfold vadd, plus. revert x. induction d as [|w d IH]; intros [|v x]; auto. cbn [combine map fst snd]. rnum. rewrite IH. f_equal. ring. Qed.
Lemma plus_length x d : length d = length x -> length (plus x d) = length x.
Proof. intros H. unfold plus. rewrite map_length, combine_length, H. apply Nat.min_id. Qed.
Lemma polyOf_deriv p x e out : length x = ndim (otensor p) -> length e = length x ->
  (forall d, (d < ndim (otensor p))%nat -> partial_deriv (polyOf p) d x (nth d out 0)) ->
  is_derive (fun t => polyOf p (plus x (scaled t e))) 0 (sumn (length x) (fun d => nth d out 0 * nth d e 0)).
Proof.
  intros Lx Le HP. apply is_derive_Reals. destruct p as [t|t]; cbn [polyOf otensor] in *.
  - apply (dlim_ext (fun s => evalT chebT t (line x e s))); [intros; rewrite evalT_cheb, line_plus; reflexivity|].
    apply (eval_line chebT (fun k v => INR k * chebV k v) (fun k v => chebT_deriv k v)); auto. intros d Hd. apply (partial_ext (cheb_eval t)); [intros; symmetry; apply evalT_cheb|auto].
  - apply (dlim_ext (fun s => evalT pw t (line x e s))); [intros; rewrite evalT_power, line_plus; reflexivity|].
    apply (eval_line pw (fun k v => INR k * v ^ pred k) (fun k v => pw_deriv k v)); auto. intros d Hd. apply (partial_ext (power_eval t)); [intros; symmetry; apply evalT_power|auto].
Qed.
Lemma polyOf_smooth p x e n t : ex_derive_n (fun s => polyOf p (plus x (scaled s e))) n t.
Proof.
  destruct p as [u|u]; cbn [polyOf].
  - destruct (evalT_poly chebT (fun k v w => or_intror (chebT_poly k v w)) u x e) as (f & P & E). apply (polyfun_ext_derive n f); auto. intros v. rewrite E, evalT_cheb, line_plus. reflexivity.
  - destruct (evalT_poly pw (fun k v w => or_intror (pw_poly k v w)) u x e) as (f & P & E). apply (polyfun_ext_derive n f); auto. intros v. rewrite E, evalT_power, line_plus. reflexivity.
Qed.
Lemma dot_sumn a x : length a = length x -> dot a x = sumn (length x) (fun d => nth d a 0 * nth d x 0).
Proof.
  unfold dot. revert x. induction a as [|v a IH]; intros [|w x] L; try discriminate; auto. cbn [combine map fst snd length]. unfold Rsum in *. cbn [fold_right]. rewrite IH by (cbn in L; lia). rewrite sumn_S_l. reflexivity.
Qed.
Lemma value_ok p x n : wf (otensor p) -> ndim (otensor p) = n -> (1 <= n)%nat -> length x = n -> @valueAt R R_num p x = NOk (polyOf p x).
Proof.
  intros W N H1 Lx. unfold valueAt.
  assert (WS : width (ndim (otensor p)) (PVec x) = ndim (otensor p)) by (cbn; rewrite N; destruct (Nat.eqb_spec n 1); auto).
  assert (MP : meantPoints (ndim (otensor p)) (PVec x) = [x]).
  { cbn. rewrite N. destruct (Nat.eqb_spec n 1); auto. subst n. destruct x as [|v [|]]; try (cbn in Lx; lia). reflexivity. }
  destruct p as [t|t]; cbn [otensor polyOf] in *.
  - rewrite (proj1 (C40_MultiCheb_call t (PVec x) W ltac:(lia) I) WS), MP. reflexivity.
  - rewrite (proj1 (C40_MultiPower_call t (PVec x) W ltac:(lia) I) WS), MP. reflexivity.
Qed.
Lemma grad_row p x n : wf (otensor p) -> ndim (otensor p) = n -> (1 <= n)%nat -> length x = n ->
  exists out, @gradRow R R_num n p x = NOk out /\ length out = n /\ forall d, (d < n)%nat -> partial_deriv (polyOf p) d x (nth d out 0).
Proof.
  intros W N H1 Lx. unfold gradRow. destruct p as [t|t]; cbn [otensor polyOf] in *.
  - destruct (C45_MultiCheb_gradient t None x W ltac:(lia) (or_introl eq_refl) ltac:(lia)) as (out & j & -> & _ & L & D). exists out. rewrite L, N, Nat.eqb_refl. split; auto. rewrite N in L, D. auto.
  - destruct (C45_MultiPower_gradient t None x W ltac:(lia) (or_introl eq_refl) ltac:(lia)) as (out & j & -> & _ & L & D). exists out. rewrite L, N, Nat.eqb_refl. split; auto. rewrite N in L, D. auto.
Qed.
Lemma collect_ok {A B} (f : A -> nres B) (P : A -> B -> Prop) l : (forall a, In a l -> exists b, f a = NOk b /\ P a b) -> exists bs, collect f l = NOk bs /\ Forall2 P l bs.
Proof.
  induction l as [|a l IH]; intros H; [exists []; split; [reflexivity|constructor]|].
  destruct (H a (or_introl eq_refl)) as (b & E & Pb). destruct IH as (bs & E2 & F); [intros; apply H; right; auto|]. exists (b :: bs). cbn [collect]. rewrite E, E2. split; [reflexivity|constructor; auto].
Qed.
Section Run.
  Variable solve : list (list R) -> list R -> option (list R).
  Hypothesis HS : solverOK solve.
  Variables (n : nat) (polys : list (pobj R)).
  Hypothesis Hsys : systemIn n polys.
  Lemma dim_eq : fold_left Nat.max (map (fun p => ndim (otensor p)) polys) 0%nat = n.
  Proof.
    destruct Hsys as (H1 & HL & HF). assert (G : forall l a, Forall (fun p : pobj R => wf (otensor p) /\ ndim (otensor p) = n) l -> (a = n \/ (a <= n)%nat /\ l <> []) -> fold_left Nat.max (map (fun p => ndim (otensor p)) l) a = n).
    { induction l as [|p l IH]; intros a F [->|[Ha Hn]]; cbn [map fold_left]; auto; try congruence; inversion F as [|? ? [_ Np] F']; subst; apply IH; auto; left; lia. }
    apply G; auto. right. split; [lia|]. intros ->. cbn in HL. lia.
  Qed.
  (** one step: either LinAlgError, or a direction zeroing the linear part; a unique direction is found *)
  Lemma delta_ok x : length x = n ->
    (exists d, newtonDelta solve polys n x = NOk d /\ newtonDirection polys x d) \/
    (newtonDelta solve polys n x = NLinAlg /\ ~ exists d, newtonDirection polys x d /\ forall d', newtonDirection polys x d' -> d' = d).
  Proof.
    intros Lx. destruct Hsys as (H1 & HL & HF). rewrite Forall_forall in HF. unfold newtonDelta.
    destruct (collect_ok (fun p => @gradRow R R_num n p x) (fun p out => length out = n /\ forall d, (d < n)%nat -> partial_deriv (polyOf p) d x (nth d out 0)) polys) as (J & EJ & FJ).
    { intros p Hp. destruct (HF p Hp) as [W N]. destruct (grad_row p x n W N H1 Lx) as (out & E & X). eauto. }
    destruct (collect_ok (fun p => @valueAt R R_num p x) (fun p v => v = polyOf p x) polys) as (vs & EV & FV).
    { intros p Hp. destruct (HF p Hp) as [W N]. exists (polyOf p x). split; auto. apply (value_ok p x n); auto. }
    rewrite EJ. cbn [nbind]. rewrite EV. cbn [nbind]. rewrite HL, Nat.eqb_refl.
    assert (LJ : length J = n) by (rewrite <- HL; clear -FJ; induction FJ; cbn; auto).
    assert (LV : length (map (@nopp R R_num) vs) = n) by (rewrite map_length, <- HL; clear -FV; induction FV; cbn; auto).
    assert (FA : Forall (fun a => length a = length (map (@nopp R R_num) vs)) J) by (rewrite LV; clear -FJ; induction FJ as [|p out l l' [X _] F IH]; constructor; auto).
    (* solutions are the Newton directions *)
    assert (EQ : forall d, solution J (map (@nopp R R_num) vs) d <-> newtonDirection polys x d).
    { intros d. unfold solution, newtonDirection. rewrite LV, Lx.
      assert (X : length d = n -> (map (fun a => dot a d) J = map (@nopp R R_num) vs <-> forall p, In p polys -> is_derive (fun t => polyOf p (plus x (scaled t d))) 0 (- polyOf p x))).
      { intros Ld. clear LJ LV FA EJ EV HL. assert (ND : forall p, In p polys -> ndim (otensor p) = n) by (intros p Hp; apply (HF p Hp)). clear HF Hsys. revert J vs FJ FV ND. induction polys as [|p l IH]; intros J vs FJ FV ND; inversion FJ as [|? out ? J' [Lo HP] FJ']; subst; inversion FV as [|? v ? vs' Ev FV']; subst.
        - split; [intros _ q []|reflexivity].
        - assert (DP : is_derive (fun t => polyOf p (plus x (scaled t d))) 0 (dot out d)).
          { rewrite dot_sumn by congruence. replace (length d) with (length x) by congruence. pose proof (ND p (or_introl eq_refl)) as Np. apply polyOf_deriv; try congruence. rewrite Np. intros k Hk. apply HP. congruence. }
          cbn [map]. split.
          + intros E. assert (E1 : dot out d = - polyOf p x) by (injection E; auto). assert (E2 : map (fun a => dot a d) J' = map (@nopp R R_num) vs') by (injection E; auto).
            intros q [<-|Hq]; [rewrite <- E1; auto|]. revert q Hq. apply (IH J' vs'); auto. intros; apply ND; right; auto.
          + intros H. f_equal; [|apply (IH J' vs'); auto; [intros; apply ND; right; auto|intros; apply H; right; auto]].
            rewrite <- (is_derive_unique _ _ _ DP). rewrite (is_derive_unique _ _ _ (H p (or_introl eq_refl))). reflexivity. }
      split; intros [A B]; split; auto; apply X; auto. }
    destruct (HS J (map (@nopp R R_num) vs) ltac:(congruence) FA) as [S1 S2].
    destruct (solve J (map (@nopp R R_num) vs)) as [d|] eqn:ES.
    - left. exists d. split; auto. apply EQ, S1. auto.
    - right. split; auto. intros (d & Hd & Hu). specialize (S2 d (proj2 (EQ d) Hd) ltac:(intros y Hy; apply Hu, EQ; auto)). congruence.
  Qed.
End Run.

(** ** C89: newton_polish *)
(** A run of Newton's method with at most k steps: it ends after k steps, or after the first step shorter than tol. *)
Inductive newtonRun (polys : list (pobj R)) (tol : R) : nat -> list R -> list R -> Prop :=
| run_out x : newtonRun polys tol 0 x x
| run_stop k x d : newtonDirection polys x d -> euclid d < tol -> newtonRun polys tol (S k) x (plus x d)
| run_next k x d z : newtonDirection polys x d -> tol <= euclid d -> newtonRun polys tol k (plus x d) z -> newtonRun polys tol (S k) x z.
Section Loop.
  Variable solve : list (list R) -> list R -> option (list R).
  Hypothesis HS : solverOK solve.
  Variables (n : nat) (polys : list (pobj R)).
  Hypothesis Hsys : systemIn n polys.
  Lemma loop_unfold k tol x : newtonLoop solve euclid polys n tol (S k) x =
    nbind (newtonDelta solve polys n x) (fun d => if @nltb R R_num (euclid d) tol then NOk (@vadd R R_num d x) else newtonLoop solve euclid polys n tol k (@vadd R R_num d x)).
  Proof. reflexivity. Qed.
  Lemma loop_run tol : forall k x, length x = n ->
    (exists z, newtonLoop solve euclid polys n tol k x = NOk z /\ newtonRun polys tol k x z) \/ newtonLoop solve euclid polys n tol k x = NLinAlg.
  Proof.
    induction k as [|k IH]; intros x Lx; [left; exists x; split; [reflexivity|constructor]|]. rewrite loop_unfold.
    destruct (delta_ok solve HS n polys Hsys x Lx) as [(d & E & HD)|[E _]]; rewrite E; cbn [nbind]; auto. rewrite vadd_plus.
    destruct (@nltb R R_num (euclid d) tol) eqn:EL.
    - apply Rltb_true in EL. left. eexists. split; [reflexivity|]. constructor; auto.
    - apply Rltb_false in EL. destruct (IH (plus x d)) as [(z & Ez & Hz)|Ez]; [rewrite plus_length; [auto|apply HD]| |auto].
      left. exists z. split; auto. apply run_next with d; auto.
  Qed.
  Lemma polish_loop niter tol x : newton_polish solve euclid polys x niter tol = newtonLoop solve euclid polys n tol niter x.
  Proof.
    unfold newton_polish. pose proof (dim_eq n polys Hsys) as E. destruct Hsys as (H1 & HL & HF). rewrite E. destruct polys; [cbn in HL; lia|reflexivity].
  Qed.
End Loop.
(** A result comes from a run of Newton's method; the only other outcome is LinAlgError. *)
Theorem C89_runs_newtons_method : forall solve n polys root niter tol, solverOK solve -> systemIn n polys -> length root = n ->
  (exists z, newton_polish solve euclid polys root niter tol = NOk z /\ newtonRun polys tol niter root z) \/ newton_polish solve euclid polys root niter tol = NLinAlg.
Proof. intros solve n polys root niter tol HS Hsys HL. rewrite (polish_loop solve n polys Hsys). apply (loop_run solve HS n polys Hsys); auto. Qed.
Print Assumptions C89_runs_newtons_method.

(** If the run ended with a short step, the residuals are of second order in the tolerance. *)
Theorem C89_residual_is_second_order : forall polys x d tol p K, newtonDirection polys x d -> euclid d < tol -> In p polys ->
  (forall t, 0 <= t <= 1 -> Rabs (Derive_n (fun t => polyOf p (plus x (scaled t d))) 2 t) <= K * (euclid d * euclid d)) -> 0 <= K ->
  Rabs (polyOf p (plus x d)) <= K / 2 * (tol * tol).
Proof.
  intros polys x d tol p K [Ld HD] Ht Hp HK K0.
  rewrite <- plus_1. eapply Rle_trans; [apply (second_order (fun t => polyOf p (plus x (scaled t d))) (K * (euclid d * euclid d)))|].
  - intros t. apply polyOf_smooth.
  - intros t. apply polyOf_smooth.
  - rewrite plus_0 by auto. apply HD. auto.
  - exact HK.
  - assert (0 <= euclid d) by apply sqrt_pos. assert (euclid d * euclid d <= tol * tol) by nra. nra.
Qed.
Print Assumptions C89_residual_is_second_order.
(** x^2 - 2, from 3/2: the first step has length 1/12 and the residual 1/144 *)
Example C89_residual_case : let p := OPower (mkT [3%nat] [-2; 0; 1]) in
  newtonDirection [p] [3 / 2] [- (1 / 12)] /\ polyOf p (plus [3 / 2] [- (1 / 12)]) = 1 / 144 /\
  forall t, Derive_n (fun t => polyOf p (plus [3 / 2] (scaled t [- (1 / 12)]))) 2 t = 2 * (1 / 12) ^ 2.
Proof.
  cbn zeta. assert (E : forall t, polyOf (OPower (mkT [3%nat] [-2; 0; 1])) (plus [3 / 2] (scaled t [- (1 / 12)])) = (3 / 2 - t / 12) ^ 2 - 2).
  { intros t. unfold polyOf, power_eval, plus, scaled. cbn. field. }
  split; [|split].
  - split; [reflexivity|]. intros p [<-|[]]. apply (is_derive_ext (fun t => (3 / 2 - t / 12) ^ 2 - 2)); [intros; symmetry; apply E|].
    replace (- polyOf (OPower (mkT [3%nat] [-2; 0; 1])) [3 / 2]) with (- / 4) by (unfold polyOf, power_eval; cbn; lra). auto_derive; auto. lra.
  - rewrite <- plus_1, E. lra.
  - intros t. rewrite (Derive_n_ext _ (fun t => (3 / 2 - t / 12) ^ 2 - 2)) by (intros; apply E). cbn [Derive_n].
    rewrite (Derive_ext _ (fun t => t / 72 - 1 / 4)).
    + apply is_derive_unique. auto_derive; auto. lra.
    + intros s. apply is_derive_unique. auto_derive; auto. field.
Qed.

(** A zero at which the linear parts vanish together only in direction 0 is returned unchanged. *)
Theorem C89_simple_zero_is_returned : forall solve n polys root niter tol, solverOK solve -> systemIn n polys -> length root = n -> 0 < tol ->
  isZero polys root -> (forall d, newtonDirection polys root d -> d = repeat 0 n) ->
  newton_polish solve euclid polys root niter tol = NOk root.
Proof.
  intros solve n polys root niter tol HS Hsys HL Ht HZ HU. rewrite (polish_loop solve n polys Hsys). destruct niter as [|k]; [reflexivity|].
  assert (P0 : forall x, plus x (repeat 0 (length x)) = x) by (induction x as [|v x IH]; auto; unfold plus in *; cbn [length repeat combine map fst snd]; rewrite Rplus_0_r, IH; reflexivity).
  assert (D0 : newtonDirection polys root (repeat 0 n)).
  { split; [rewrite repeat_length; auto|]. intros p Hp. rewrite (HZ p Hp), Ropp_0. apply (is_derive_ext (fun _ => polyOf p root)); [|apply (is_derive_const (K := R_AbsRing) (V := R_NormedModule))].
    intros t. f_equal. rewrite <- HL. rewrite <- (P0 root) at 1. f_equal. unfold scaled. clear. induction (length root); cbn [repeat map]; auto. rewrite Rmult_0_r, <- IHn. reflexivity. }
  rewrite loop_unfold. destruct (delta_ok solve HS n polys Hsys root HL) as [(d & E & HD)|[_ N]]; [|exfalso; apply N; exists (repeat 0 n); split; auto].
  rewrite E. cbn [nbind]. rewrite vadd_plus. apply HU in HD. subst d. rewrite <- HL, P0.
  assert (EU : euclid (repeat 0 (length root)) = 0).
  { unfold euclid. replace (Rsum (map (fun c => c * c) (repeat 0 (length root)))) with 0; [apply sqrt_0|]. clear. induction (length root); cbn [repeat map]; unfold Rsum in *; cbn [fold_right]; [reflexivity|]. rewrite <- IHn. ring. }
  rewrite EU. replace (@nltb R R_num 0 tol) with true by (symmetry; apply Rltb_true; auto). reflexivity.
Qed.
Print Assumptions C89_simple_zero_is_returned.

(** Systems of degree one are solved from any starting point. *)
Definition affine (p : pobj R) (c : R) (a : list R) : Prop := forall x, length x = length a -> polyOf p x = c + dot a x.
Lemma dot_plus a : forall x d, length x = length a -> length d = length a -> dot a (plus x d) = dot a x + dot a d.
Proof.
  induction a as [|u a IH]; intros [|v x] [|w d] H1 H2; try discriminate; unfold dot, plus, Rsum in *; cbn [combine map fst snd fold_right]; [ring|]. cbn in H1, H2. rewrite IH by lia. ring.
Qed.
Lemma dot_scaled a : forall d t, dot a (scaled t d) = t * dot a d.
Proof.
  induction a as [|u a IH]; intros [|w d] t; unfold dot, scaled, Rsum in *; cbn [combine map fst snd fold_right]; try ring. rewrite IH. ring.
Qed.
Lemma affine_direction p c a x d : affine p c a -> length x = length a -> length d = length a ->
  (is_derive (fun t => polyOf p (plus x (scaled t d))) 0 (- polyOf p x) <-> polyOf p (plus x d) = 0).
Proof.
  intros HA Hx Hd. assert (SL : forall t, length (scaled t d) = length a) by (intros; unfold scaled; rewrite map_length; auto).
  assert (E : forall t, polyOf p (plus x (scaled t d)) = c + dot a x + t * dot a d).
  { intros t. rewrite HA by (rewrite plus_length; rewrite ?SL; auto). rewrite dot_plus by auto. rewrite dot_scaled. ring. }
  assert (D : is_derive (fun t => polyOf p (plus x (scaled t d))) 0 (dot a d)).
  { apply (is_derive_ext (fun t => c + dot a x + t * dot a d)); [intros; symmetry; apply E|]. auto_derive; auto. ring. }
  assert (V : polyOf p (plus x d) = polyOf p x + dot a d) by (rewrite <- plus_1, E, HA by auto; ring).
  split.
  - intros D'. pose proof (is_derive_unique _ _ _ D) as U1. pose proof (is_derive_unique _ _ _ D') as U2. rewrite V. lra.
  - intros Z. replace (- polyOf p x) with (dot a d) by lra. exact D.
Qed.
Theorem C89_degree_one_systems_are_solved : forall solve n polys root niter tol, solverOK solve -> systemIn n polys -> length root = n -> (1 <= niter)%nat -> 0 < tol ->
  (forall p, In p polys -> exists c a, length a = n /\ affine p c a) ->
  (forall z, newton_polish solve euclid polys root niter tol = NOk z -> isZero polys z) /\
  (forall z, length z = n -> isZero polys z -> (forall y, length y = n -> isZero polys y -> y = z) -> newton_polish solve euclid polys root niter tol = NOk z).
Proof.
  intros solve n polys root niter tol HS Hsys HL Hn Ht HA. rewrite (polish_loop solve n polys Hsys).
  assert (DZ : forall x d, length x = n -> length d = n -> newtonDirection polys x d <-> isZero polys (plus x d)).
  { intros x d Lx Ld. unfold newtonDirection, isZero. split.
    - intros [_ H] p Hp. destruct (HA p Hp) as (c & a & La & Ha). apply (affine_direction p c a x d Ha); try congruence. auto.
    - intros H. split; [congruence|]. intros p Hp. destruct (HA p Hp) as (c & a & La & Ha). apply (affine_direction p c a x d Ha); try congruence. auto. }
  destruct niter as [|k]; [lia|]. split.
  - (* every point of the run after the first is a zero *)
    assert (G : forall k x z, newtonRun polys tol k x z -> length x = n -> (isZero polys x \/ (1 <= k)%nat) -> isZero polys z).
    { induction 1 as [x|k0 x d HD Hl|k0 x d z HD Hl HR IH]; intros Lx HK.
      - destruct HK; [auto|lia].
      - apply DZ; auto. rewrite (proj1 HD). auto.
      - apply IH; [rewrite plus_length; [auto|apply HD]|]. left. apply DZ; auto. rewrite (proj1 HD). auto. }
    intros z Hz. destruct (loop_run solve HS n polys Hsys tol (S k) root HL) as [(z' & E & HR)|E]; [|congruence]. assert (z' = z) by congruence. subst z'. apply (G (S k) root z HR HL). right. lia.
  - intros z Lz Zz Uz.
    assert (inj : forall x d d', length x = n -> length d = n -> length d' = n -> plus x d = plus x d' -> d = d').
    { clear. intros x. revert n. induction x as [|v x IH]; intros n [|w d] [|w' d'] H1 H2 H3 E; cbn in H1, H2, H3; try congruence; try lia. unfold plus in *. cbn [combine map fst snd] in E. injection E as E1 E2. f_equal; [lra|]. apply (IH (pred n)); auto; lia. }
    assert (toz : forall x, length x = n -> exists d, length d = n /\ plus x d = z).
    { intros x Lx. exists (map (fun p => fst p - snd p) (combine z x)). split; [rewrite map_length, combine_length; lia|]. clear -Lx Lz. revert n z Lx Lz. induction x as [|v x IH]; intros n [|w z] Lx Lz; cbn in Lx, Lz; try congruence; try lia; auto.
      unfold plus in *. cbn [combine map fst snd]. f_equal; [ring|]. apply (IH (pred n)); lia. }
    assert (step : forall x, length x = n -> exists d, newtonDelta solve polys n x = NOk d /\ plus x d = z).
    { intros x Lx. destruct (delta_ok solve HS n polys Hsys x Lx) as [(d & E & HD)|[_ N]].
      - exists d. split; auto. pose proof (proj1 HD) as Ld. apply Uz; [rewrite plus_length; congruence|]. apply DZ; auto. congruence.
      - exfalso. apply N. destruct (toz x Lx) as (d & Ld & Ed). exists d. split; [apply DZ; auto; rewrite Ed; auto|].
        intros d' HD'. pose proof (proj1 HD') as Ld'. apply (inj x); auto; [congruence|]. rewrite Ed. apply Uz; [rewrite plus_length; congruence|]. apply DZ; auto. congruence. }
    (* from the zero the loop stays there *)
    assert (stay : forall k, newtonLoop solve euclid polys n tol k z = NOk z).
    { induction k0 as [|k0 IH]; [reflexivity|]. rewrite loop_unfold. destruct (step z Lz) as (d & E & Ed). rewrite E. cbn [nbind]. rewrite vadd_plus, Ed, IH. destruct nltb; reflexivity. }
    rewrite loop_unfold. destruct (step root HL) as (d & E & Ed). rewrite E. cbn [nbind]. rewrite vadd_plus, Ed, stay. destruct nltb; reflexivity.
Qed.
Print Assumptions C89_degree_one_systems_are_solved.
