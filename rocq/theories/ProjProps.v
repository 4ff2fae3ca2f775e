(** * Properties C78 and C79: roots at infinity (ProjectiveSpace.py) *)
From Coq Require Import List Arith Bool Reals ZArith Lia Lra.
From Coquelicot Require Import Complex.
From Verif Require Import Num Tensor OneDSpec OneDModel OneDProofs OneDLink OneDProps ProjSpec ProjModel ProjProofs.
Import ListNotations.
Local Open Scope R_scope.
Local Open Scope C_scope.

Lemma zeroForm_root t m n x y : shp t = [m; n] -> (1 <= Nat.max m n)%nat -> degreeIs m n t (Nat.max m n - 1) ->
  isZeroForm (antidiagonal t) x y <-> rootAtInfinity m n t (Nat.max m n - 1) x y.
Proof. intros Hs Hl Hd. unfold isZeroForm, rootAtInfinity. rewrite (homogenised_form t m n) by auto. reflexivity. Qed.

(** C78: when the total degree of f is the larger side of its coefficient array less one, and the coefficient of
    x^d is zero or not below 1e-8, roots_at_inf lists precisely the roots at infinity. *)
Theorem C78_roots_at_infinity :
  forall eigvals eigLeft (f : tensor R) m n d,
    shp f = [m; n] -> d = (Nat.max m n - 1)%nat -> (1 <= d)%nat -> degreeIs m n f d ->
    ((d < m)%nat -> coef f d 0 = 0%R \/ (1 / 100000000 < Rabs (coef f d 0))%R) ->
    (forall n M, spectrum n M (eigvals n M)) -> (forall n M, leftSpectrum n M (eigLeft n M)) ->
    exists L, roots_at_inf eigvals eigLeft f = Points L /\
      (forall p, In p L -> exists x, fst p = Some x /\ rootAtInfinity m n f d x (snd p)) /\
      (forall x y, rootAtInfinity m n f d x y -> exists a b, In (Some a, b) L /\ samePoint (x, y) (a, b)).
Proof.
  intros e g f m n d Hs -> Hd Hdeg Hc He Hg.
  destruct (roots_spec e g He Hg f m n Hs ltac:(lia) Hdeg Hc) as [L [E [H1 H2]]]. exists L. split; auto. split.
  - intros p Hp. destruct (H1 p Hp) as [x [Ex Hz]]. exists x. split; auto. apply zeroForm_root; auto. lia.
  - intros x y Hr. apply H2. apply (zeroForm_root f m n); auto. lia.
Qed.
Print Assumptions C78_roots_at_infinity.

(** the first case of the list: not reached by the array above, each with a degree that the array does not show,
    or with a coefficient that passes for zero *)
Definition missesRoot (L : list point) (m n : nat) (f : tensor R) (d : nat) : Prop :=
  exists x y, rootAtInfinity m n f d x y /\ forall a b, In (Some a, b) L -> ~ samePoint (x, y) (a, b).
Definition inventsRoot (L : list point) (m n : nat) (f : tensor R) (d : nat) : Prop :=
  exists x y, In (Some x, y) L /\ ~ rootAtInfinity m n f d x y.

Ltac ad := unfold antidiagonal, size2, pad_with_zeros, tget, tbuild; cbn.
Ltac csolve := unfold Cplus, Cmult, Copp, RtoC; simpl; f_equal; lra.

(** a nonzero constant has no root at infinity, (1, 0) is returned *)
Theorem C78_constant_refuted :
  forall eigvals eigLeft (c : R), c <> 0%R ->
    degreeIs 1 1 (mkT [1; 1]%nat [c]) 0 /\
    exists L, roots_at_inf eigvals eigLeft (mkT [1; 1]%nat [c]) = Points L /\ inventsRoot L 1 1 (mkT [1; 1]%nat [c]) 0.
Proof.
  intros e g c Hc. split.
  - split; [exists 0%nat, 0%nat; unfold coef, tget; simpl; repeat split; auto|]. intros i j Hi Hj _. lia.
  - exists [(Some (RtoC 1), RtoC 0)]. split.
    + unfold roots_at_inf. cbn [shp].
      assert (E : antidiagonal (mkT [1; 1]%nat [c]) = [c]) by (ad; reflexivity). rewrite E. cbn [filter nth].
      rewrite (proj2 (nonzero_true c) Hc). reflexivity.
    + exists 1, 0. split; [left; reflexivity|]. intros [_ H]. apply Hc, RtoC_0_iff. rewrite <- H. unfold homogenised, coef, tget. simpl. ring.
Qed.
Print Assumptions C78_constant_refuted.

(** a coefficient of x^d below 1e-8 counts as zero: y + x/10^9 *)
Theorem C78_small_coefficient_refuted :
  forall eigvals eigLeft, exists f L, shp f = [2; 2]%nat /\ degreeIs 2 2 f 1 /\
    roots_at_inf eigvals eigLeft f = Points L /\ inventsRoot L 2 2 f 1.
Proof.
  intros e g. pose (eps := (1 / 1000000000)%R). pose (f := mkT [2; 2]%nat [0; 1; eps; 0]%R).
  assert (Hp : (0 < eps)%R) by (unfold eps; lra).
  assert (Ea : antidiagonal f = [1; eps]%R) by (ad; reflexivity).
  exists f. eexists. split; [reflexivity|]. split; [|split].
  - split; [exists 0%nat, 1%nat; unfold coef, tget; simpl; repeat split; auto; lra|].
    intros i j Hi Hj Hn. destruct i as [|[|i]]; destruct j as [|[|j]]; try lia. exfalso. apply Hn. reflexivity.
  - unfold roots_at_inf. cbn [shp f]. fold f. rewrite Ea. cbn [filter].
    rewrite (proj2 (nonzero_true 1)), (proj2 (nonzero_true eps)) by lra. cbn [length Nat.eqb].
    assert (Ec : clean1 [1; eps]%R = [1; eps]%R) by (unfold clean1; cbn; rewrite (proj2 (nonzero_true eps)) by lra; reflexivity).
    assert (Et : trimZeros [1; eps]%R = [1; eps]%R).
    { unfold trimZeros. cbn. destruct (Req_EM_T 1 0); [lra|]. cbn. destruct (Req_EM_T eps 0); [lra|]. reflexivity. }
    rewrite Ec. unfold solve1D. rewrite Et. cbn [Z.eqb orb negb length Nat.sub repeat multPower]. cbn [app last].
    assert (Hcl : isclose0 (RtoC eps) = true).
    { apply isclose0_spec. rewrite Cmod_R, Rabs_pos_eq by lra. unfold tiny, eps. lra. }
    rewrite Hcl. reflexivity.
  - exists 1, 0. split; [apply in_or_app; right; left; reflexivity|]. intros [_ H].
    assert (E : RtoC eps = 0) by (rewrite <- H; unfold homogenised, coef, tget; simpl; ring).
    apply RtoC_0_iff in E. lra.
Qed.
Print Assumptions C78_small_coefficient_refuted.

(** an array smaller than the degree: (1 + x)(1 + y) has (0, 1) and (1, 0), the answer is (-1, 1) *)
Theorem C78_degree_above_the_array_refuted :
  forall eigvals eigLeft, exists f L, shp f = [2; 2]%nat /\ degreeIs 2 2 f 2 /\
    roots_at_inf eigvals eigLeft f = Points L /\ inventsRoot L 2 2 f 2 /\ missesRoot L 2 2 f 2.
Proof.
  intros e g. pose (f := mkT [2; 2]%nat [1; 1; 1; 1]%R).
  assert (Ea : antidiagonal f = [1; 1]%R) by (ad; reflexivity).
  exists f, [(Some (RtoC (-1)), RtoC 1)]. split; [reflexivity|]. split; [|split; [|split]].
  - split; [exists 1%nat, 1%nat; unfold coef, tget; simpl; repeat split; auto; lra|]. intros i j Hi Hj _. lia.
  - unfold roots_at_inf. cbn [shp f]. fold f. rewrite Ea. cbn [filter].
    rewrite (proj2 (nonzero_true 1)) by lra. cbn [length Nat.eqb].
    assert (Ec : clean1 [1; 1]%R = [1; 1]%R) by (unfold clean1; cbn; rewrite (proj2 (nonzero_true 1)) by lra; reflexivity).
    assert (Et : trimZeros [1; 1]%R = [1; 1]%R).
    { unfold trimZeros. cbn. destruct (Req_EM_T 1 0); [lra|]. cbn. destruct (Req_EM_T 1 0); [lra|]. reflexivity. }
    rewrite Ec. unfold solve1D. rewrite Et. cbn [Z.eqb orb negb length Nat.sub repeat multPower]. cbn [app last].
    assert (Hcl : isclose0 (RtoC 1) = false).
    { destruct (isclose0 (RtoC 1)) eqn:E; auto. apply isclose0_spec in E. rewrite Cmod_R, Rabs_pos_eq in E by lra. unfold tiny in E. lra. }
    rewrite Hcl. unfold cdiv. cbn [fst snd RtoC]. destruct (Req_EM_T 1 0); [lra|]. cbn [map app].
    assert (Eq : RtoC (- (1)) / (1%R, 0%R) = RtoC (-1)) by (change (1%R, 0%R) with (RtoC 1); rewrite <- RtoC_div by lra; apply (f_equal RtoC); field).
    rewrite <- Eq. reflexivity.
  - exists (RtoC (-1)), 1. split; [left; reflexivity|]. intros [_ H].
    assert (E : RtoC (-1) = 0) by (rewrite <- H; unfold homogenised, coef, tget; simpl; ring).
    apply RtoC_0_iff in E. lra.
  - exists 0, 1. split; [split; [right; apply C1_nz|unfold homogenised, coef, tget; simpl; ring]|].
    intros a b [E|[]] [s [Hs [E1 E2]]]. injection E as <- <-. cbn [fst snd] in *.
    apply Hs. transitivity (- (s * RtoC (-1))); [clear; destruct s; unfold Copp, Cmult, RtoC; simpl; f_equal; ring|]. rewrite <- E1. ring.
Qed.
Print Assumptions C78_degree_above_the_array_refuted.

(** a homogeneous polynomial: x^3 y - x y^3 has the root (1, 1), the answer is (0, 1) and (1, 0) *)
Theorem C78_homogeneous_refuted :
  forall eigvals eigLeft, exists f L, shp f = [4; 4]%nat /\ degreeIs 4 4 f 4 /\
    (forall i j, (i < 4)%nat -> (j < 4)%nat -> coef f i j <> 0%R -> (i + j = 4)%nat) /\
    roots_at_inf eigvals eigLeft f = Points L /\ missesRoot L 4 4 f 4.
Proof.
  intros e g. pose (f := mkT [4; 4]%nat [0;0;0;0; 0;0;0;-1; 0;0;0;0; 0;1;0;0]%R).
  assert (Ea : antidiagonal f = [0; 0; 0; 0]%R) by (ad; reflexivity).
  assert (Hh : forall i j, (i < 4)%nat -> (j < 4)%nat -> coef f i j <> 0%R -> (i + j = 4)%nat).
  { intros i j Hi Hj. destruct i as [|[|[|[|i]]]]; try lia; destruct j as [|[|[|[|j]]]]; try lia; unfold coef, tget; simpl; intros H; try lia; exfalso; apply H; reflexivity. }
  assert (H0 : nonzero 0 = false) by now apply nonzero_false.
  exists f, [(Some (RtoC 0), RtoC 1); (Some (RtoC 1), RtoC 0)]. split; [reflexivity|]. split; [|split; [exact Hh|split]].
  - split; [exists 3%nat, 1%nat; unfold coef, tget; simpl; repeat split; auto; lra|]. intros i j Hi Hj Hn. rewrite (Hh i j Hi Hj Hn). lia.
  - unfold roots_at_inf. cbn [shp f]. fold f. rewrite Ea. cbn [filter]. rewrite H0. cbn [length Nat.eqb].
    assert (Ec : clean1 [0; 0; 0; 0]%R = [0]%R) by (unfold clean1; cbn; rewrite H0; reflexivity).
    assert (Et : trimZeros [0]%R = []).
    { unfold trimZeros. cbn. destruct (Req_EM_T 0 0); [|lra]. reflexivity. }
    rewrite Ec. unfold solve1D. rewrite Et. cbn [Z.eqb orb negb length Nat.sub repeat multPower]. cbn [app last map].
    assert (Hcl : isclose0 (RtoC 0) = true) by (apply isclose0_spec; rewrite Cmod_0; unfold tiny; lra).
    rewrite Hcl. reflexivity.
  - assert (Em : RtoC (-1) = - (1)) by (unfold Copp, RtoC; simpl; f_equal; ring).
    exists 1, 1. split; [split; [right; apply C1_nz|unfold homogenised, coef, tget; simpl; rewrite Em; ring]|].
    intros a b [E|[E|[]]] [s [Hs [E1 E2]]]; injection E as <- <-; cbn [fst snd] in *; apply C1_nz; [rewrite E1|rewrite E2]; ring.
Qed.
Print Assumptions C78_homogeneous_refuted.

(** x^2 - 3 x y + 2 y^2 + x - 1: (2, 1) and (1, 1) *)
Example C78_case :
  exists eigvals eigLeft, (forall n M, spectrum n M (eigvals n M)) /\ (forall n M, leftSpectrum n M (eigLeft n M)) /\
    let f := mkT [3; 3]%nat [-1; 0; 2; 1; -3; 0; 1; 0; 0]%R in
    degreeIs 3 3 f 2 /\ exists L, roots_at_inf eigvals eigLeft f = Points L /\
      (exists a b, In (Some a, b) L /\ samePoint (RtoC 2, RtoC 1) (a, b)) /\ (exists a b, In (Some a, b) L /\ samePoint (RtoC 1, RtoC 1) (a, b)) /\
      ~ In (Some (RtoC 1), RtoC 0) L.
Proof.
  destruct exact_eigenvalue_routines_exist as [e [g [He Hg]]]. exists e, g. split; auto. split; auto. intros f.
  assert (Hdeg : degreeIs 3 3 f 2).
  { split; [exists 2%nat, 0%nat; unfold coef, tget; simpl; repeat split; auto; lra|].
    intros i j Hi Hj. destruct i as [|[|[|i]]]; try lia; destruct j as [|[|[|j]]]; try lia; unfold coef, tget; simpl; intros H; try lia; exfalso; apply H; reflexivity. }
  split; auto.
  destruct (C78_roots_at_infinity e g f 3 3 2 eq_refl eq_refl ltac:(lia) Hdeg) as [L [E [H1 H2]]]; auto.
  { intros _. right. unfold coef, tget. simpl. rewrite Rabs_pos_eq; lra. }
  exists L. split; auto.
  assert (Ea : antidiagonal f = [2; -3; 1]%R) by (ad; reflexivity).
  assert (Eh : forall x y, homogenised 3 3 f 2 x y 0 = form [2; -3; 1]%R x y) by (intros x y; rewrite <- Ea; exact (homogenised_form f 3 3 eq_refl ltac:(simpl; lia) Hdeg x y)).
  split; [|split].
  - apply H2. split; [right; apply C1_nz|]. rewrite Eh, form_at_one. unfold powerValue. simpl. unfold Cplus, Cmult, RtoC. simpl. f_equal; lra.
  - apply H2. split; [right; apply C1_nz|]. rewrite Eh, form_at_one. unfold powerValue. simpl. unfold Cplus, Cmult, RtoC. simpl. f_equal; lra.
  - intros Hin. destruct (H1 _ Hin) as [x [Ex [_ Hz]]]. cbn [fst snd] in *. injection Ex as <-.
    rewrite Eh, form_at_infinity in Hz by (simpl; lia). apply C1_nz. rewrite <- Hz. simpl. ring.
Qed.

(** ** C79: a common root at infinity *)
Definition commonAtInfinity (m n : nat) (f : tensor R) (d : nat) (m' n' : nat) (g : tensor R) (d' : nat) : Prop :=
  exists x y, rootAtInfinity m n f d x y /\ rootAtInfinity m' n' g d' x y.

(** what is tested: the roots of f are put into the top form of g with x and y exchanged *)
Theorem C79_tests_exchanged_coordinates :
  forall eigvals eigLeft (f g : tensor R) m n d m' n' d',
    shp f = [m; n] -> d = (Nat.max m n - 1)%nat -> (1 <= d)%nat -> degreeIs m n f d ->
    ((d < m)%nat -> coef f d 0 = 0%R \/ (1 / 100000000 < Rabs (coef f d 0))%R) ->
    shp g = [m'; n'] -> d' = (Nat.max m' n' - 1)%nat -> (1 <= d')%nat -> degreeIs m' n' g d' ->
    (forall n M, spectrum n M (eigvals n M)) -> (forall n M, leftSpectrum n M (eigLeft n M)) ->
    exists b, common_root_at_inf eigvals eigLeft f g false = Just b /\
      (b = true <->
        (exists x, rootAtInfinity m n f d x 1 /\ (Cmod (homogenised m' n' g d' 1 x 0) <= 1 / 100000000)%R) \/
        (rootAtInfinity m n f d 1 0 /\ (Cmod (homogenised m' n' g d' 1 0 0) <= 1 / 100000000)%R)).
Proof.
  intros e h f g m n d m' n' d' Hs -> Hd Hdeg Hc Hs' -> Hd' Hdeg' He Hh.
  destruct (common_spec e h He Hh f g m n m' n' Hs ltac:(lia) Hdeg Hc Hs' ltac:(lia)) as [L [_ H]].
  assert (Hrep : reported f g <->
      (exists x, rootAtInfinity m n f (Nat.max m n - 1) x 1 /\ (Cmod (homogenised m' n' g (Nat.max m' n' - 1) 1 x 0) <= 1 / 100000000)%R) \/
      (rootAtInfinity m n f (Nat.max m n - 1) 1 0 /\ (Cmod (homogenised m' n' g (Nat.max m' n' - 1) 1 0 0) <= 1 / 100000000)%R)).
  { unfold reported. rewrite (zeroForm_root f m n 1 0), (homogenised_form g m' n' Hs' ltac:(lia) Hdeg' 1 0) by (auto; lia).
    fold tiny. split; intros [[x [H1 H2]]|H1]; try (right; exact H1); left; exists x; revert H1 H2;
      rewrite (zeroForm_root f m n x 1), (homogenised_form g m' n' Hs' ltac:(lia) Hdeg' 1 x) by (auto; lia); auto. }
  destruct H as [[Hr [E _]]|[Hr E]].
  - exists true. split; auto. rewrite <- Hrep. tauto.
  - exists false. split; auto. rewrite <- Hrep. split; [discriminate|tauto].
Qed.
Print Assumptions C79_tests_exchanged_coordinates.

(** hence: when the top form of g does not change if x and y are exchanged, a common root is always found *)
Theorem C79_symmetric_second_polynomial :
  forall eigvals eigLeft (f g : tensor R) m n d m' n' d',
    shp f = [m; n] -> d = (Nat.max m n - 1)%nat -> (1 <= d)%nat -> degreeIs m n f d ->
    ((d < m)%nat -> coef f d 0 = 0%R \/ (1 / 100000000 < Rabs (coef f d 0))%R) ->
    shp g = [m'; n'] -> d' = (Nat.max m' n' - 1)%nat -> (1 <= d')%nat -> degreeIs m' n' g d' ->
    (forall x y, homogenised m' n' g d' x y 0 = homogenised m' n' g d' y x 0) ->
    (forall n M, spectrum n M (eigvals n M)) -> (forall n M, leftSpectrum n M (eigLeft n M)) ->
    commonAtInfinity m n f d m' n' g d' -> common_root_at_inf eigvals eigLeft f g false = Just true.
Proof.
  intros e h f g m n d m' n' d' Hs Ed Hd Hdeg Hc Hs' Ed' Hd' Hdeg' Hsym He Hh [x [y [[Hxy Hf] [_ Hg]]]].
  destruct (C79_tests_exchanged_coordinates e h f g m n d m' n' d' Hs Ed Hd Hdeg Hc Hs' Ed' Hd' Hdeg' He Hh) as [b [E Hb]].
  rewrite E. f_equal. apply Hb. subst d d'.
  rewrite (homogenised_form f m n Hs ltac:(lia) Hdeg) in Hf. rewrite (homogenised_form g m' n' Hs' ltac:(lia) Hdeg') in Hg.
  assert (Z : (Cmod 0 <= 1 / 100000000)%R) by (rewrite Cmod_0; lra).
  destruct (Ceq_dec y 0) as [->|Hy].
  - assert (Hx : x <> 0) by tauto. right.
    assert (Hdown : forall v, form v x 0 = 0 -> form v 1 0 = 0).
    { intros v Hv. replace x with (x * 1) in Hv by ring. replace (RtoC 0) with (x * 0) in Hv at 1 by ring. rewrite form_scale in Hv.
      apply cmult_integral in Hv. destruct Hv as [Hv|Hv]; auto. destruct (cpow_nz x _ Hx Hv). }
    split.
    + split; [left; apply C1_nz|]. rewrite (homogenised_form f m n Hs ltac:(lia) Hdeg). auto.
    + rewrite (homogenised_form g m' n' Hs' ltac:(lia) Hdeg'), (Hdown _ Hg). exact Z.
  - left. exists (x / y).
    assert (Hdown : forall v, form v x y = 0 -> form v (x / y) 1 = 0).
    { intros v Hv. replace x with (y * (x / y)) in Hv by (field; auto). replace y with (y * 1) in Hv at 3 by ring. rewrite form_scale in Hv.
      apply cmult_integral in Hv. destruct Hv as [Hv|Hv]; auto. destruct (cpow_nz y _ Hy Hv). }
    split.
    + split; [right; apply C1_nz|]. rewrite (homogenised_form f m n Hs ltac:(lia) Hdeg). auto.
    + rewrite Hsym, (homogenised_form g m' n' Hs' ltac:(lia) Hdeg'), (Hdown _ Hg). exact Z.
Qed.
Print Assumptions C79_symmetric_second_polynomial.

(** a x + b y with b and a not zero: its only root at infinity is (-b, a) *)
Definition line (a b : R) : tensor R := mkT [2; 2]%nat [0; b; a; 0]%R.
Lemma line_degree a b : b <> 0%R -> degreeIs 2 2 (line a b) 1.
Proof.
  intros Hb. split; [exists 0%nat, 1%nat; unfold coef, tget; simpl; repeat split; auto|].
  intros i j Hi Hj. destruct i as [|[|i]]; try lia; destruct j as [|[|j]]; try lia; unfold coef, tget; simpl; intros H; try lia; exfalso; apply H; reflexivity.
Qed.
Lemma line_value a b x y : b <> 0%R -> homogenised 2 2 (line a b) 1 x y 0 = RtoC b * y + RtoC a * x.
Proof.
  intros Hb. rewrite (homogenised_form (line a b) 2 2 eq_refl ltac:(simpl; lia) (line_degree a b Hb)).
  assert (E : antidiagonal (line a b) = [b; a]) by (ad; reflexivity). rewrite E. unfold form. simpl. ring.
Qed.

(** both ways wrong: x - 2y and itself share (2, 1), the answer is False *)
Theorem C79_common_root_missed_refuted :
  forall eigvals eigLeft, (forall n M, spectrum n M (eigvals n M)) -> (forall n M, leftSpectrum n M (eigLeft n M)) ->
  exists f g : tensor R, shp f = [2; 2]%nat /\ degreeIs 2 2 f 1 /\ shp g = [2; 2]%nat /\ degreeIs 2 2 g 1 /\
    commonAtInfinity 2 2 f 1 2 2 g 1 /\ common_root_at_inf eigvals eigLeft f g false = Just false.
Proof.
  intros e h He Hh. exists (line 1 (-2)), (line 1 (-2)).
  assert (Hd : degreeIs 2 2 (line 1 (-2)) 1) by (apply line_degree; lra).
  split; auto. split; auto. split; auto. split; auto. split.
  - exists (RtoC 2), (RtoC 1). assert (Hr : rootAtInfinity 2 2 (line 1 (-2)) 1 (RtoC 2) (RtoC 1)).
    { split; [right; apply C1_nz|]. rewrite line_value by lra. csolve. } auto.
  - destruct (C79_tests_exchanged_coordinates e h (line 1 (-2)) (line 1 (-2)) 2 2 1 2 2 1 eq_refl eq_refl ltac:(lia) Hd) as [b [E Hb]]; auto.
    { intros _. right. unfold coef, tget. simpl. rewrite Rabs_pos_eq; lra. }
    rewrite E. destruct b; auto. exfalso. destruct (proj1 Hb eq_refl) as [[x [[_ Hx] Hm]]|[[_ Hx] _]].
    + rewrite line_value in Hx, Hm by lra. assert (Ex : x = RtoC 2).
      { transitivity (RtoC (-2) * 1 + RtoC 1 * x + RtoC 2); [|rewrite Hx; ring]. destruct x. csolve. }
      subst x. replace (RtoC (-2) * RtoC 2 + RtoC 1 * 1) with (RtoC (-3)) in Hm by csolve.
      rewrite Cmod_R, Rabs_left in Hm by lra. lra.
    + rewrite line_value in Hx by lra. apply C1_nz. rewrite <- Hx. ring.
Qed.
Print Assumptions C79_common_root_missed_refuted.

(** x - 2y and 2x - y have no common root at infinity, the answer is True *)
Theorem C79_common_root_invented_refuted :
  forall eigvals eigLeft, (forall n M, spectrum n M (eigvals n M)) -> (forall n M, leftSpectrum n M (eigLeft n M)) ->
  exists f g : tensor R, shp f = [2; 2]%nat /\ degreeIs 2 2 f 1 /\ shp g = [2; 2]%nat /\ degreeIs 2 2 g 1 /\
    ~ commonAtInfinity 2 2 f 1 2 2 g 1 /\ common_root_at_inf eigvals eigLeft f g false = Just true.
Proof.
  intros e h He Hh. exists (line 1 (-2)), (line 2 (-1)).
  assert (Hd : degreeIs 2 2 (line 1 (-2)) 1) by (apply line_degree; lra).
  assert (Hd' : degreeIs 2 2 (line 2 (-1)) 1) by (apply line_degree; lra).
  split; auto. split; auto. split; auto. split; auto. split.
  - intros [x [y [[Hxy Hf] [_ Hg]]]]. rewrite line_value in Hf, Hg by lra.
    assert (Ey : y = 0).
    { transitivity ((RtoC 2 * (RtoC (-2) * y + RtoC 1 * x) + RtoC (-1) * (RtoC (-1) * y + RtoC 2 * x)) * RtoC (- / 3)); [destruct x, y; unfold Cplus, Cmult, RtoC; simpl; f_equal; field|rewrite Hf, Hg; ring]. }
    subst y. destruct Hxy as [Hx|Hx]; [|apply Hx; reflexivity]. apply Hx. rewrite <- Hf. ring.
  - destruct (C79_tests_exchanged_coordinates e h (line 1 (-2)) (line 2 (-1)) 2 2 1 2 2 1 eq_refl eq_refl ltac:(lia) Hd) as [b [E Hb]]; auto.
    { intros _. right. unfold coef, tget. simpl. rewrite Rabs_pos_eq; lra. }
    rewrite E. f_equal. apply Hb. left. exists (RtoC 2). split.
    + split; [right; apply C1_nz|]. rewrite line_value by lra. csolve.
    + rewrite line_value by lra. replace (RtoC (-1) * RtoC 2 + RtoC 2 * 1) with (RtoC 0) by csolve. rewrite Cmod_0. lra.
Qed.
Print Assumptions C79_common_root_invented_refuted.

(** with return_root=True the answer is a pair (True, root) or the single value False; the root is one of those listed for f *)
Theorem C79_return_root :
  forall eigvals eigLeft (f g : tensor R) m n m' n',
    shp f = [m; n] -> (2 <= Nat.max m n)%nat -> degreeIs m n f (Nat.max m n - 1) ->
    ((Nat.max m n - 1 < m)%nat -> coef f (Nat.max m n - 1) 0 = 0%R \/ (1 / 100000000 < Rabs (coef f (Nat.max m n - 1) 0))%R) ->
    shp g = [m'; n'] -> (1 <= Nat.max m' n')%nat ->
    (forall n M, spectrum n M (eigvals n M)) -> (forall n M, leftSpectrum n M (eigLeft n M)) ->
    (common_root_at_inf eigvals eigLeft f g false = Just true /\
     exists L p, roots_at_inf eigvals eigLeft f = Points L /\ In p L /\ common_root_at_inf eigvals eigLeft f g true = TrueWith p) \/
    (common_root_at_inf eigvals eigLeft f g false = Just false /\ common_root_at_inf eigvals eigLeft f g true = Just false).
Proof.
  intros e h f g m n m' n' Hs Hl Hd Hc Hs' Hl' He Hh.
  destruct (common_spec e h He Hh f g m n m' n' Hs Hl Hd Hc Hs' Hl') as [L [E [[_ [E1 [p [Hp E2]]]]|[_ E1]]]]; [left|right].
  - split; auto. exists L, p. auto.
  - split; apply E1.
Qed.
Print Assumptions C79_return_root.

(** x + y with itself (symmetric): the common root (-1, 1) is found *)
Example C79_case :
  exists eigvals eigLeft, (forall n M, spectrum n M (eigvals n M)) /\ (forall n M, leftSpectrum n M (eigLeft n M)) /\
    commonAtInfinity 2 2 (line 1 1) 1 2 2 (line 1 1) 1 /\
    common_root_at_inf eigvals eigLeft (line 1 1) (line 1 1) false = Just true.
Proof.
  destruct exact_eigenvalue_routines_exist as [e [h [He Hh]]]. exists e, h. split; auto. split; auto.
  assert (Hd : degreeIs 2 2 (line 1 1) 1) by (apply line_degree; lra).
  assert (Hc : commonAtInfinity 2 2 (line 1 1) 1 2 2 (line 1 1) 1).
  { exists (RtoC (-1)), (RtoC 1). assert (Hr : rootAtInfinity 2 2 (line 1 1) 1 (RtoC (-1)) (RtoC 1)).
    { split; [right; apply C1_nz|]. rewrite line_value by lra. csolve. } auto. }
  split; auto. apply (C79_symmetric_second_polynomial e h (line 1 1) (line 1 1) 2 2 1 2 2 1); auto.
  - intros _. right. unfold coef, tget. simpl. rewrite Rabs_pos_eq; lra.
  - intros x y. rewrite !line_value by lra. ring.
Qed.
