(** * Property theorems C94 and C95: the checks are exact *)
From Coq Require Import List Arith Bool ZArith Reals Lra Lia.
From Verif Require Import Num RSum Cheb Tensor PolySpec IntervalModel QuadNdFaces GaussExample.
From Verif Require QuadModel SubcheckModel.
From Verif Require Import LinearModel QuadSharpSpec QuadSharp SubcheckSharp.
From Verif Require Import IntervalProofs LinearProofs.
Import ListNotations.
Local Open Scope R_scope.

(** ** C94 *)
(** [lowPart] and [highSum] are in QuadSharpSpec.v: the terms of degree at most two, and the sum of the absolute
    values of the other coefficients.  On a set P of points the first clears the second plus the tolerance: *)
Definition clears (P : list R -> Prop) (M : tensor R) (tol : R) : Prop :=
  (forall x, P x -> highSum M + tol <= lowPart M x) \/ (forall x, P x -> lowPart M x <= - (highSum M + tol)).

(** quadratic_check of QuadraticCheck.py, on [-1,1]^n, in any number of variables *)
Theorem C94_quadratic_check_is_exact :
  forall (rank_full : list (list R) -> bool) (solve : list (list R) -> list R -> list R) (M : tensor R) (tol : R) (nd_check : bool),
    wf M -> sym_solver_ok (ndim M) rank_full solve ->
    (@QuadModel.quadratic_check R R_num rank_full solve M tol nd_check = true <-> clears (in_cube (ndim M)) M tol).
Proof.
  intros rk sv M tol nd Hwf Hor. unfold QuadModel.quadratic_check, clears.
  destruct (Nat.eqb_spec (ndim M) 2) as [E|]; destruct nd; cbn [andb negb]; try (rewrite andb_false_r; apply quadN_sharp; auto).
  - rewrite E. apply quad2_sharp; auto.
  - destruct (Nat.eqb_spec (ndim M) 3) as [E|]; cbn [andb]; [rewrite E; apply quad3_sharp; auto|apply quadN_sharp; auto].
Qed.
Print Assumptions C94_quadratic_check_is_exact.

(** quadratic_check of IntervalChecks.py, on a list of boxes: up to three variables, or boxes whose sides are all
    the same interval *)
Theorem C94_subinterval_check_is_exact :
  forall (rank_full : list (list R) -> bool) (solve : list (list R) -> list R -> list R)
         (M : tensor R) (mask : list bool) (tol : R) (subs : list (list R * list R)) (j : nat) (a b : list R),
    wf M -> sym_solver_ok (ndim M) rank_full solve ->
    nth_error mask j = Some true -> nth_error subs j = Some (a, b) -> length a = ndim M -> length b = ndim M ->
    (forall i, (i < ndim M)%nat -> nth i a 0 <= nth i b 0) ->
    (ndim M <= 3)%nat \/ (forall i, (i < ndim M)%nat -> nth i a 0 = nth 0 a 0 /\ nth i b 0 = nth 0 b 0) ->
    (nth_error (@SubcheckModel.quadratic_check R R_num rank_full solve M mask tol subs) j = Some true <->
     clears (fun x => length x = ndim M /\ forall i, (i < ndim M)%nat -> nth i a 0 <= nth i x 0 <= nth i b 0) M tol).
Proof.
  intros rk sv M mask tol subs j a b Hwf Hor Hm Hs La Lb Hab Hd.
  assert (E : nth_error (@SubcheckModel.quadratic_check R R_num rk sv M mask tol subs) j = Some (SubcheckModel.throwOne rk sv M tol (a, b))).
  { unfold SubcheckModel.quadratic_check. rewrite nth_error_map.
    assert (Ec : nth_error (combine mask subs) j = Some (true, (a, b))).
    { clear - Hm Hs. revert subs j Hm Hs. induction mask as [|m mask IH]; intros [|s subs] [|j] Hm Hs; simpl in *; try discriminate; [congruence|apply IH; auto]. }
    etransitivity; [exact (f_equal (option_map _) Ec)|reflexivity]. }
  rewrite E. clear E. unfold clears. change (fun x : list R => length x = ndim M /\ forall i, (i < ndim M)%nat -> nth i a 0 <= nth i x 0 <= nth i b 0) with (boxpt (ndim M) (a, b)).
  assert (Es : Some (SubcheckModel.throwOne rk sv M tol (a, b)) = Some true <-> SubcheckModel.throwOne rk sv M tol (a, b) = true).
  { split; [intros H; injection H; auto|intros ->; auto]. }
  rewrite Es. clear Es. unfold SubcheckModel.throwOne.
  destruct (Nat.eqb_spec (ndim M) 2) as [E|N2]; [rewrite E in *; apply throw2_sharp; auto; unfold SubcheckModel.lo, SubcheckModel.hi; cbn [fst snd]; apply Hab; lia|].
  destruct (Nat.eqb_spec (ndim M) 3) as [E|N3]; [rewrite E in *; apply throw3_sharp; auto; unfold SubcheckModel.lo, SubcheckModel.hi; cbn [fst snd]; apply Hab; lia|].
  assert (Hside : forall i, (i < ndim M)%nat -> nth i a 0 = nth 0 a 0 /\ nth i b 0 = nth 0 b 0).
  { destruct Hd as [Hd|Hd]; auto. intros i Hi. assert (i = 0%nat) by lia. subst; auto. }
  apply throwN_sharp; auto. unfold SubcheckModel.lo, SubcheckModel.hi. cbn [fst snd].
  destruct (Nat.eq_dec (ndim M) 0) as [E0|]; [|apply Hab; lia]. rewrite E0 in *. destruct a; destruct b; try discriminate. cbn [nth n0 R_num]. apply Rle_refl.
Qed.
Print Assumptions C94_subinterval_check_is_exact.

(** 3 + x + y with the tolerance 1/2 and the coefficient 1/4 of T_1(x) T_2(y): the check says there is no zero *)
Definition plane : tensor R := mkT [2;3]%nat [3; 1; 0; 1; 0; 1/4].
Lemma plane_low x y : lowPart plane [x; y] = 3 + x + y.
Proof. unfold lowPart. cbn. rewrite ?chebT_0, ?chebT_1, ?chebT_2. unfold tget. cbn. ring. Qed.
Lemma plane_high : highSum plane = 1/4.
Proof. unfold highSum. cbn. unfold tget. cbn. rewrite Rabs_right by lra. ring. Qed.
Example C94_case : wf plane /\ sym_solver_ok (ndim plane) (@gauss_rank R R_num) (@gauss_solve R R_num) /\
  @QuadModel.quadratic_check R R_num (@gauss_rank R R_num) (@gauss_solve R R_num) plane (1/2) false = true /\
  @QuadModel.quadratic_check R R_num (@gauss_rank R R_num) (@gauss_solve R R_num) plane 1 true = false.
Proof.
  assert (W : wf plane) by (unfold plane; repeat constructor). assert (G : sym_solver_ok (ndim plane) (@gauss_rank R R_num) (@gauss_solve R R_num)) by apply gauss_ok.
  split; [exact W|]. split; [exact G|]. split.
  - apply (C94_quadratic_check_is_exact _ _ plane (1/2) false W G). left. intros x [Hl Hx]. destruct x as [|x [|y [|? ?]]]; try discriminate.
    inversion Hx as [|? ? Hx1 Hx2]; subst. inversion Hx2; subst. rewrite plane_low, plane_high. lra.
  - apply not_true_iff_false. intros H. apply (C94_quadratic_check_is_exact _ _ plane 1 true W G) in H.
    assert (P1 : in_cube (ndim plane) [-1; -1]) by (split; [reflexivity|repeat constructor; lra]).
    destruct H as [H|H]; specialize (H _ P1); rewrite plane_low, plane_high in H; lra.
Qed.

(** ** C95 *)
(** v lies between two bounds, None being no bound *)
Definition within (p : option R * option R) (v : R) : Prop :=
  match fst p with None => True | Some a => a <= v end /\ match snd p with None => True | Some b => v <= b end.

(** linearCheck1: for the rows a_1 x_1 + ... + a_n x_n + c with total t (the sum of the absolute values of all
    coefficients and the error), a value v of variable [col] is kept exactly when no row with a nonzero coefficient
    a of that variable excludes it, that is, when what is left of the total, t - |a| - |c|, can bring a v + c to 0 *)
Theorem C95_linear_check_is_exact :
  forall (rows : list (lrow R)) (dim col : nat) (v : R), (col < dim)%nat ->
    (within (nth col (@linearCheck1 R R_num rows dim) (None, None)) v <->
     forall r, In r rows -> nth col (lA r) 0 <> 0 ->
       exists rest, Rabs rest <= ltot r - Rabs (nth col (lA r) 0) - Rabs (lc r) /\ nth col (lA r) 0 * v + lc r + rest = 0).
Proof.
  intros rows dim col v Hc. unfold linearCheck1. rewrite nth_map_seq by auto. unfold linCol.
  set (ok := fun r : lrow R => nth col (lA r) 0 <> 0 -> exists rest, Rabs rest <= ltot r - Rabs (nth col (lA r) 0) - Rabs (lc r) /\ nth col (lA r) 0 * v + lc r + rest = 0).
  set (f := fun (ab : option R * option R) (r : lrow R) => _).
  assert (H1 : forall ab r, within (f ab r) v <-> within ab v /\ ok r).
  { intros [oa ob] r. unfold f, ok. cbv zeta. rnum. set (a := nth col (lA r) 0). destruct (Reqb a 0) eqn:E.
    - apply Reqb_true in E. tauto.
    - apply Reqb_false in E.
      assert (Hb : forall x y, @lcBounds R R_num (ltot r) a (lc r) = (x, y) -> (x <= v <= y <-> exists rest, Rabs rest <= ltot r - Rabs a - Rabs (lc r) /\ a * v + lc r + rest = 0)).
      { intros x y. unfold lcBounds, ngeb. rnum. rewrite n2_R.
        set (c := lc r). set (t := ltot r). clearbody a c t. clear - E.
        assert (Hex : (exists rest, Rabs rest <= t - Rabs a - Rabs c /\ a * v + c + rest = 0) <-> Rabs (a * v + c) <= t - Rabs a - Rabs c).
        { split; [intros (rest & Hr & He)|intros H; exists (- (a * v + c)); rewrite Rabs_Ropp; split; [auto|ring]].
          replace (a * v + c) with (- rest) by lra. rewrite Rabs_Ropp. auto. }
        rewrite Hex. clear Hex. pose (k := c / a). assert (Ek : c = k * a) by (unfold k; field; auto).
        assert (Pa : 0 < Rabs a) by (apply Rabs_pos_lt; auto).
        assert (Hk : Rabs (a * v + c) <= t - Rabs a - Rabs c <-> Rabs (v + k) <= t / Rabs a - 1 - Rabs k).
        { rewrite Ek. replace (a * v + k * a) with (a * (v + k)) by ring. rewrite !Rabs_mult.
          set (u := t / Rabs a). assert (Et : t = u * Rabs a) by (unfold u; field; lra). rewrite Et. set (w := Rabs a) in *. clearbody w. split; intros H; nra. }
        rewrite Hk. clear Hk. replace (2 * c / a) with (2 * k) by (unfold k; field; auto). set (u := t / Rabs a). clearbody u k.
        destruct (Rleb 0 (2 * k)) eqn:El; [apply Rleb_true in El|apply Rleb_false in El]; intros H; injection H; intros <- <-.
        - rewrite (Rabs_right k) by lra. split; [intros []; apply Rabs_le; lra|intros H'; apply abs_le_iff in H'; lra].
        - rewrite (Rabs_left k) by lra. split; [intros []; apply Rabs_le; lra|intros H'; apply abs_le_iff in H'; lra]. }
      destruct (@lcBounds R R_num (ltot r) a (lc r)) as [x y]. specialize (Hb x y eq_refl).
      unfold within. cbn [fst snd].
      assert (Hmx : match omax oa x with None => True | Some a => a <= v end <-> match oa with None => True | Some a => a <= v end /\ x <= v).
      { destruct oa; simpl; [|tauto]. rewrite nmax_R. split; [intros H; pose proof (Rmax_l r0 x); pose proof (Rmax_r r0 x); lra|intros []; apply Rmax_lub; auto]. }
      assert (Hmn : match omin ob y with None => True | Some b => v <= b end <-> match ob with None => True | Some b => v <= b end /\ v <= y).
      { destruct ob; simpl; [|tauto]. rewrite nmin_R. split; [intros H; pose proof (Rmin_l r0 y); pose proof (Rmin_r r0 y); lra|intros []; apply Rmin_glb; auto]. }
      rewrite Hmx, Hmn. split; [intros [[? ?] [? ?]]; split; [tauto|intros _; apply Hb; auto]|intros [[? ?] Ho]; specialize (Ho E); apply Hb in Ho; tauto]. }
  assert (H2 : forall rows ab, within (fold_left f rows ab) v <-> within ab v /\ forall r, In r rows -> ok r).
  { clear rows. induction rows as [|r rows IH]; intros ab; simpl; [split; [intros; split; [auto|intros ? []]|tauto]|].
    rewrite IH, H1. split; [intros [[? ?] ?]; split; [auto|intros r' [<-|?]; auto]|intros [? ?]; auto]. }
  rewrite H2. unfold within. cbn [fst snd]. split; [intros [_ H]; exact H|intros H; split; [tauto|exact H]].
Qed.
Print Assumptions C95_linear_check_is_exact.

(** 2 x + 1 with the total 4: the values kept are those between -1 and 0 *)
Example C95_case : within (nth 0 (@linearCheck1 R R_num [mkRow [2; 0] 1 4 1 0] 2) (None, None)) (-1/2) /\
  ~ within (nth 0 (@linearCheck1 R R_num [mkRow [2; 0] 1 4 1 0] 2) (None, None)) (1/10).
Proof.
  split.
  - apply C95_linear_check_is_exact; [lia|]. intros r [<-|[]] _. cbn [lA lc ltot nth]. exists 0. rewrite Rabs_R0, !Rabs_right by lra. lra.
  - intros W. pose proof (proj1 (C95_linear_check_is_exact [mkRow [2; 0] 1 4 1 0] 2 0 (1/10) ltac:(lia)) W) as H. specialize (H _ (or_introl eq_refl)). cbn [lA lc ltot nth] in H. destruct (H ltac:(lra)) as (rest & H1 & H2).
    rewrite (Rabs_right 2), (Rabs_right 1) in H1 by lra. apply abs_le_iff in H1. lra.
Qed.
