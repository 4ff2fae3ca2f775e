(** * Property C80: multiplication by a monomial (utils.mon_mult2) *)
From Coq Require Import Reals List Lia Lra Arith Bool QArith.
From Verif Require Import Num Tensor Cheb PolySpec PolyEval MonMultModel MonMultProofs.
Import ListNotations.
Local Open Scope R_scope.

(** C80, Chebyshev: the returned array is the product of the monomial prod_j T_(mon_j)(x_j) and the polynomial, at every
    point of R^n, with no coefficient lost: its sides are those of the argument plus the exponents. *)
Theorem C80_chebyshev_product :
  forall (t : tensor R) (mon : list nat), wf t -> length mon = ndim t ->
    exists r, mon_mult2 true t mon false = Array r /\ wf r /\
      (forall j, nth j (shp r) 0%nat = (nth j (shp t) 0 + nth j mon 0)%nat) /\ ndim r = ndim t /\
      forall x, length x = ndim t -> cheb_eval r x = basis chebT mon x * cheb_eval t x.
Proof.
  intros t mon W L. unfold mon_mult2. cbn [negb andb]. eexists. split; [reflexivity|].
  pose proof (fun x Lx => mm2_loop mon t x W L Lx (length mon) (le_n _)) as M. cbv zeta in M.
  set (r := fold_left _ _ _) in *.
  destruct (M (repeat 0 (ndim t)) (repeat_length _ _)) as (Wr & Nr & Sr & _).
  split; auto. split.
  - intros j. rewrite Sr. destruct (Nat.ltb_spec j (length mon)); [lia|]. rewrite (nth_overflow mon) by lia. lia.
  - split; auto. intros x Lx. destruct (M x Lx) as (_ & _ & _ & E). rewrite !cheb_eval_sumidx. fold (evalT chebT r x). fold (evalT chebT t x).
    rewrite E, basis_full by lia. reflexivity.
Qed.
Print Assumptions C80_chebyshev_product.

(** C80, powers: likewise with prod_j x_j^(mon_j); this does not depend on the version of numpy. *)
Theorem C80_power_product :
  forall version (t : tensor R) (mon : list nat), wf t -> length mon = ndim t ->
    exists r, mon_mult2 version t mon true = Array r /\ wf r /\
      (forall j, nth j (shp r) 0%nat = (nth j (shp t) 0 + nth j mon 0)%nat) /\ ndim r = ndim t /\
      forall x, length x = ndim t -> power_eval r x = basis (fun i v => v ^ i) mon x * power_eval t x.
Proof.
  intros version t mon W L. unfold mon_mult2. eexists. split; [reflexivity|]. unfold ndim in L. split; [|split; [|split]].
  - apply wf_tbuild. destruct W as [_ F]. revert mon L. induction F; intros [|m mon] L; try discriminate; cbn; constructor; [lia|]. apply IHF. cbn in L; lia.
  - intros j. apply addShape_nth; auto.
  - apply addShape_length; auto.
  - intros x Lx. rewrite !power_eval_sumidx. apply (padBottom_eval t mon x); auto.
Qed.
Print Assumptions C80_power_product.

(** C80, with the numpy of requirements.txt (1.24.3; any version from 1.23 on): the Chebyshev case raises IndexError
    for every monomial but 1, because the slices are collected in a list instead of a tuple. *)
Theorem C80_new_numpy_refuted :
  forall (t : tensor R) (mon : list nat), wf t -> length mon = ndim t ->
    (mon_mult2 false t mon false = IndexError <-> exists m, In m mon /\ m <> 0%nat).
Proof.
  intros t mon W L. unfold mon_mult2. cbn [negb andb]. destruct (existsb _ mon) eqn:E.
  - split; auto. intros _. apply existsb_exists in E. destruct E as [m [I N]]. exists m. split; auto. destruct (Nat.eqb_spec m 0); [discriminate|auto].
  - split; [discriminate|]. intros [m [I N]]. assert (B : existsb (fun m => negb (m =? 0)%nat) mon = true).
    { apply existsb_exists. exists m. split; auto. destruct (Nat.eqb_spec m 0); [tauto|auto]. } rewrite E in B. discriminate.
Qed.
Print Assumptions C80_new_numpy_refuted.

(** T_3(x) T_1(y) (1 + 2 T_1(y) + 3 T_1(x)): the first axis is shorter than the exponent *)
Example C80_case :
  let t := mkT [2; 2]%nat [1; 2; 3; 0] in
  wf t /\ length [3; 1]%nat = ndim t /\
  (exists r, mon_mult2 true t [3; 1]%nat false = Array r /\ shp r = [5; 3]%nat) /\
  @mon_mult2 Q Q_num true (mkT [2; 2]%nat [1; 2; 3; 0]%Q) [3; 1]%nat false =
    Array (mkT [5; 3]%nat [0; 0; 0;  0; 0; 0;  0; 3 # 2; 0;  1; 1; 1;  0; 3 # 2; 0]%Q) /\
  mon_mult2 false t [3; 1]%nat false = IndexError.
Proof.
  cbv zeta. split; [|split; [|split; [|split]]]; try reflexivity.
  - split; [reflexivity|]. repeat constructor.
  - eexists. split; reflexivity.
Qed.
