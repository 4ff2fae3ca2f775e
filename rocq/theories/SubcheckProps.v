(** * Property theorems C71 - C77: the interval checks of IntervalChecks.py *)
From Coq Require Import List Arith Bool ZArith QArith Qreals Reals Lra Lia.
From Verif Require Import Num RSum Cheb Tensor PolySpec Transfer QuadNdFaces GaussExample.
From Verif Require Import SubcheckModel SubcheckProofs SubcheckBoundN SubcheckStrict SubcheckCover SubcheckTransfer.
Import ListNotations.
Local Open Scope R_scope.

(** ** Specification *)
(** the volume of a box given by its lower and upper bounds *)
Fixpoint volume (a b : list R) : R := match a, b with l :: a', h :: b' => (h - l) * volume a' b' | _, _ => 1 end.
Definition volumes (l : list (list R * list R)) : R := fold_right (fun s v => volume (fst s) (snd s) + v) 0 l.
(** x lies in the box [a, b] *)
Definition inBox (a b x : list R) : Prop :=
  length b = length a /\ length x = length a /\ forall i, (i < length a)%nat -> nth i a 0 <= nth i x 0 <= nth i b 0.
(** a proper box *)
Definition box (n : nat) (a b : list R) : Prop := length a = n /\ length b = n /\ forall i, (i < n)%nat -> nth i a 0 < nth i b 0.
(** the point of [-1,1]^n that corresponds to x in [a, b] *)
Fixpoint toCube (a b x : list R) : list R :=
  match a, b, x with l :: a', h :: b', v :: x' => (2 * v - l - h) / (h - l) :: toCube a' b' x' | _, _, _ => [] end.
(** on [a, b] the Chebyshev series P, moved to [a, b], stays within e of f *)
Definition approximates (a b : list R) (f : list R -> R) (Pe : tensor R * R) : Prop :=
  wf (fst Pe) /\ ndim (fst Pe) = length a /\ forall x, inBox a b x -> Rabs (f x - cheb_eval (fst Pe) (toCube a b x)) < snd Pe.

Lemma volume_area a : forall b, length b = length a -> @boxArea R R_num (a, b) = volume a b.
Proof. induction a as [|x a IH]; intros [|y b] H; try discriminate; [apply boxArea_nil|]. injection H as H. rewrite boxArea_cons, IH by auto. reflexivity. Qed.
Lemma volumes_area l : Forall (fun s : list R * list R => length (snd s) = length (fst s)) l -> volumes l = totalArea l.
Proof.
  induction 1 as [|[u v] l H _ IH]; [reflexivity|]. unfold totalArea in *. cbn [map volumes fold_right fst snd] in *. fold (volumes l). rewrite IH.
  change (Rsum (?a :: ?l)) with (a + Rsum l). rewrite volume_area by auto. reflexivity.
Qed.
Lemma toCube_unit a : forall b x, toCube a b x = unitPoint a b x.
Proof. induction a as [|l a IH]; intros [|h b] [|v x]; try reflexivity. cbn [toCube]. rewrite IH. reflexivity. Qed.
Lemma inBox_sbox n a b x : length a = n -> length b = n -> in_sbox n (a, b) x <-> inBox a b x.
Proof. intros Ha Hb. unfold in_sbox, inBox. rewrite Ha, Hb. cbn [fst snd]. tauto. Qed.

(** ** C71 *)
Theorem C71_constant_term_check_sound :
  forall (M : tensor R) (tol : R) (f : list R -> R),
    wf M -> (forall x, in_cube (ndim M) x -> Rabs (f x - cheb_eval M x) <= tol) ->
    constant_term_check M tol = false -> forall x, in_cube (ndim M) x -> f x <> 0.
Proof. intros M tol f Hw Ha Hc x Hx. exact (constant_term_sound M tol x (f x) Hw Hc Hx (Ha x Hx)). Qed.
Print Assumptions C71_constant_term_check_sound.
(** 3 - T_1(x) + T_2(x) with tolerance 1/2 *)
Example C71_case : wf (mkT [3]%nat [3; -1; 1]) /\ constant_term_check (mkT [3]%nat [3; -1; 1]) (1 / 2) = false /\ constant_term_check (mkT [3]%nat [3; -1; 1]) 1 = true.
Proof.
  split; [split; [reflexivity|repeat constructor]|].
  unfold constant_term_check, tsumabs, nsumabs, ngtb. rewrite n2_R, nsum_R. unfold tget. cbn [ndim shp dat length repeat ravel_index nth map fold_right Nat.add Nat.mul prodn]. cbn [nabs nltb nmul nadd R_num].
  rewrite (Rabs_right 3), (Rabs_left (-1)), Rabs_R1 by lra.
  split; [rewrite (proj2 (Rltb_true _ _)) by lra|rewrite (proj2 (Rltb_false _ _)) by lra]; reflexivity.
Qed.

(** check_interval: thrown out exactly when one of the checks says "no zero", and then the volume is recorded unless polishing *)
Theorem C71_check_interval :
  forall (checks : list (tensor R -> R -> bool)) (M : tensor R) (err : R) (a b : list R) (d : idata),
    length b = length a ->
    let '(out, d') := check_interval checks M err a b d in
    (out = true <-> exists check, In check checks /\ check M err = false) /\
    area d' = (if out then if polishing d then area d else area d + volume a b else area d).
Proof.
  intros checks M err a b d Hab. induction checks as [|c cs IH]; cbn [check_interval].
  - split; auto. split; [discriminate|intros (c & [] & _)].
  - destruct (c M err) eqn:E.
    + destruct (check_interval cs M err a b d) as [out d']. destruct IH as [IH1 IH2]. split; auto. rewrite IH1. split.
      * intros (c' & H1 & H2). exists c'. split; simpl; auto.
      * intros (c' & [->|H1] & H2); [congruence|eauto].
    + split.
      * split; auto. intros _. exists c. split; simpl; auto.
      * destruct (polishing d); auto. cbn [area]. rewrite <- volume_area by auto. reflexivity.
Qed.
Print Assumptions C71_check_interval.

(** ** C72 *)
(** up to three variables, any list of boxes inside the cube *)
Theorem C72_thrown_subintervals_have_no_zero :
  forall (rank_full : list (list R) -> bool) (solve : list (list R) -> list R -> list R)
         (M : tensor R) (mask : list bool) (tol : R) (subs : list (list R * list R)) (f : list R -> R) (j : nat) (a b : list R),
    sym_solver_ok (ndim M) rank_full solve -> wf M -> (ndim M <= 3)%nat ->
    (forall x, in_cube (ndim M) x -> Rabs (f x - cheb_eval M x) < tol) ->
    nth_error mask j <> None -> nth_error subs j = Some (a, b) -> length a = ndim M -> length b = ndim M ->
    nth_error (@quadratic_check R R_num rank_full solve M mask tol subs) j = Some true ->
    (* the position was still set, and the function has no zero in the box *)
    nth_error mask j = Some true /\ forall x, in_cube (ndim M) x -> inBox a b x -> f x <> 0.
Proof.
  intros rk sv M mask tol subs f j a b Hor Hw Hd Hf Hm Hs La Lb Hq.
  assert (Hj1 : (j < length mask)%nat) by (apply nth_error_Some; auto). assert (Hj2 : (j < length subs)%nat) by (apply nth_error_Some; congruence).
  pose (d0 := (a, b) : @sbox R). pose proof (quadratic_check_nth rk sv M mask tol subs j d0 Hj1 Hj2) as E.
  rewrite (nth_error_nth _ _ false Hq) in E. rewrite (nth_error_nth _ _ d0 Hs) in E.
  destruct (nth_error mask j) as [[|]|] eqn:Em; [|rewrite (nth_error_nth _ _ false Em) in E; discriminate|congruence].
  split; auto. intros x Hx Hb. rewrite (nth_error_nth _ _ false Em) in E. symmetry in E.
  apply (throwOne_sound M tol d0 Hw x (f x) Hx ltac:(apply inBox_sbox; auto) (Hf x Hx) rk sv Hor); auto.
  destruct (ndim M) as [|[|[|[|k]]]]; auto; try lia; right; right; intros i Hi; assert (i = 0%nat) by lia; subst; auto.
Qed.
Print Assumptions C72_thrown_subintervals_have_no_zero.

(** x + y - 3/2 on the four sub-intervals of the square: three are thrown out *)
Definition lineP : tensor Q := mkT [2;2]%nat [-3#2; 1#1; 1#1; 0#1].
Definition allOn (k : nat) : list bool := repeat true k.
Lemma throwMask2 (M : tensor Q) (tol : Q) : ndim M = 2%nat ->
  @quadratic_check R R_num (@gauss_rank R R_num) (@gauss_solve R R_num) (tmap Q2R M) (allOn 4) (Q2R tol) (@unitSubs R R_num 2) =
  @quadratic_check Q Q_num (@gauss_rank Q Q_num) (@gauss_solve Q Q_num) M (allOn 4) tol (@unitSubs Q Q_num 2).
Proof.
  intros HM. rewrite <- (h_unitSubs (NA := Q_num) (h := Q2R) 2). unfold quadratic_check, throwOne. change (ndim (tmap Q2R M)) with (ndim M). rewrite HM. cbn [Nat.eqb].
  generalize (allOn 4) (@unitSubs Q Q_num 2). intros m l. revert l. induction m as [|c m IH]; intros [|s l]; cbn [combine map]; auto. rewrite IH. cbn [fst snd].
  rewrite <- (h_throw2 (NA := Q_num) (h := Q2R)). reflexivity.
Qed.
Example C72_case : wf (tmap Q2R lineP) /\ ndim (tmap Q2R lineP) = 2%nat /\
  @quadratic_check R R_num (@gauss_rank R R_num) (@gauss_solve R R_num) (tmap Q2R lineP) (allOn 4) (Q2R (1#100)) (@unitSubs R R_num 2) = [true; true; true; false].
Proof. split; [split; [reflexivity|repeat constructor]|]. split; [reflexivity|]. rewrite throwMask2 by reflexivity. vm_compute. reflexivity. Qed.

(** ** C73 *)
(** more than three variables: sound on cubes ... *)
Theorem C73_cubes_have_no_zero :
  forall (rank_full : list (list R) -> bool) (solve : list (list R) -> list R -> list R)
         (M : tensor R) (tol l h : R) (f : list R -> R),
    sym_solver_ok (ndim M) rank_full solve -> wf M ->
    (forall x, in_cube (ndim M) x -> Rabs (f x - cheb_eval M x) < tol) ->
    @quadratic_check R R_num rank_full solve M [true] tol [(repeat l (ndim M), repeat h (ndim M))] = [true] ->
    forall x, in_cube (ndim M) x -> Forall (fun v => l <= v <= h) x -> f x <> 0.
Proof.
  intros rk sv M tol l h f Hor Hw Hf Hq x Hx Hb. unfold quadratic_check in Hq. cbn [combine map fst snd] in Hq. injection Hq as Hq.
  assert (Hn : forall v i, (i < ndim M)%nat -> nth i (repeat v (ndim M)) 0 = v).
  { intros v i Hi. rewrite nth_indep with (d' := v) by (rewrite repeat_length; auto). apply nth_repeat. }
  apply (throwOne_sound M tol (repeat l (ndim M), repeat h (ndim M)) Hw x (f x) Hx) with rk sv; auto.
  - destruct Hx as [Hxl _]. split; auto. intros i Hi. cbn [fst snd]. rewrite !Hn by auto. apply Forall_nth; auto. lia.
  - right; right. intros i Hi. unfold lo, hi. cbn [fst snd n0 R_num]. rewrite !Hn by lia. auto.
Qed.
Print Assumptions C73_cubes_have_no_zero.

(** ... but on the sub-intervals the solver uses boxes with a zero are thrown out:
    (x0+1/2)^2 + (x1-2)^2/9 - 2/9 in four variables, tolerance 1/100, which is zero at (-1/6, 1, 1/2, 1/2). *)
Definition bowl : tensor Q := mkT [3;3;1;1]%nat [37#36; -4#9; 1#18;  1#1; 0#1; 0#1;  1#2; 0#1; 0#1].
Lemma throwMask4 (M : tensor Q) (tol : Q) : ndim M = 4%nat ->
  @quadratic_check R R_num (@gauss_rank R R_num) (@gauss_solve R R_num) (tmap Q2R M) (allOn 16) (Q2R tol) (@unitSubs R R_num 4) =
  @quadratic_check Q Q_num (@gauss_rank Q Q_num) (@gauss_solve Q Q_num) M (allOn 16) tol (@unitSubs Q Q_num 4).
Proof.
  intros HM. rewrite <- (h_unitSubs (NA := Q_num) (h := Q2R) 4). unfold quadratic_check, throwOne. change (ndim (tmap Q2R M)) with (ndim M). rewrite HM. cbn [Nat.eqb].
  generalize (allOn 16) (@unitSubs Q Q_num 4). intros m l. revert l. induction m as [|c m IH]; intros [|s l]; cbn [combine map]; auto. rewrite IH. cbn [fst snd].
  rewrite <- (h_throwN (NA := Q_num) (h := Q2R) (@gauss_rank Q Q_num) (@gauss_solve Q Q_num)); [reflexivity|apply (h_gauss_rank (NA := Q_num) (h := Q2R))|apply (h_gauss_solve (NA := Q_num) (h := Q2R))].
Qed.
Theorem C73_four_variables_refuted :
  exists (M : tensor R) (tol : R),
    wf M /\ ndim M = 4%nat /\ 0 < tol /\ sym_solver_ok 4 (@gauss_rank R R_num) (@gauss_solve R R_num) /\
    (exists x, in_cube 4 x /\ cheb_eval M x = 0) /\
    (* the series itself is the function; all sixteen sub-intervals are thrown out, nothing is left to search *)
    forall d, length (mask d) = 16%nat -> exists d',
      get_subintervals (@gauss_lasolve R R_num) (@gauss_rank R R_num) (@gauss_solve R R_num) []
        [-1; -1; -1; -1] [1; 1; 1; 1] [M] [tol] true d = Done ([], d').
Proof.
  exists (tmap Q2R bowl), (Q2R (1#100)). split; [split; [reflexivity|repeat constructor]|]. split; [reflexivity|]. split; [unfold Q2R; cbn [Qnum Qden]; lra|]. split; [apply gauss_ok|]. split.
  - exists [-1/6; 1; 1/2; 1/2]. split; [split; [reflexivity|repeat constructor; lra]|].
    unfold cheb_eval, tget, tmap, bowl. cbn [shp dat map indices flat_map seq app Rsum fold_right basis ravel_index prodn fold_right Nat.mul Nat.add nth].
    rewrite ?chebT_0, ?chebT_1, ?chebT_2. unfold Q2R. cbn [Qnum Qden n0 R_num]. lra.
  - intros d Hd. unfold get_subintervals. cbv zeta. cbn [option_map mask length combine runChecks]. rewrite Hd. change (repeat true 16) with (allOn 16).
    rewrite throwMask4 by reflexivity.
    replace (quadratic_check gauss_rank gauss_solve bowl (allOn 16) (1 # 100) (unitSubs 4)) with (repeat true 16) by (vm_compute; reflexivity).
    eexists. reflexivity.
Qed.
Print Assumptions C73_four_variables_refuted.

(** a cube that is thrown out: T_2(x0) + 3/2 in four variables *)
Definition floor4 : tensor Q := mkT [3;1;1;1]%nat [3#2; 0#1; 1#1].
Example C73_case : wf (tmap Q2R floor4) /\ ndim (tmap Q2R floor4) = 4%nat /\
  @quadratic_check R R_num (@gauss_rank R R_num) (@gauss_solve R R_num) (tmap Q2R floor4) [true] (Q2R (1#100)) [(repeat (Q2R (-1#2)) 4, repeat (Q2R (1#3)) 4)] = [true].
Proof.
  split; [split; [reflexivity|repeat constructor]|]. split; [reflexivity|].
  unfold quadratic_check, throwOne. cbn [combine map fst snd]. change (ndim (tmap Q2R floor4)) with 4%nat. cbn [Nat.eqb].
  change (repeat (Q2R (-1#2)) 4, repeat (Q2R (1#3)) 4) with (hbox (h := Q2R) (repeat (-1#2) 4, repeat (1#3) 4)).
  rewrite <- (h_throwN (NA := Q_num) (h := Q2R) (@gauss_rank Q Q_num) (@gauss_solve Q Q_num)); [vm_compute; reflexivity|apply (h_gauss_rank (NA := Q_num) (h := Q2R))|apply (h_gauss_solve (NA := Q_num) (h := Q2R))].
Qed.

(** ** C74 *)
(** every common zero inside the cube lies in the bounding interval, which then has positive volume *)
Theorem C74_bounding_interval_keeps_every_common_zero :
  forall (n : nat) (lasolve : list (list R) -> list R -> option (list R)) (Ps : list (tensor R * R)) (fs : list (list R -> R))
         (methods : list reduction) (a b x : list R),
    lasolve_ok n lasolve ->
    Forall2 (fun f Pe => wf (fst Pe) /\ ndim (fst Pe) = n /\ forall x, in_cube n x -> Rabs (f x - cheb_eval (fst Pe) x) < snd Pe) fs Ps ->
    getBoundingInterval lasolve (map fst Ps) (map snd Ps) methods = Done (Some (a, b)) ->
    in_cube n x -> Forall (fun f => f x = 0) fs ->
    inBox a b x /\ length a = n /\ (forall i, (i < n)%nat -> -1 <= nth i a 0 < nth i b 0 /\ nth i b 0 <= 1) /\ 0 < volume a b.
Proof.
  intros n las Ps fs ms a b x Hla HP Hb Hx Hz.
  assert (Hza : zeroAt n (map fst Ps) (map snd Ps) x).
  { unfold zeroAt. clear Hb. revert Hz. induction HP as [|f [P e] fs Ps (Hw & Hd & Hf) _ IH]; intros Hz; [constructor|]. inversion Hz as [|? ? Hz1 Hz2]; subst. constructor; [|apply IH; auto].
    split; auto. split; auto. rewrite <- Hz1. apply Hf. auto. }
  pose proof (getBounding_strict n las _ _ ms (a, b) x Hla Hx Hza Hb) as G. pose proof (goodBox_area _ _ _ G) as HA. destruct G as (L1 & L2 & G). cbn [fst snd] in *.
  destruct (bounding_shape n las (map fst Ps) (map snd Ps) ms (a, b)) as (_ & _ & Hr); auto.
  { clear -HP. induction HP as [|f [P e] ? ? (? & ? & ?)]; simpl; constructor; auto. } { rewrite !map_length. auto. }
  rewrite volume_area in HA by congruence. unfold lo, hi in *. cbn [fst snd n0 R_num] in *.
  split; [split; [congruence|]; split; [destruct Hx; congruence|]; rewrite L1; intros i Hi; apply (G i Hi)|]. split; auto. split; auto. intros i Hi. specialize (G i Hi). specialize (Hr i Hi). lra.
Qed.
Print Assumptions C74_bounding_interval_keeps_every_common_zero.

(** With a non-strict error bound this fails: for the series x - 3/10 and y - 1/5, which are the functions
    themselves (error 0), the bounding interval is [0,0]x[0,0]; get_subintervals then returns no interval
    although (3/10, 1/5) is a zero. *)
Definition colX : tensor Q := mkT [2;2]%nat [-3#10; 0#1; 1#1; 0#1].
Definition colY : tensor Q := mkT [2;2]%nat [-1#5; 1#1; 0#1; 0#1].
Theorem C74_exact_series_lose_the_zero_refuted :
  exists (P1 P2 : tensor R) (x : list R),
    wf P1 /\ wf P2 /\ ndim P1 = 2%nat /\ ndim P2 = 2%nat /\
    in_cube 2 x /\ cheb_eval P1 x = 0 /\ cheb_eval P2 x = 0 /\
    forall lasolve rank_full solve checks d,
      exists d', get_subintervals lasolve rank_full solve [ImproveBound; Parallelogram] [-1; -1] [1; 1] [P1; P2] [0; 0] checks d = Done ([], d').
Proof.
  exists (tmap Q2R colX), (tmap Q2R colY), [3/10; 1/5].
  split; [split; [reflexivity|repeat constructor]|]. split; [split; [reflexivity|repeat constructor]|]. split; [reflexivity|]. split; [reflexivity|]. split; [split; [reflexivity|repeat constructor; lra]|].
  split; [|split].
  1, 2: unfold cheb_eval, tget, tmap, colX, colY; cbn [shp dat map indices flat_map seq app Rsum fold_right basis ravel_index prodn fold_right Nat.mul Nat.add nth];
    rewrite ?chebT_0, ?chebT_1; unfold Q2R; cbn [Qnum Qden n0 R_num]; lra.
  intros las rk sv ck d.
  pose proof (h_bounding2D (NA := Q_num) (h := Q2R) colX colY (0#1) (0#1) [ImproveBound; Parallelogram]) as HB.
  assert (E : @bounding2D Q Q_num colX colY (0#1) (0#1) [ImproveBound; Parallelogram] = Done ([0#1; 0#1], [0#1; 0#1])) by (vm_compute; reflexivity).
  rewrite E in HB. replace (Q2R (0#1)) with 0 in HB by (unfold Q2R; cbn [Qnum Qden]; lra).
  unfold get_subintervals. cbv zeta. unfold getBoundingInterval. change (ndim (tmap Q2R colX)) with 2%nat. cbn [length Nat.eqb negb nth]. cbn [n0 R_num]. rewrite HB. cbn [option_map].
  assert (E0 : @boxArea R R_num (hbox (h := Q2R) ([0#1; 0#1], [0#1; 0#1])) = 0).
  { unfold hbox. cbn [fst snd map]. rewrite !boxArea_cons. rewrite Rminus_diag_eq by reflexivity. ring. }
  rewrite E0. cbn [neqb R_num]. rewrite (proj2 (Reqb_true _ _)) by reflexivity. eexists. reflexivity.
Qed.
Print Assumptions C74_exact_series_lose_the_zero_refuted.

(** with the error bound 1/100 the interval is [29/100, 31/100] x [19/100, 21/100] *)
Example C74_case : getBoundingInterval (@gauss_lasolve R R_num) [tmap Q2R colX; tmap Q2R colY] [Q2R (1#100); Q2R (1#100)] [ImproveBound; Parallelogram]
  = Done (Some ([Q2R (29#100); Q2R (19#100)], [Q2R (31#100); Q2R (21#100)])).
Proof.
  pose proof (h_bounding2D (NA := Q_num) (h := Q2R) colX colY (1#100) (1#100) [ImproveBound; Parallelogram]) as HB.
  assert (E : @bounding2D Q Q_num colX colY (1#100) (1#100) [ImproveBound; Parallelogram] = Done ([29#100; 19#100], [31#100; 21#100])) by (vm_compute; reflexivity).
  rewrite E in HB. unfold getBoundingInterval. change (ndim (tmap Q2R colX)) with 2%nat. cbn [length Nat.eqb negb nth]. rewrite HB. reflexivity.
Qed.

(** ** C75 *)
(** up to three variables (any number when the checks are off) no common zero is lost *)
Theorem C75_subintervals_cover_every_common_zero :
  forall (n : nat) (lasolve : list (list R) -> list R -> option (list R)) (rank_full : list (list R) -> bool) (solve : list (list R) -> list R -> list R)
         (methods : list reduction) (a b : list R) (Ps : list (tensor R * R)) (fs : list (list R -> R)) (checks : bool)
         (d d' : idata) (out : list (list R * list R)) (x : list R),
    lasolve_ok n lasolve -> sym_solver_ok n rank_full solve -> (checks = false \/ (n <= 3)%nat) ->
    box n a b -> length (mask d) = (2 ^ n)%nat ->
    Forall2 (approximates a b) fs Ps ->
    get_subintervals lasolve rank_full solve methods a b (map fst Ps) (map snd Ps) checks d = Done (out, d') ->
    inBox a b x -> Forall (fun f => f x = 0) fs ->
    exists l h, In (l, h) out /\ inBox l h x.
Proof.
  intros n las rk sv ms a b Ps fs ck d d' out x Hla Hsy Hck (La & Lb & Hlt) Hm HP Hg Hx Hz. subst n.
  assert (Hza : zeroAt (length a) (map fst Ps) (map snd Ps) (unitPoint a b x)).
  { rewrite <- toCube_unit. unfold zeroAt. clear Hg. revert Hz. induction HP as [|f [P e] fs Ps (Hw & Hd & Hf) _ IH]; intros Hz; [constructor|]. inversion Hz as [|? ? Hz1 Hz2]; subst. constructor; [|apply IH; auto].
    split; auto. split; auto. rewrite <- Hz1. apply Hf. auto. }
  assert (Hlen : Forall (fun P : tensor R => ndim P = length a) (map fst Ps)) by (clear -HP; induction HP as [|f [P e] ? ? (? & ? & ?)]; simpl; constructor; auto).
  destruct (cover las rk sv ms a b (map fst Ps) (map snd Ps) ck Lb Hlt d out d' x Hla Hsy Hck Hm ltac:(apply inBox_sbox; auto) Hza Hg) as ([l h] & Hin & Hs).
  exists l, h. split; auto.
  destruct (inside las rk sv ms a b (map fst Ps) (map snd Ps) ck Lb Hlt d out d' Hm) with (s := (l, h)) as (L1 & L2 & _); auto.
  { intros s Es. unfold boundOf in Es. destruct ms; [discriminate|]. apply (bounding_shape (length a) las (map fst Ps) (map snd Ps) (r :: ms) s); auto. rewrite !map_length; auto. }
  apply (inBox_sbox (length a)); auto.
Qed.
Print Assumptions C75_subintervals_cover_every_common_zero.

(** ** C76 *)
(** one call: the volume recorded plus the volume handed back is the volume that went in *)
Theorem C76_volume_balance :
  forall (n : nat) lasolve rank_full solve (methods : list reduction) (a b : list R) (polys : list (tensor R)) (errors : list R) (checks : bool)
         (d d' : idata) (out : list (list R * list R)),
    box n a b -> length (mask d) = (2 ^ n)%nat -> Forall (fun P => ndim P = n) polys -> length errors = length polys ->
    get_subintervals lasolve rank_full solve methods a b polys errors checks d = Done (out, d') ->
    area d' + volumes out = area d + volume a b /\
    (* every interval handed back is a box inside [a, b] *)
    Forall (fun s => length (fst s) = n /\ length (snd s) = n /\ forall i, (i < n)%nat -> nth i a 0 <= nth i (fst s) 0 <= nth i (snd s) 0 /\ nth i (snd s) 0 <= nth i b 0) out.
Proof.
  intros n las rk sv ms a b polys errors ck d d' out (La & Lb & Hlt) Hm HP He Hg. subst n.
  assert (Hb : forall s, boundOf las ms polys errors = Done (Some s) -> length (fst s) = length a /\ length (snd s) = length a /\ forall i, (i < length a)%nat -> -1 <= lo s i <= hi s i /\ hi s i <= 1).
  { intros s Es. unfold boundOf in Es. destruct ms; [discriminate|]. apply (bounding_shape (length a) las polys errors (r :: ms) s); auto. }
  pose proof (inside las rk sv ms a b polys errors ck Lb Hlt d out d' Hm Hb Hg) as HI.
  assert (HF : Forall (fun s => length (fst s) = length a /\ length (snd s) = length a /\ forall i, (i < length a)%nat -> nth i a 0 <= nth i (fst s) 0 <= nth i (snd s) 0 /\ nth i (snd s) 0 <= nth i b 0) out) by (apply Forall_forall; exact HI).
  split; auto.
  rewrite volumes_area by (eapply Forall_impl; [|exact HF]; intros s (E1 & E2 & _); simpl; congruence). rewrite <- volume_area by auto.
  apply (area_balance las rk sv ms a b polys errors ck Lb d out d' Hm); auto. intros s Es. destruct (Hb s Es) as (? & ? & _). auto.
Qed.
Print Assumptions C76_volume_balance.

(** a whole search: any sequence of calls, starting from a new object.  [searched d vin vout]: the calls made so far
    were given boxes of total volume vin and handed back boxes of total volume vout. *)
Inductive searched (n : nat) lasolve rank_full solve (methods : list reduction) : idata -> R -> R -> Prop :=
| searched_start : searched n lasolve rank_full solve methods (newData n) 0 0
| searched_call d vin vout a b polys errors checks out d' : searched n lasolve rank_full solve methods d vin vout ->
    box n a b -> Forall (fun P => ndim P = n) polys -> length errors = length polys ->
    get_subintervals lasolve rank_full solve methods a b polys errors checks d = Done (out, d') ->
    searched n lasolve rank_full solve methods d' (vin + volume a b) (vout + volumes out).
Lemma mask_kept lasolve rank_full solve methods a b (polys : list (tensor R)) errors checks d out d' : length (mask d) = (2 ^ length a)%nat ->
  @get_subintervals R R_num lasolve rank_full solve methods a b polys errors checks d = Done (out, d') -> length (mask d') = (2 ^ length a)%nat.
Proof.
  intros Hm H. unfold get_subintervals in H. cbn [mask area polishing quadLog boundLog] in H. rewrite Hm in H. cbv zeta in H.
  assert (K : forall m thrown, (if checks then runChecks rank_full solve (unitSubs (length a)) (map (scaleBox a b) (unitSubs (length a))) (combine polys errors) (repeat true (2 ^ length a)) else (repeat true (2 ^ length a), [])) = (m, thrown) -> length m = (2 ^ length a)%nat).
  { intros m thrown E. destruct checks; [|injection E as <- <-; apply repeat_length]. change m with (fst (m, thrown)). rewrite <- E, runChecks_len; rewrite repeat_length; auto. rewrite unitSubs_len. auto. }
  destruct (match methods with [] => _ | _ => _ end) as [[s|]| |]; try discriminate; cbn [option_map] in H.
  - destruct (neqb _ _); [injection H as <- <-; auto|]. destruct (nltb _ (nlit 1 2)); [injection H as <- <-; auto|].
    destruct (if checks then _ else _) as [m thrown] eqn:Ek in H. destruct (nltb _ _ && _); injection H as <- <-; [exact (K _ _ Ek)|]. rewrite track_mask. exact (K _ _ Ek).
  - destruct (if checks then _ else _) as [m thrown] eqn:Ek in H. injection H as <- <-. rewrite track_mask. exact (K _ _ Ek).
Qed.
Theorem C76_volume_balance_of_a_search :
  forall (n : nat) lasolve rank_full solve methods (d : idata) (vin vout : R),
    searched n lasolve rank_full solve methods d vin vout -> area d + vout = vin.
Proof.
  intros n las rk sv ms d vin vout H. assert (G : area d + vout = vin /\ length (mask d) = (2 ^ n)%nat); [|apply G].
  induction H as [|d vin vout a b polys errors ck out d' _ [IH1 IH2] Hbox HP He Hg].
  - split; [unfold newData; cbn [area]; rnum; lra|apply repeat_length].
  - destruct (C76_volume_balance n las rk sv ms a b polys errors ck d d' out Hbox IH2 HP He Hg) as [HB _]. split; [lra|].
    destruct Hbox as (La & _ & _). rewrite <- La in *. apply (mask_kept las rk sv ms a b polys errors ck d out d'); auto.
Qed.
Print Assumptions C76_volume_balance_of_a_search.

(** the line x + y = 3/2 on [0,4] x [0,2]: one quarter of the boxes stays *)
Definition sq4 : list R := [4; 2].
Lemma line_call d : length (mask d) = 4%nat -> exists d' s,
  get_subintervals (@gauss_lasolve R R_num) (@gauss_rank R R_num) (@gauss_solve R R_num) [] [0; 0] sq4 [tmap Q2R lineP] [Q2R (1#100)] true d = Done ([s], d').
Proof.
  intros Hd. unfold get_subintervals, sq4. cbv zeta. cbn [option_map mask length combine runChecks]. rewrite Hd. change (repeat true 4) with (allOn 4).
  rewrite throwMask2 by reflexivity.
  replace (quadratic_check gauss_rank gauss_solve lineP (allOn 4) (1 # 100) (unitSubs 2)) with ([true; true; true; false]) by (vm_compute; reflexivity).
  eexists. eexists. reflexivity.
Qed.
Example C75_case : lasolve_ok 2 (@gauss_lasolve R R_num) /\ sym_solver_ok 2 (@gauss_rank R R_num) (@gauss_solve R R_num) /\ box 2 [0; 0] sq4 /\
  approximates [0; 0] sq4 (fun x => cheb_eval (tmap Q2R lineP) (toCube [0; 0] sq4 x)) (tmap Q2R lineP, Q2R (1#100)) /\
  (exists x, inBox [0; 0] sq4 x /\ cheb_eval (tmap Q2R lineP) (toCube [0; 0] sq4 x) = 0) /\
  exists d' s, get_subintervals (@gauss_lasolve R R_num) (@gauss_rank R R_num) (@gauss_solve R R_num) [] [0; 0] sq4 [tmap Q2R lineP] [Q2R (1#100)] true (newData 2) = Done ([s], d').
Proof.
  split; [apply gauss_lasolve_ok|]. split; [apply gauss_ok|]. split; [|split; [|split]].
  - split; [reflexivity|]. split; [reflexivity|]. intros [|[|i]] Hi; [| |lia]; simpl; lra.
  - split; [split; [reflexivity|repeat constructor]|]. split; [reflexivity|]. intros x _. cbn [fst snd]. rewrite Rminus_diag_eq, Rabs_R0 by reflexivity. unfold Q2R. simpl. lra.
  - exists [4; 3/2]. split; [split; [reflexivity|]; split; [reflexivity|]; intros [|[|i]] Hi; [| |simpl in Hi; lia]; simpl; lra|].
    unfold cheb_eval, tget, tmap, lineP, sq4, toCube. cbn [shp dat map indices flat_map seq app Rsum fold_right basis ravel_index prodn fold_right Nat.mul Nat.add nth].
    rewrite ?chebT_0, ?chebT_1. unfold Q2R. cbn [Qnum Qden n0 R_num]. field.
  - apply line_call. reflexivity.
Qed.
Example C76_case : exists d vin vout, searched 2 (@gauss_lasolve R R_num) (@gauss_rank R R_num) (@gauss_solve R R_num) [] d vin vout /\ vin = 8.
Proof.
  destruct (line_call (newData 2) eq_refl) as (d' & s & Hg). eexists d', _, _. split.
  - apply (searched_call 2 _ _ _ [] (newData 2) 0 0 [0; 0] sq4 [tmap Q2R lineP] [Q2R (1#100)] true [s] d'); auto; [apply searched_start|apply C75_case].
  - unfold sq4. cbn [volume]. lra.
Qed.

(** ** C77 *)
(** what a call returns does not depend on the calls before it *)
Theorem C77_calls_do_not_influence_each_other :
  forall lasolve rank_full solve (methods : list reduction) (a b : list R) (polys : list (tensor R)) (errors : list R) (checks : bool) (d1 d2 : idata),
    length (mask d1) = length (mask d2) ->
    match get_subintervals lasolve rank_full solve methods a b polys errors checks d1, get_subintervals lasolve rank_full solve methods a b polys errors checks d2 with
    | Done (out1, e1), Done (out2, e2) => out1 = out2 /\ area e1 - area d1 = area e2 - area d2
    | IndexError, IndexError => True
    | SingularMatrix, SingularMatrix => True
    | _, _ => False
    end.
Proof. exact history_free. Qed.
Print Assumptions C77_calls_do_not_influence_each_other.
Example C77_case : exists d', mask d' = [false; false; false; true] /\ length (mask d') = length (mask (newData 2)) /\ exists s e,
  get_subintervals (@gauss_lasolve R R_num) (@gauss_rank R R_num) (@gauss_solve R R_num) [] [0; 0] sq4 [tmap Q2R lineP] [Q2R (1#100)] true d' = Done ([s], e).
Proof.
  exists (mkData [false; false; false; true] 1 false [] []). split; auto. split; auto. destruct (line_call (mkData [false; false; false; true] 1 false [] []) eq_refl) as (d' & s & H). eauto.
Qed.
