(** * Property C118, continued: the order of the functions given to solve() does not matter *)
From Coq Require Import List Arith Bool Lia ZArith Permutation Reals Lra FunctionalExtensionality.
From Verif Require Import Num Tensor PolySpec SystemSpec TransformModel TransformNDProofs IntervalModel SolverModel ExtExample SolverProps ExtProps CombinedModel ScaleSolve SymProps.
From Coq Require Import List.
Import ListNotations.
Local Open Scope R_scope.

(** on every box the approximator either raises an exception or returns a coefficient array *)
Definition answersOrRaises (approx : fobj R -> list R -> list R -> res (tensor R * R)) (f : fobj R) : Prop :=
  forall a b, approxFor approx f a b = Raise \/ exists M e, approxFor approx f a b = Ok (M, e) /\ wf M.

Lemma approxAll_raise (approx : fobj R -> list R -> list R -> res (tensor R * R)) l a b : Forall (answersOrRaises approx) l ->
  (Exists (fun f => approxFor approx f a b = Raise) l /\ approxAll approx l a b = Raise) \/
  (exists F : fobj R -> tensor R * R, (forall f, In f l -> approxFor approx f a b = Ok (F f) /\ wf (fst (F f))) /\ approxAll approx l a b = Ok (map F l)).
Proof.
  intros H. set (F := fun f => match approxFor approx f a b with Ok p => p | _ => (mkT [] [], 0) end).
  induction H as [|f l Hf H IH]; [right; exists F; split; [intros ? []|reflexivity]|]. cbn [approxAll].
  destruct (Hf a b) as [E|(M & e & E & W)]; rewrite E; cbn [bindR]; [left; split; [left; auto|auto]|].
  destruct IH as [[I1 I2]|(G & I1 & I2)]; rewrite I2; cbn [bindR]; [left; split; [right; auto|auto]|].
  right. exists F. assert (EF : forall g, In g l -> F g = G g) by (intros g Hg; unfold F; destruct (I1 g Hg) as [-> _]; auto). assert (E0 : F f = (M, e)) by (unfold F; rewrite E; auto). split.
  - intros g [<-|Hg]; [rewrite E0; auto|]. rewrite EF by auto. apply I1; auto.
  - cbn [map]. rewrite E0. do 2 f_equal. apply map_ext_in. intros g Hg. symmetry. auto.
Qed.

(** solve(): the same outcome (roots, bounding boxes, boxes searched, exception) for the same functions in another order *)
Theorem C118_solve_order_does_not_matter :
  forall (X : ext R) (approx : fobj R -> list R -> list R -> res (tensor R * R)) (exact : bool) (minSize : R) (sfuel fuel : nat)
         (funcs funcs' : list (fobj R)) (a b : boundArg R),
    externalsOK (length funcs) X -> Forall (answersOrRaises approx) funcs -> Permutation funcs funcs' ->
    @solveTop R R_num X approx exact minSize sfuel fuel (FMany funcs') a b = @solveTop R R_num X approx exact minSize sfuel fuel (FMany funcs) a b.
Proof.
  intros X approx exact minSize sfuel fuel l l' a b HX HA HP. unfold solveTop. rewrite <- (Permutation_length HP). generalize (boundOf (length l) a), (boundOf (length l) b). clear a b.
  assert (HA' : Forall (answersOrRaises approx) l') by (rewrite Forall_forall in *; intros f Hf; apply HA; eapply Permutation_in; [apply Permutation_sym; exact HP|exact Hf]).
  induction fuel as [|fuel IH]; intros a b; cbn [csolve]; auto.
  assert (EE : existsb (fun f : fobj R => match f with NotCallable => true | _ => false end) l' = existsb (fun f : fobj R => match f with NotCallable => true | _ => false end) l).
  { apply eq_true_iff_eq. rewrite !existsb_exists. split; intros (f & Hf & E); exists f; split; auto; [eapply Permutation_in; [apply Permutation_sym; exact HP|exact Hf]|eapply Permutation_in; [exact HP|exact Hf]]. }
  rewrite EE. destruct (existsb _ l); auto. destruct (negb _); auto. destruct (existsb _ (combine a b)); auto.
  assert (EI : (fun x y => @csolve R R_num X approx exact minSize sfuel fuel l' x y) = (fun x y => @csolve R R_num X approx exact minSize sfuel fuel l x y)) by (extensionality x; extensionality y; apply IH).
  destruct (approxAll_raise approx l a b HA) as [[N1 ->]|(F & F1 & ->)]; destruct (approxAll_raise approx l' a b HA') as [[N2 ->]|(F' & F1' & ->)]; auto.
  - exfalso. apply Exists_exists in N1. destruct N1 as (f & Hf & E). destruct (F1' f) as [E' _]; [eapply Permutation_in; [exact HP|exact Hf]|congruence].
  - exfalso. apply Exists_exists in N2. destruct N2 as (f & Hf & E). destruct (F1 f) as [E' _]; [eapply Permutation_in; [apply Permutation_sym; exact HP|exact Hf]|congruence].
  - cbn [ofRes cbind]. assert (ES : map F' l' = map F l').
    { apply map_ext_in. intros f Hf. destruct (F1' f Hf) as [E1 _]. destruct (F1 f) as [E2 _]; [eapply Permutation_in; [apply Permutation_sym; exact HP|exact Hf]|congruence]. }
    rewrite ES. rewrite (C118_order_does_not_matter X sfuel _ (map fst (map F l)) (map fst (map F l')) (map snd (map F l)) (map snd (map F l'))).
    + destruct (ofRes _) as [sol| | | | |]; auto. cbn [cbind]. change (csolve X approx exact minSize sfuel fuel l') with (fun x y => csolve X approx exact minSize sfuel fuel l' x y).
      change (csolve X approx exact minSize sfuel fuel l) with (fun x y => csolve X approx exact minSize sfuel fuel l x y). rewrite EI. reflexivity.
    + rewrite !map_length. auto.
    + rewrite map_map, Forall_map. apply Forall_forall. intros f Hf. apply F1; auto.
    + split; [rewrite !map_length; auto|]. split; [rewrite !map_length; auto|].
      assert (C : forall k : list (fobj R), combine (map fst (map F k)) (map snd (map F k)) = map F k) by (induction k as [|f k IHk]; cbn; auto; rewrite IHk; destruct (F f); auto).
      rewrite !C. apply Permutation_map. auto.
Qed.
Print Assumptions C118_solve_order_does_not_matter.

(** an approximator that changes the variables of a polynomial in Chebyshev form exactly, and refuses everything else, meets the hypothesis for
    x y - 1/2 and x^2 - y *)
Example C118_solve_example :
  let M1 := mkT [2; 2]%nat [-1/2; 0; 0; 1] in let M2 := mkT [3; 2]%nat [1/2; -1; 0; 0; 1/2; 0] in
  let approx := fun (f : fobj R) a b => match f with
    | MCheb t => Ok (@transformCheb R R_num t (map (fun p => ((snd p - fst p) / 2, (snd p + fst p) / 2)) (combine a b)) 0 false)
    | _ => Raise end in
  exists X, externalsOK (length [MCheb M1; MCheb M2]) X /\ Forall (answersOrRaises approx) [MCheb M1; MCheb M2] /\ Permutation [MCheb M1; MCheb M2] [MCheb M2; MCheb M1].
Proof.
  cbv zeta. destruct C01_externals_exist as [X HX]. exists X. split; [apply HX|]. split; [|apply perm_swap].
  - assert (G : forall t, wf t -> answersOrRaises (fun (f : fobj R) a b => match f with
      | MCheb t => Ok (@transformCheb R R_num t (map (fun p => ((snd p - fst p) / 2, (snd p + fst p) / 2)) (combine a b)) 0 false)
      | _ => Raise end) (MCheb t)).
    { intros t W a b. right. unfold approxFor. destruct (nearUnit a b); [eauto|]. set (ab := map _ _). destruct (transformCheb t ab 0 false) as [M e] eqn:E. exists M, e. split; auto.
      pose proof (transformCheb_from_good 1 [0] ltac:(lia) eq_refl false (firstn (ndim t) ab) 0 t 0 W ltac:(rewrite firstn_length; lia)) as [Q _]. unfold transformCheb in E. rewrite E in Q. exact Q. }
    repeat (apply Forall_cons; [apply G; repeat constructor; cbn; lia|]). constructor.
Qed.
