(** * Property theorem C112: eigensolve of polyroots.py, several variables *)
From Coq Require Import List Arith Reals Lia Lra Bool Permutation.
From Coquelicot Require Import Complex.
From Coq Require Import List.
From Verif Require Import Num Tensor OrderProofs ExtExample OneDSpec LinAlgSpec LinAlgModel LinAlgProps MacaulayModel MacaulaySpec MacaulayRed MacaulayProofs MacaulayExists MacaulayProps MsModel MsSpec MsProofs MsRoots MsExists MsProps PolyrootsModel.
Import ListNotations.
Local Open Scope R_scope.

(** C112: a square system with the Bezout number of different zeros: the exact list (without repetition) of its zeros, or those in the polydisc, or an
    exception; IndexError exactly when there is no zero to return. *)
Theorem C112_several_variables X E power argsort meth max_cond all (polys : list (mpoly R)) dim (Z : list (list C)) :
  lapackOK X -> eigOK (tEig E) -> schurOK (tSchur E) -> argsort_ok argsort -> orthogonal dim (tQ E dim) -> (2 <= dim)%nat -> length polys = dim ->
  (forall p, In p polys -> (1 <= mpDegree p)%nat /\ polyOfDegree dim (mpDegree p) (mpCoeff p)) -> (exists p, In p polys /\ (2 <= mpDegree p)%nat) ->
  NoDup Z -> length Z = fold_right Nat.mul 1%nat (map mpDegree polys) ->
  (forall z, In z Z -> length z = dim /\ forall p, In p polys -> polyAt power (mpCoeff p) z = 0%C) ->
  NoDup (map (fun z => csum dim (fun i => RtoC (tc E dim i) * csum dim (fun j => RtoC (tQ E dim i j) * nth j z (RtoC 0)))%C) Z) ->
  (meth <> Mtvb -> forall rows terms cut, @build_macaulay R R_num true power argsort polys = Some (rows, terms, cut) ->
     nullityAtMost (length rows) (length terms) (fun i j => nth j (nth i rows []) 0) (length Z)) ->
  let wanted z := length z = dim /\ (forall p, In p polys -> polyAt power (mpCoeff p) z = 0%C) /\ (all = false -> inBox z) in
  match eigensolveN X E true power argsort (Some meth) max_cond all polys with
  | Returns l => NoDup l /\ l <> [] /\ forall z, In z l <-> wanted z
  | IndexErrorN => all = false /\ forall z, ~ wanted z
  | ConditioningError => True
  | ReturnsEmptyBlock | OtherError => False
  end.
Proof.
  intros HX He Hs Ha HQ Hd Hsq Hp Hq ND LZ HZ HG Hn wanted.
  destruct (C104_all_common_zeros X E power argsort meth max_cond all polys dim Z HX He Hs Ha HQ Hd Hsq Hp Hq ND LZ HZ HG Hn) as [F|(l & F & NDl & Hl)]; unfold eigensolveN; rewrite F; [exact I|].
  destruct l as [|a l]; [|split; auto; split; [discriminate|exact Hl]].
  assert (NW : forall z, ~ wanted z) by (intros z W; apply Hl in W; destruct W). split; auto. destruct all; auto. exfalso.
  destruct Z as [|z Z].
  - cbn [length] in LZ. assert (P : (1 <= fold_right Nat.mul 1%nat (map mpDegree polys))%nat).
    { clear - Hp. assert (Hp' : forall p, In p polys -> (1 <= mpDegree p)%nat) by (intros p I; apply Hp; auto). clear Hp. induction polys as [|p ps IH]; cbn [map fold_right]; [lia|]. pose proof (Hp' p (or_introl eq_refl)). specialize (IH (fun q I => Hp' q (or_intror I))). nia. }
    lia.
  - apply (NW z). destruct (HZ z (or_introl eq_refl)). split; auto. split; auto. discriminate.
Qed.
Print Assumptions C112_several_variables.
(** "If no zero lies in the box, an empty array is returned" is false: x + y = 4, x = y raises IndexError, and without the restriction to the box gives (2, 2). *)
Theorem C112_no_zero_in_the_box_refuted X E power argsort meth max_cond :
  argsort_ok argsort ->
  let polys := [mkMP (plane (-4) 1 1) 1; mkMP (plane 0 1 (-1)) 1] in
  (forall x, commonZero 2 (map mpCoeff polys) x <-> x = [2; 2]) /\
  eigensolveN X E true power argsort meth max_cond true polys = Returns [[RtoC 2; RtoC 2]] /\
  eigensolveN X E true power argsort meth max_cond false polys = IndexErrorN.
Proof.
  intros Ha polys.
  assert (ZZ : forall x, commonZero 2 (map mpCoeff polys) x <-> x = [2; 2]).
  { intros x. split.
    - intros [L H]. destruct x as [|u [|v [|w x]]]; try discriminate. pose proof (H _ (or_introl eq_refl)) as A. pose proof (H _ (or_intror (or_introl eq_refl))) as B. cbn [mpCoeff] in A, B. rewrite plane_value in A, B. assert (u = 2) by lra. assert (v = 2) by lra. subst. reflexivity.
    - intros ->. split; [reflexivity|]. intros p [<-|[<-|[]]]; cbn [mpCoeff]; rewrite plane_value; lra. }
  assert (HP : forall p, In p polys -> mpDegree p = 1%nat /\ polyOfDegree 2 1 (mpCoeff p)).
  { assert (G : forall a b c, b <> 0 -> polyOfDegree 2 1 (plane a b c)).
    { intros a b c N. split; [split; [reflexivity|repeat constructor; lia]|]. split; [reflexivity|]. split; [repeat constructor; lia|]. split.
      - intros idx I S. inversion I; subst. inversion H3; subst. inversion H5; subst. cbn in *. assert (E11 : (x = 1 /\ x0 = 1)%nat) by lia. destruct E11 as [-> ->]. reflexivity.
      - exists [1; 0]%nat. split; [repeat constructor|]. exact N. }
    intros p [<-|[<-|[]]]; (split; [reflexivity|]); apply G; lra. }
  assert (HL : linearSystem 2 (map mpCoeff polys)).
  { apply planes_system. }
  assert (SL : solve_linear (map mpCoeff polys) = Root [2; 2]).
  { apply (C81_root_is_the_only_zero 2 _ _ HL). split; [apply ZZ; reflexivity|]. intros y Hy. apply ZZ. auto. }
  split; auto. unfold eigensolveN. rewrite !(linear_stage X E power argsort meth max_cond _ polys 2 Ha (le_n 2) eq_refl HP). unfold linearStage. rewrite SL. cbn [map kept]. split; [reflexivity|].
  cbn [filter]. unfold inUnitBox. cbn [forallb]. rewrite Cmod_R, Rabs_right by lra. destruct (Rle_dec 2 1); [lra|]. reflexivity.
Qed.
Print Assumptions C112_no_zero_in_the_box_refuted.
(** y^2 - 1 = 0, x = 0: the hypotheses are those of C104_case, and the answer is (0, 1) and (0, -1) in some order. *)
Example C112_case_several : forall meth, exists l, eigensolveN someLapack someTools true true isort (Some meth) 2 true exPolys = Returns l /\ Permutation l [[RtoC 0; RtoC 1]; [RtoC 0; RtoC (-1)]].
Proof.
  intros meth. destruct C104_case as (_ & _ & _ & _ & _ & _ & _ & _ & H). destruct (H meth) as (l & E & P). exists l. split; auto. unfold eigensolveN. rewrite E. destruct l; auto. apply Permutation_nil in P. discriminate.
Qed.
