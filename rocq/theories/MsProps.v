(** * Properties of msroots and multiplication: C104 *)
From Coq Require Import List Arith Reals Lia Lra Bool Permutation Sorted.
From Coquelicot Require Import Complex.
From Coq Require Import List.
From Verif Require Import Num RSum Tensor OrderProofs ExtExample OneDSpec OneDProofs LinAlgSpec LinAlgModel LinAlgProps MacaulayModel MacaulaySpec MacaulayRed MacaulayExists MacaulayProps MacaulayProofs MsModel MsSpec MsProofs MsRoots MsExists.
Import ListNotations.
Local Open Scope R_scope.

(** ** the joint eigenvalue problem *)
(** If the n matrices have n joint eigenvalues that the random direction tells apart, msroots returns precisely these, each once, in some order, and there
    are no others. *)
Theorem C104_joint_eigenvalues eig schur argsort Q c dim n M (Z : list (list C)) :
  eigOK eig -> schurOK schur -> argsort_ok argsort -> orthogonal dim Q -> length Z = n ->
  (forall z, In z Z -> length z = dim /\ exists w : nat -> C, (exists j, (j < n)%nat /\ w j <> 0%C) /\ forall var, (var < dim)%nat -> leftEigen n (M var) (nth var z 0%C) w) ->
  NoDup (map (fun z => csum dim (fun i => RtoC (c i) * csum dim (fun j => RtoC (Q i j) * nth j z (RtoC 0)))%C) Z) ->
  exists l, msroots eig schur argsort Q c dim n M = Some l /\ Permutation l Z /\
    forall (z : list C) (w : nat -> C), length z = dim -> (exists j, (j < n)%nat /\ w j <> 0%C) -> (forall var, (var < dim)%nat -> leftEigen n (M var) (nth var z 0%C) w) -> In z Z.
Proof. intros He Hs Ha HQ LZ HZ HG. eapply msroots_spec; eauto. Qed.
Print Assumptions C104_joint_eigenvalues.

(** ** the whole solver *)
Definition inBox (z : list C) : Prop := forall v, In v z -> Cmod v <= 1.
Lemma inUnitBox_iff z : inUnitBox z = true <-> inBox z.
Proof.
  unfold inUnitBox, inBox. rewrite forallb_forall. split; intros H v Hv; specialize (H v Hv); destruct (Rle_dec (Cmod v) 1); auto; discriminate.
Qed.
Lemma kept_In all l z : In z (kept all l) <-> In z l /\ (all = false -> inBox z).
Proof. unfold kept. destruct all; [split; [intros; split; auto; discriminate|tauto]|]. rewrite filter_In, inUnitBox_iff. tauto. Qed.
Lemma kept_NoDup all l : NoDup l -> NoDup (kept all l).
Proof. unfold kept. destruct all; auto. apply NoDup_filter. Qed.
Theorem C104_all_common_zeros X E power argsort meth max_cond all (polys : list (mpoly R)) dim (Z : list (list C)) :
  lapackOK X -> eigOK (tEig E) -> schurOK (tSchur E) -> argsort_ok argsort -> orthogonal dim (tQ E dim) -> (2 <= dim)%nat -> length polys = dim ->
  (forall p, In p polys -> (1 <= mpDegree p)%nat /\ polyOfDegree dim (mpDegree p) (mpCoeff p)) -> (exists p, In p polys /\ (2 <= mpDegree p)%nat) ->
  (** the number of zeros is the Bezout number: all are simple and there is none at infinity *)
  NoDup Z -> length Z = fold_right Nat.mul 1%nat (map mpDegree polys) ->
  (forall z, In z Z -> length z = dim /\ forall p, In p polys -> polyAt power (mpCoeff p) z = 0%C) ->
  (** the random direction tells them apart *)
  NoDup (map (fun z => csum dim (fun i => RtoC (tc E dim i) * csum dim (fun j => RtoC (tQ E dim i j) * nth j z (RtoC 0)))%C) Z) ->
  (** for svd and qrt: the null space of the Macaulay matrix is no larger than the Bezout number *)
  (meth <> Mtvb -> forall rows terms cut, @build_macaulay R R_num true power argsort polys = Some (rows, terms, cut) ->
     nullityAtMost (length rows) (length terms) (fun i j => nth j (nth i rows []) 0) (length Z)) ->
  multiplication X E true power argsort (Some meth) max_cond all polys = MGaveUp \/
  exists l, multiplication X E true power argsort (Some meth) max_cond all polys = MRoots l /\ NoDup l /\
    forall z, In z l <-> length z = dim /\ (forall p, In p polys -> polyAt power (mpCoeff p) z = 0%C) /\ (all = false -> inBox z).
Proof.
  intros HX He Hs Ha HQ Hd Hsq Hp (q & Iq & Dq) ND LZ HZ HG Hn.
  assert (Ed : match polys with [] => 0%nat | p :: _ => ndim (mpCoeff p) end = dim).
  { destruct polys as [|p ps]; [cbn in Hsq; lia|]. destruct (Hp p (or_introl eq_refl)) as (_ & _ & N & _). exact N. }
  unfold multiplication. rewrite Ed. destruct (Nat.eqb_spec (length polys) 1) as [|Nl]; [lia|]. cbv zeta.
  pose proof (C103_no_exception X power argsort meth max_cond polys dim HX Ha Hd Hsq Hp) as NE.
  pose proof (fun n M H HN => C103_common_zeros_are_joint_eigenvalues X power argsort meth max_cond polys dim n M HX Ha ltac:(lia) Hsq Hp H HN) as HC.
  destruct (@multiplicationMatrices R R_num X true power argsort meth max_cond polys) as [[|n M]| |] eqn:EM; [| |left; reflexivity|congruence].
  - (** cut is not zero *)
    exfalso. destruct (C102_the_rows_are_the_multiples power argsort polys dim Ha ltac:(destruct polys; [destruct Iq|discriminate]) ltac:(lia) Hp) as (rows & terms & cut & Eb & _ & _ & _ & _ & Hc & _).
    assert (D2 : (2 <= list_sum (map mpDegree polys) + 1 - length polys)%nat).
    { clear - Iq Dq Hp. assert (G : forall l : list (mpoly R), (forall p, In p l -> (1 <= mpDegree p)%nat) -> (length l <= list_sum (map mpDegree l))%nat).
      { induction l as [|a l IH]; intros H; cbn [map length list_sum fold_right]; [lia|]. pose proof (H a (or_introl eq_refl)). specialize (IH (fun p I => H p (or_intror I))). unfold list_sum in IH. lia. }
      assert (Hp' : forall p, In p polys -> (1 <= mpDegree p)%nat) by (intros p I; apply Hp; auto). clear Hp. induction polys as [|a l IH]; [destruct Iq|]. cbn [map length list_sum fold_right]. fold (list_sum (map mpDegree l)).
      pose proof (G l (fun p I => Hp' p (or_intror I))). pose proof (Hp' a (or_introl eq_refl)). destruct Iq as [->|Iq]; [lia|]. specialize (IH Iq (fun p I => Hp' p (or_intror I))). lia. }
    destruct (Hc D2) as [C1 _]. unfold multiplicationMatrices in EM. rewrite Eb in EM. destruct (Nat.eqb_spec cut 0); [lia|].
    destruct meth; [destruct (reduce_macaulay_svd _ _ _ _ _ _ _) as [[? ?]| |]|destruct (reduce_macaulay_qrt _ _ _ _ _ _ _) as [[? ?]| |]|destruct (reduce_macaulay_tvb _ _ _ _ _ _ _) as [[? ?]| |]]; discriminate.
  - right. destruct (HC n M eq_refl) as [En HE].
    { intros Nm rows terms cut Eb. specialize (Hn Nm rows terms cut Eb).
      replace n with (length Z); auto. rewrite LZ. clear - EM Eb. unfold multiplicationMatrices in EM. rewrite Eb in EM. destruct (cut =? 0)%nat; [discriminate|].
      destruct meth; [destruct (reduce_macaulay_svd _ _ _ _ _ _ _) as [[? ?]| |]|destruct (reduce_macaulay_qrt _ _ _ _ _ _ _) as [[? ?]| |]|destruct (reduce_macaulay_tvb _ _ _ _ _ _ _) as [[? ?]| |]]; try discriminate; injection EM as <- _; reflexivity. }
    destruct (C104_joint_eigenvalues (tEig E) (tSchur E) argsort (tQ E dim) (tc E dim) dim n M Z He Hs Ha HQ) as (l & El & Pl & Hall); auto.
    { rewrite LZ. auto. }
    { intros z Iz. destruct (HZ z Iz) as [Lz Vz]. split; auto. }
    rewrite El. exists (kept all l). split; auto. split; [apply kept_NoDup; eapply Permutation_NoDup; [apply Permutation_sym; exact Pl|exact ND]|].
    intros z. rewrite kept_In. split.
    + intros [I B]. apply (Permutation_in _ Pl) in I. destruct (HZ z I). tauto.
    + intros (Lz & Vz & B). split; auto. apply (Permutation_in _ (Permutation_sym Pl)). destruct (HE z Lz Vz) as (w & Nw & Hw). apply (Hall z w); auto.
Qed.
Print Assumptions C104_all_common_zeros.

(** ** degree one *)
Lemma linear_stage X E power argsort meth max_cond all (polys : list (mpoly R)) dim :
  argsort_ok argsort -> (2 <= dim)%nat -> length polys = dim -> (forall p, In p polys -> mpDegree p = 1%nat /\ polyOfDegree dim 1 (mpCoeff p)) ->
  multiplication X E true power argsort meth max_cond all polys = linearStage all (map mpCoeff polys).
Proof.
  intros Ha Hd Hsq Hp.
  destruct (C102_the_rows_are_the_multiples power argsort polys dim Ha ltac:(destruct polys; [cbn in Hsq; lia|discriminate]) ltac:(lia)) as (rows & terms & cut & Eb & _ & _ & _ & Hc & _).
  { intros p I. destruct (Hp p I) as [-> H]. auto. }
  assert (D1 : (list_sum (map mpDegree polys) + 1 - length polys)%nat = 1%nat).
  { replace (list_sum (map mpDegree polys)) with (length polys); [lia|]. clear - Hp. induction polys as [|a l IH]; auto. cbn [map length list_sum fold_right]. fold (list_sum (map mpDegree l)). rewrite <- IH by (intros; apply Hp; right; auto). destruct (Hp a (or_introl eq_refl)) as [-> _]. lia. }
  unfold multiplication. destruct (Nat.eqb_spec (length polys) 1); [lia|]. cbv zeta. unfold multiplicationMatrices. rewrite Eb, (Hc D1). reflexivity.
Qed.
(** all methods, also misspelt ones, give the only common zero of a system of linear equations *)
Theorem C104_linear_systems X E power argsort meth max_cond (polys : list (mpoly R)) dim x :
  argsort_ok argsort -> (2 <= dim)%nat -> length polys = dim -> (forall p, In p polys -> mpDegree p = 1%nat /\ polyOfDegree dim 1 (mpCoeff p)) ->
  linearSystem dim (map mpCoeff polys) ->
  (commonZero dim (map mpCoeff polys) x /\ (forall y, commonZero dim (map mpCoeff polys) y -> y = x) <->
   multiplication X E true power argsort meth max_cond true polys = MRoots [map RtoC x]).
Proof.
  intros Ha Hd Hsq Hp Hl. rewrite <- (C81_root_is_the_only_zero dim (map mpCoeff polys) x Hl). rewrite (linear_stage X E power argsort meth max_cond true polys dim Ha Hd Hsq Hp). unfold linearStage.
  split; intros H; [rewrite H; reflexivity|]. destruct (solve_linear (map mpCoeff polys)) as [y| | |]; try discriminate. cbn [kept] in H. injection H as H. f_equal.
  assert (G : forall a b : list R, map RtoC a = map RtoC b -> a = b) by (induction a as [|u a IH]; intros [|v b] F; try discriminate; auto; cbn [map] in F; injection F as F1 F2; f_equal; auto). apply G. auto.
Qed.
Print Assumptions C104_linear_systems.
(** "no common zero gives an empty array" is false: the array returned has length one *)
Theorem C104_no_zero_refuted X E power argsort meth max_cond all :
  argsort_ok argsort ->
  let polys := [mkMP (plane (-1) 1 1) 1; mkMP (plane (-2) 1 1) 1] in
  (forall x, ~ commonZero 2 (map mpCoeff polys) x) /\ multiplication X E true power argsort meth max_cond all polys = MEmptyBlock.
Proof.
  intros Ha polys. split.
  - intros x [L H]. destruct x as [|u [|v [|w x]]]; try discriminate. pose proof (H _ (or_introl eq_refl)) as A. pose proof (H _ (or_intror (or_introl eq_refl))) as B. cbn [mpCoeff] in A, B. rewrite plane_value in A, B. lra.
  - rewrite (linear_stage X E power argsort meth max_cond all polys 2 Ha ltac:(lia) eq_refl).
    + unfold linearStage. cbn [map mpCoeff polys]. replace (solve_linear [plane (-1) 1 1; plane (-2) 1 1]) with (@NoRoots R); auto. symmetry. rcompute. do 8 (rdec; rcompute). reflexivity.
    + assert (G : forall a b c, b <> 0 -> polyOfDegree 2 1 (plane a b c)).
      { intros a b c N. split; [split; [reflexivity|repeat constructor; lia]|]. split; [reflexivity|]. split; [repeat constructor; lia|]. split.
        - intros idx I S. inversion I; subst. inversion H3; subst. inversion H5; subst. cbn in *. assert (E11 : (x = 1 /\ x0 = 1)%nat) by lia. destruct E11 as [-> ->]. reflexivity.
        - exists [1; 0]%nat. split; [repeat constructor|]. exact N. }
      intros p [<-|[<-|[]]]; (split; [reflexivity|]); apply G; lra.
Qed.
Print Assumptions C104_no_zero_refuted.
(** one polynomial always raises; so does an unknown method unless every polynomial is linear *)
Theorem C104_errors X E listIsTuple power argsort meth max_cond all (polys : list (mpoly R)) :
  (length polys = 1%nat -> multiplication X E listIsTuple power argsort meth max_cond all polys = MError) /\
  ((2 <= length polys)%nat -> multiplication X E listIsTuple power argsort None max_cond all polys <> MError ->
   exists rows terms, @build_macaulay R R_num listIsTuple power argsort polys = Some (rows, terms, 0%nat)).
Proof.
  unfold multiplication. split; [intros ->; reflexivity|]. intros H. destruct (Nat.eqb_spec (length polys) 1); [lia|]. cbv zeta.
  unfold multiplicationMatrices. destruct (build_macaulay listIsTuple power argsort polys) as [[[rows terms] cut]|]; [|tauto]. destruct (Nat.eqb_spec cut 0) as [->|]; [intros _; exists rows, terms; auto|].
  destruct (reduce_macaulay_svd _ _ _ _ _ _ _) as [[? ?]| |]; tauto.
Qed.
Print Assumptions C104_errors.

(** ** y^2 - 1 = 0, x = 0 *)
Definition someTools : eigtools := {| tEig := someEig; tSchur := someSchur; tQ := fun _ i j => if (i =? j)%nat then 1 else 0; tc := fun _ i => INR i |}.
Example C104_case : lapackOK someLapack /\ eigOK (tEig someTools) /\ schurOK (tSchur someTools) /\ argsort_ok isort /\ orthogonal 2 (tQ someTools 2) /\
  let Z := [[RtoC 0; RtoC 1]; [RtoC 0; RtoC (-1)]] in
  NoDup Z /\ length Z = fold_right Nat.mul 1%nat (map mpDegree exPolys) /\
  NoDup (map (fun z => csum 2 (fun i => RtoC (tc someTools 2 i) * csum 2 (fun j => RtoC (tQ someTools 2 i j) * nth j z (RtoC 0)))%C) Z) /\
  forall meth, exists l, multiplication someLapack someTools true true isort (Some meth) 2 true exPolys = MRoots l /\ Permutation l Z.
Proof.
  assert (HQ : orthogonal 2 (tQ someTools 2)) by (intros i j Hi Hj; destruct i as [|[|i]], j as [|[|j]]; try lia; cbn; split; lra).
  assert (N1 : RtoC 1 <> RtoC (-1)) by (intros E; apply RtoC_inj in E; lra).
  split; [apply someLapack_ok|]. split; [apply someEig_ok|]. split; [apply someSchur_ok|]. split; [apply isort_ok|]. split; [exact HQ|]. intros Z.
  assert (ND : NoDup Z) by (repeat constructor; [intros [F|[]]; injection F; lra|intros []]).
  assert (HG : NoDup (map (fun z => csum 2 (fun i => RtoC (tc someTools 2 i) * csum 2 (fun j => RtoC (tQ someTools 2 i j) * nth j z (RtoC 0)))%C) Z)).
  { cbn [map Z]. repeat constructor; [|intros []]. intros [F|[]]. apply N1. revert F. cbn [csum nth tc tQ someTools INR Nat.eqb]. intros F. symmetry. etransitivity; [etransitivity; [|exact F]|]; ring. }
  split; [exact ND|]. split; [reflexivity|]. split; [exact HG|]. intros meth.
  destruct C103_case as (_ & _ & _ & HP & HM & HN & HZ).
  destruct (C104_all_common_zeros someLapack someTools true isort meth 2 true exPolys 2 Z someLapack_ok someEig_ok someSchur_ok isort_ok HQ ltac:(lia) eq_refl HP) as [F|(l & El & NDl & Il)]; auto.
  - exists (mkMP (mkT [1; 3]%nat [-1; 0; 1]) 2). split; [left; reflexivity|cbn; lia].
  - intros z [<-|[<-|[]]]; (split; [reflexivity|]); intros p I; apply (HZ p I).
  - exfalso. destruct (HM meth) as [M EM]. revert F. unfold multiplication. change (length exPolys =? 1)%nat with false. cbv zeta iota. rewrite EM. destruct (msroots _ _ _ _ _ _ _ _); discriminate.
  - exists l. split; auto. apply NoDup_Permutation; auto. intros z. rewrite Il. split.
    + intros (Lz & Vz & _). destruct z as [|a [|b [|]]]; try discriminate. pose proof (Vz _ (or_introl eq_refl)) as E1. pose proof (Vz _ (or_intror (or_introl eq_refl))) as E2.
      assert (E1' : (b * b - 1 = 0)%C) by (etransitivity; [|exact E1]; cbn; unfold tget; cbn; apply C_ext; unfold Re, Im; cbn; lra). assert (E2' : (a = 0)%C) by (etransitivity; [|exact E2]; cbn; unfold tget; cbn; apply C_ext; unfold Re, Im; cbn; lra). subst a.
      destruct (Ceq_dec (b - 1)%C 0%C) as [Eb|Nb].
      * left. f_equal. f_equal. replace b with ((b - 1) + 1)%C by ring. rewrite Eb. ring.
      * right. left. f_equal. f_equal. assert (Eb : (b + 1 = 0)%C) by (apply (Cmult_cancel_l (b - 1)%C); auto; transitivity (b * b - 1)%C; [ring|rewrite E1'; ring]). replace b with ((b + 1) - 1)%C by ring. rewrite Eb. apply C_ext; cbn; lra.
    + intros [<-|[<-|[]]]; (split; [reflexivity|]); (split; [|discriminate]); intros p I; apply (HZ p I).
Qed.
