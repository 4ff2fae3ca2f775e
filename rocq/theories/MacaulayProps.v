(** * Properties of the Macaulay-matrix solver: C102 and C103 *)
From Coq Require Import List Arith Reals Lia Lra Bool Permutation Sorted ClassicalEpsilon.
From Coquelicot Require Import Complex.
From Coq Require Import List.
From Verif Require Import Num RSum Tensor MonMultModel TermModel TermProofs UtilModel OrderProofs ExtExample UtilProps PolyModel PolyArith OneDSpec OneDProofs PermProofs MacaulayModel MacaulaySpec MacaulayProofs MacaulayBuild MacaulayRed MacaulayEig MacaulayCount MacaulayEnd MacaulayExists.
Import ListNotations.
Local Open Scope R_scope.

(** ** C102: the rows of the Macaulay matrix *)
Theorem C102_the_rows_are_the_multiples power argsort (polys : list (mpoly R)) dim :
  argsort_ok argsort -> polys <> [] -> (1 <= dim)%nat ->
  (forall p, In p polys -> (1 <= mpDegree p)%nat /\ polyOfDegree dim (mpDegree p) (mpCoeff p)) ->
  let D := (list_sum (map mpDegree polys) + 1 - length polys)%nat in
  exists rows terms cut,
    @build_macaulay R R_num true power argsort polys = Some (rows, terms, cut) /\
    (** the columns: the monomials of degree at most D, once each, by descending degree; the first [cut] are those of degree D *)
    NoDup terms /\ (forall v, In v terms <-> length v = dim /\ (list_sum v <= D)%nat) /\
    StronglySorted (fun u v => (list_sum v <= list_sum u)%nat) terms /\
    (D = 1%nat -> cut = 0%nat) /\
    ((2 <= D)%nat -> (1 <= cut)%nat /\ forall v, In v (firstn cut terms) <-> length v = dim /\ list_sum v = D) /\
    (** the rows: one for each polynomial and each monomial that keeps the degree within D *)
    exists labels : list (nat * list nat),
      NoDup labels /\
      (forall k mon, In (k, mon) labels <-> (k < length polys)%nat /\ length mon = dim /\ (list_sum mon + nth k (map mpDegree polys) 0 <= D)%nat) /\
      length labels = length rows /\
      forall i, (i < length rows)%nat -> length (nth i rows []) = length terms /\
        forall z, length z = dim ->
          csum (length terms) (fun j => RtoC (nth j (nth i rows []) 0) * monAt power (nth j terms []) z)%C =
          (monAt power (snd (nth i labels (0%nat, []))) z * polyAt power (nth (fst (nth i labels (0%nat, []))) (map mpCoeff polys) (mkT [] [])) z)%C.
Proof.
  intros Ha Hne Hd Hp D. assert (HD : find_degree polys = D) by reflexivity.
  assert (Pos : forall d, In d (map mpDegree polys) -> (1 <= d)%nat) by (intros d I; apply in_map_iff in I; destruct I as (p & <- & I); apply Hp; auto).
  assert (Le : forall d, In d (map mpDegree polys) -> (d <= D)%nat).
  { intros d I. unfold D. rewrite <- (map_length mpDegree polys). revert I Pos. generalize (map mpDegree polys) as l. clear. induction l as [|a l IH]; intros I H; [destruct I|]. cbn [length list_sum fold_right]. fold (list_sum l).
    pose proof (sum_ge l (fun x Hx => H x (or_intror Hx))). pose proof (H a (or_introl eq_refl)). destruct I as [->|I]; [lia|]. specialize (IH I (fun x Hx => H x (or_intror Hx))). lia. }
  destruct (build_spec power argsort polys dim Ha Hne Hd) as (rows & terms & cut & labels & Eb & Et & Pl & Fl).
  { intros p I. rewrite HD. destruct (Hp p I). split; auto. split; auto. apply Le. apply in_map; auto. }
  rewrite HD in *. assert (D1 : (1 <= D)%nat) by (destruct polys as [|p ps]; [congruence|]; specialize (Le (mpDegree p) (or_introl eq_refl)); specialize (Pos (mpDegree p) (or_introl eq_refl)); lia).
  destruct (terms_spec D dim Hd D1) as (terms' & cut' & Et' & Nt & It & St & Hc & Hc0 & HL). rewrite Et in Et'. injection Et' as <- <-.
  exists rows, terms, cut. split; auto. split; auto. split; auto. split; auto. split; [tauto|]. split.
  { intros H2. destruct (HL H2) as [HF _]. split; auto. destruct cut; [|lia]. assert (D = 1%nat) by tauto. lia. }
  (** labels by index *)
  set (p0 := mkMP (mkT [] []) 0 : mpoly R). set (f := fun l : nat * list nat => (nth (fst l) polys p0, snd l)).
  set (L := flat_map (fun k => map (pair k) (enum leafLe dim (D - nth k (map mpDegree polys) 0)%nat)) (seq 0 (length polys))).
  assert (EL : flat_map (labelsOf dim D) polys = map f L).
  { unfold L. rewrite flat_map_concat_map, (flat_map_concat_map _ (seq 0 (length polys))), concat_map, map_map. f_equal.
    transitivity (map (labelsOf dim D) (map (fun k => nth k polys p0) (seq 0 (length polys)))).
    - f_equal. apply nth_ext with (d := p0) (d' := p0); [rewrite map_length, seq_length; auto|]. intros k Hk. rewrite (nth_map' _ _ 0%nat) by (rewrite seq_length; auto). rewrite seq_nth by auto. reflexivity.
    - rewrite map_map. apply map_ext_in. intros k Hk. apply in_seq in Hk. unfold labelsOf. rewrite map_map. unfold f. cbn [fst snd]. rewrite (nth_map' mpDegree polys p0) by lia. reflexivity. }
  rewrite EL in Pl. apply Permutation_sym, Permutation_map_inv in Pl. destruct Pl as (L' & -> & PL). exists L'.
  assert (NL : NoDup L).
  { unfold L. generalize (length polys). intros n. assert (G : forall m s, NoDup (flat_map (fun k => map (pair k) (enum leafLe dim (D - nth k (map mpDegree polys) 0)%nat)) (seq s m))).
    { induction m as [|m IH]; intros s; cbn [seq flat_map]; [constructor|]. apply NoDup_app; [|apply IH|].
      - apply FinFun.Injective_map_NoDup; [intros a b E; injection E; auto|]. apply enum_NoDup, leafLe_sorted.
      - intros x H1 H2. apply in_map_iff in H1. destruct H1 as (? & <- & _). apply in_flat_map in H2. destruct H2 as (k & Hk & H2). apply in_map_iff in H2. destruct H2 as (? & E & _). injection E as E _. apply in_seq in Hk. lia. }
    apply G. }
  split; [eapply Permutation_NoDup; eauto|]. split; [|split].
  - intros k mon. assert (Q : In (k, mon) L' <-> In (k, mon) L) by (split; intros H; [eapply Permutation_in; [apply Permutation_sym|]|eapply Permutation_in]; eauto). rewrite Q. unfold L. rewrite in_flat_map. split.
    + intros (k' & Hk & H). apply in_map_iff in H. destruct H as (m & E & H). injection E as -> ->. apply in_seq in Hk. apply enumLe_In in H; auto. assert (nth k (map mpDegree polys) 0 <= D)%nat by (apply Le; apply nth_In; rewrite map_length; lia). split; [lia|]. split; [tauto|lia].
    + intros (Hk & Lm & S). exists k. split; [apply in_seq; lia|]. apply in_map. apply enumLe_In; auto. split; auto. lia.
  - rewrite <- (map_length f L'). clear - Fl. induction Fl; cbn; auto.
  - intros i Hi. assert (G : rowOf power dim terms (f (nth i L' (0%nat, []))) (nth i rows [])).
    { clear - Fl Hi. revert i Hi. remember (map f L') as FL. revert L' HeqFL. induction Fl as [|a b la lb H F IH]; intros L' E i Hi; [cbn in Hi; lia|]. destruct L' as [|x L']; [discriminate|]. cbn [map] in E. injection E as -> ->. destruct i as [|i]; [exact H|]. cbn [nth]. apply IH; auto. cbn in Hi. lia. }
    destruct G as [G1 G2]. split; auto. intros z Lz. rewrite (G2 z Lz). unfold f. cbn [fst snd]. f_equal. f_equal. symmetry. apply (map_nth mpCoeff polys p0).
Qed.
Print Assumptions C102_the_rows_are_the_multiples.

(** numpy 1.23 and later reject a list of slices as an index (utils.py, the Chebyshev branch of mon_mult2): a Chebyshev system with a
    polynomial below the degree of the matrix raises IndexError.  The power basis does not index that way. *)
Lemma arrays_none {T} (l : list (outcome T)) : In IndexError l -> arrays l = None.
Proof. induction l as [|[t|] l IH]; intros H; [destruct H| |reflexivity]. destruct H as [H|H]; [discriminate|]. cbn. rewrite IH; auto. Qed.
Theorem C102_chebyshev_needs_the_old_indexing argsort (polys : list (mpoly R)) p dim :
  In p polys -> (2 <= dim)%nat -> ndim (mpCoeff p) = dim -> (mpDegree p < list_sum (map mpDegree polys) + 1 - length polys)%nat ->
  @build_macaulay R R_num false false argsort polys = None.
Proof.
  intros Ip Hd Np Hlt. destruct polys as [|q ps]; [destruct Ip|]. unfold build_macaulay. cbv zeta. change (list_sum (map mpDegree (q :: ps)) + 1 - length (q :: ps))%nat with (find_degree (q :: ps)) in Hlt. set (D := find_degree (q :: ps)) in *.
  replace (add_all false false D (q :: ps)) with (@None (list (tensor R))); auto. symmetry.
  assert (N : @add_polys R R_num false false D p = None).
  { unfold add_polys. rewrite Np, mon_combos_zeros by lia. rewrite arrays_none; auto. apply in_map_iff.
    assert (I : In (1%nat :: repeat 0%nat (dim - 1)) (enum leafLe dim (D - mpDegree p))) by (apply enumLe_In; [lia|]; cbn [length list_sum fold_right]; rewrite repeat_length; fold (list_sum (repeat 0%nat (dim - 1))); rewrite sum_zeros; lia).
    rewrite (enum_head dim) in I by lia. destruct I as [I|I]; [destruct dim; [lia|]; discriminate|].
    exists (1%nat :: repeat 0%nat (dim - 1)). split; auto. }
  clear Hlt. clearbody D. induction (q :: ps) as [|a l IH]; [destruct Ip|]. cbn [add_all]. destruct Ip as [->|Ip]; [rewrite N; auto|]. destruct (add_polys false false D a); auto. rewrite IH; auto.
Qed.
Print Assumptions C102_chebyshev_needs_the_old_indexing.
Theorem C102_the_power_basis_runs_under_both argsort (polys : list (mpoly R)) :
  @build_macaulay R R_num false true argsort polys = @build_macaulay R R_num true true argsort polys.
Proof.
  unfold build_macaulay. destruct polys as [|q ps]; auto. cbv zeta. generalize (find_degree (q :: ps)). intros D.
  assert (E : forall l, @add_all R R_num false true D l = add_all true true D l). { induction l as [|a l IH]; auto. cbn [add_all]. rewrite IH. reflexivity. }
  rewrite E. reflexivity.
Qed.
Print Assumptions C102_the_power_basis_runs_under_both.

(** ** C103: common zeros are joint eigenvalues of the multiplication matrices *)
Theorem C103_common_zeros_are_joint_eigenvalues X power argsort meth max_cond (polys : list (mpoly R)) dim n M :
  lapackOK X -> argsort_ok argsort -> (1 <= dim)%nat -> length polys = dim ->
  (forall p, In p polys -> (1 <= mpDegree p)%nat /\ polyOfDegree dim (mpDegree p) (mpCoeff p)) ->
  @multiplicationMatrices R R_num X true power argsort meth max_cond polys = MOk (Matrices n M) ->
  (** for svd and qrt: the null space of the Macaulay matrix is no larger than the Bezout number *)
  (meth <> Mtvb -> forall rows terms cut, @build_macaulay R R_num true power argsort polys = Some (rows, terms, cut) ->
     nullityAtMost (length rows) (length terms) (fun i j => nth j (nth i rows []) 0) n) ->
  n = fold_right Nat.mul 1%nat (map mpDegree polys) /\
  forall z, length z = dim -> (forall p, In p polys -> polyAt power (mpCoeff p) z = 0%C) ->
    exists w : nat -> C, (exists j, (j < n)%nat /\ w j <> 0%C) /\ forall var, (var < dim)%nat -> leftEigen n (M var) (nth var z 0%C) w.
Proof.
  intros HX Ha Hd Hsq Hp Hok Hn. destruct (system power argsort polys dim Ha Hd Hsq Hp) as (rows & terms & cut & Eb & Nt & It & Hc & Hc0 & HD & Hl & Hr & Hnull).
  pose proof (bez_pos polys dim Hp) as Bp. revert Hok. unfold multiplicationMatrices. rewrite Eb. destruct (Nat.eqb_spec cut 0) as [Z|Z]; [discriminate|]. destruct (Hl Z) as (Low & Hb & _).
  assert (LowD : forall v, In v (skipn cut terms) -> (list_sum v <= find_degree polys - 1)%nat) by (intros v Hv; apply Low; auto).
  assert (K : forall A : Prop, (forall E Q, @reduceWith R R_num X (match meth with Msvd => lsvdV X | _ => lqrT X end) (length rows) (length terms) (ent rows) cut (bezout_bound polys) max_cond = MOk (E, Q) -> meth <> Mtvb ->
      n = bezout_bound polys -> M = (if power then @ms_matrices R R_num else @ms_matrices_cheb R R_num) cut (length terms - cut)%nat E Q terms -> A) ->
    (forall E P, @reduce_macaulay_tvb R R_num X (length rows) (length terms) (ent rows) cut (bezout_bound polys) max_cond = MOk (E, P) ->
      n = bezout_bound polys -> M = (if power then @ms_matrices_p R R_num else @ms_matrices_p_cheb R R_num) (length terms - bezout_bound polys)%nat E (permuteTerms terms cut P) -> A) ->
    match meth with
    | Mtvb => match @reduce_macaulay_tvb R R_num X (length rows) (length terms) (ent rows) cut (bezout_bound polys) max_cond with
              | MOk (E, P) => MOk (Matrices (bezout_bound polys) ((if power then @ms_matrices_p R R_num else @ms_matrices_p_cheb R R_num) (length terms - bezout_bound polys)%nat E (permuteTerms terms cut P)))
              | MFail => MFail | MRaise => MRaise end
    | _ => match (match meth with Msvd => @reduce_macaulay_svd R R_num | _ => @reduce_macaulay_qrt R R_num end) X (length rows) (length terms) (ent rows) cut (bezout_bound polys) max_cond with
           | MOk (E, Q) => MOk (Matrices (bezout_bound polys) ((if power then @ms_matrices R R_num else @ms_matrices_cheb R R_num) cut (length terms - cut)%nat E Q terms))
           | MFail => MFail | MRaise => MRaise end
    end = MOk (Matrices n M) -> A).
  { intros A H1 H2 H. destruct meth.
    - unfold reduce_macaulay_svd in H. destruct (reduceWith X (lsvdV X) _ _ _ _ _ _) as [[E Q]| |] eqn:ER; try discriminate. injection H as H3 H4. eapply H1; eauto. discriminate.
    - unfold reduce_macaulay_qrt in H. destruct (reduceWith X (lqrT X) _ _ _ _ _ _) as [[E Q]| |] eqn:ER; try discriminate. injection H as H3 H4. eapply H1; eauto. discriminate.
    - destruct (reduce_macaulay_tvb X _ _ _ _ _ _) as [[E P]| |] eqn:ER; try discriminate. injection H as H3 H4. eapply H2; eauto. }
  intros Hok. assert (Goal : n = bezout_bound polys /\ forall z, length z = dim -> (forall p, In p polys -> polyAt power (mpCoeff p) z = 0%C) ->
    exists w : nat -> C, (exists j, (j < n)%nat /\ w j <> 0%C) /\ forall var, (var < dim)%nat -> leftEigen n (M var) (nth var z 0%C) w); [|exact Goal].
  apply K; [| |destruct meth; exact Hok].
  - intros E Q Hred Hm -> ->. split; auto. intros z Lz Hz. eapply (eig_ortho power X (length rows) (length terms) cut (bezout_bound polys) (ent rows)); eauto.
    apply getQ_reveals; auto.
  - intros E P Hred -> ->. split; auto. intros z Lz Hz. eapply (eig_tvb power X (length rows) (length terms) cut (bezout_bound polys) (ent rows)); eauto.
Qed.
Print Assumptions C103_common_zeros_are_joint_eigenvalues.
Theorem C103_no_exception X power argsort meth max_cond (polys : list (mpoly R)) dim :
  lapackOK X -> argsort_ok argsort -> (2 <= dim)%nat -> length polys = dim ->
  (forall p, In p polys -> (1 <= mpDegree p)%nat /\ polyOfDegree dim (mpDegree p) (mpCoeff p)) ->
  @multiplicationMatrices R R_num X true power argsort meth max_cond polys <> MRaise.
Proof.
  intros HX Ha Hd Hsq Hp. destruct (system power argsort polys dim Ha ltac:(lia) Hsq Hp) as (rows & terms & cut & Eb & Nt & It & Hc & Hc0 & HD & Hl & Hr & _).
  unfold multiplicationMatrices. rewrite Eb. destruct (Nat.eqb_spec cut 0) as [Z|Z]; [discriminate|]. destruct (Hl Z) as (_ & Hb & Hb2). specialize (Hb2 Hd).
  destruct meth.
  - pose proof (reduceWith_runs X (lsvdV X) (length rows) (length terms) (ent rows) cut (bezout_bound polys) max_cond HX ltac:(lia)) as H. unfold reduce_macaulay_svd. destruct (reduceWith _ _ _ _ _ _ _ _) as [[E Q]| |]; congruence.
  - pose proof (reduceWith_runs X (lqrT X) (length rows) (length terms) (ent rows) cut (bezout_bound polys) max_cond HX ltac:(lia)) as H. unfold reduce_macaulay_qrt. destruct (reduceWith _ _ _ _ _ _ _ _) as [[E Q]| |]; congruence.
  - pose proof (tvb_runs X (length rows) (length terms) (ent rows) cut (bezout_bound polys) max_cond HX Hc Hb ltac:(lia) Hr) as H. destruct (reduce_macaulay_tvb _ _ _ _ _ _ _) as [[E Q]| |]; congruence.
Qed.
Print Assumptions C103_no_exception.

(** The methods give up only because of a condition number: svd and qrt precisely when that of the columns of highest degree is above the bound
    (or infinite), tvb then, too, and else only when that of the square matrix of the second step is.  No method returns matrices when it is. *)
Definition above (c : option R) (bound : R) : Prop := match c with None => True | Some v => bound < v end.
Lemma tooBig_above c b : @tooBig R R_num c b = true <-> above c b.
Proof. destruct c as [v|]; cbn [tooBig above]; [|tauto]. unfold ngtb; rnum. apply Rltb_true. Qed.
Theorem C103_gives_up X power argsort meth max_cond (polys : list (mpoly R)) rows terms cut :
  @build_macaulay R R_num true power argsort polys = Some (rows, terms, cut) ->
  let A := fun i j => nth j (nth i rows []) 0 in
  let r := @multiplicationMatrices R R_num X true power argsort meth max_cond polys in
  (r = MFail -> cut <> 0%nat) /\
  (cut <> 0%nat -> above (lcond X (length rows) cut A) max_cond -> r = MFail) /\
  (meth <> Mtvb -> r = MFail -> above (lcond X (length rows) cut A) max_cond) /\
  (meth = Mtvb -> (length terms <= length rows + fold_right Nat.mul 1%nat (map mpDegree polys))%nat -> r = MFail ->
     above (lcond X (length rows) cut A) max_cond \/
     exists B, let br := (length terms - fold_right Nat.mul 1%nat (map mpDegree polys))%nat in above (lcond X br br B) max_cond).
Proof.
  intros Eb A r. unfold r, multiplicationMatrices. rewrite Eb. destruct (Nat.eqb_spec cut 0) as [Z|Z]; [split; [discriminate|split; [tauto|split; discriminate]]|].
  assert (K : forall g, @reduceWith R R_num X g (length rows) (length terms) (ent rows) cut (bezout_bound polys) max_cond = MFail <-> above (lcond X (length rows) cut A) max_cond).
  { intros g. rewrite <- tooBig_above. unfold reduceWith. change (ent rows) with A. destruct (tooBig (lcond X (length rows) cut A) max_cond); [tauto|]. cbv zeta. destruct (cut <? length rows)%nat; [|split; discriminate]. destruct (ltri _ _ _ _ _); split; discriminate. }
  split; [auto|]. destruct meth.
  - specialize (K (lsvdV X)). unfold reduce_macaulay_svd. destruct (reduceWith _ _ _ _ _ _ _ _) as [[E Q]| |]; (split; [intros _ H; apply K in H; congruence|]); (split; [intros _ H; apply K; congruence|discriminate]).
  - specialize (K (lqrT X)). unfold reduce_macaulay_qrt. destruct (reduceWith _ _ _ _ _ _ _ _) as [[E Q]| |]; (split; [intros _ H; apply K in H; congruence|]); (split; [intros _ H; apply K; congruence|discriminate]).
  - unfold reduce_macaulay_tvb. change (ent rows) with A. change (fold_right Nat.mul 1%nat (map mpDegree polys)) with (bezout_bound polys). destruct (tooBig (lcond X (length rows) cut A) max_cond) eqn:T1; [apply tooBig_above in T1; tauto|].
    split; [intros _ H; apply tooBig_above in H; congruence|]. split; [congruence|]. intros _ Hr. cbv zeta. destruct (cut <? length rows)%nat; [|discriminate]. destruct (lqrP _ _ _ _) as [R2 P].
    match goal with |- context [tooBig (lcond X ?a ?b ?m) _] => set (B := m) end. destruct (tooBig (lcond X (Nat.min _ _) _ B) max_cond) eqn:T2.
    + intros _. right. exists B. rewrite <- tooBig_above. rewrite Nat.min_l in T2 by lia. exact T2.
    + destruct (length rows <? length terms - bezout_bound polys)%nat; [discriminate|]. destruct (ltri _ _ _ _ _); discriminate.
Qed.
Print Assumptions C103_gives_up.

(** the system y^2 - 1 = 0, x = 0 *)
Definition exPolys : list (mpoly R) := [mkMP (mkT [1; 3]%nat [-1; 0; 1]) 2; mkMP (mkT [2; 1]%nat [0; 1]) 1].
Definition exRows : list (list R) := [[1; 0; 0; 0; 0; 0]; [0; 1; 0; 0; 0; 0]; [0; 0; 1; 0; 0; -1]; [0; 0; 0; 1; 0; 0]].
Definition exTerms : list (list nat) := [[2; 0]; [1; 1]; [0; 2]; [1; 0]; [0; 1]; [0; 0]]%nat.
Lemma exBuild : @build_macaulay R R_num true true isort exPolys = Some (exRows, exTerms, 3%nat).
Proof.
  transitivity (match @row_swap R R_num isort [[0; 0; 1; 0; 0; -1]; [0; 0; 0; 1; 0; 0]; [0; 1; 0; 0; 0; 0]; [1; 0; 0; 0; 0; 0]] with Some M => Some (M, exTerms, 3%nat) | None => None end).
  - cbv -[row_swap isort IZR R_num Rplus Rmult Ropp]. reflexivity.
  - unfold row_swap. cbn [leadCols leadCol]. rnum. replace (Reqb 0 0) with true by (symmetry; apply Reqb_true; auto). replace (Reqb 1 0) with false by (symmetry; apply Reqb_false; lra). cbn. reflexivity.
Qed.
Lemma exOK p : In p exPolys -> (1 <= mpDegree p)%nat /\ polyOfDegree 2 (mpDegree p) (mpCoeff p).
Proof.
  intros [<-|[<-|[]]]; cbn [mpDegree mpCoeff]; (split; [lia|]); (split; [split; [reflexivity|repeat constructor; lia]|]); (split; [reflexivity|]); (split; [repeat constructor; lia|]); split.
  - intros idx H. inversion H; subst. inversion H4; subst. inversion H6; subst. cbn in *. lia.
  - exists [0; 0]%nat. split; [repeat constructor|]. cbn. lra.
  - intros idx H. inversion H; subst. inversion H4; subst. inversion H6; subst. cbn in *. lia.
  - exists [1; 0]%nat. split; [repeat constructor|]. cbn. lra.
Qed.
Example C102_case : argsort_ok isort /\ exPolys <> [] /\
  (forall p, In p exPolys -> (1 <= mpDegree p)%nat /\ polyOfDegree 2 (mpDegree p) (mpCoeff p)) /\
  @build_macaulay R R_num true true isort exPolys = Some (exRows, exTerms, 3%nat) /\
  (** x = 0 is below the degree 2 of the matrix *)
  exists p, In p exPolys /\ ndim (mpCoeff p) = 2%nat /\ (mpDegree p < list_sum (map mpDegree exPolys) + 1 - length exPolys)%nat.
Proof.
  split; [apply isort_ok|]. split; [discriminate|]. split; [apply exOK|]. split; [apply exBuild|].
  exists (mkMP (mkT [2; 1]%nat [0; 1]) 1). split; [right; left; reflexivity|]. cbn. split; [reflexivity|lia].
Qed.
Lemma exIndep : columnsIndependent 4 3 (@ent R R_num exRows).
Proof.
  intros x H j Hj. pose proof (H 0%nat ltac:(lia)) as H0. pose proof (H 1%nat ltac:(lia)) as H1. pose proof (H 2%nat ltac:(lia)) as H2. cbn in H0, H1, H2. destruct j as [|[|[|j]]]; [lra|lra|lra|lia].
Qed.
Lemma exNull : nullityAtMost 4 6 (fun i j => nth j (nth i exRows []) 0) 2.
Proof.
  intros F HF.
  assert (Z : forall q, (q <= 2)%nat -> F q 0%nat = 0 /\ F q 1%nat = 0 /\ F q 3%nat = 0 /\ F q 2%nat = F q 5%nat).
  { intros q Hq. pose proof (HF q 0%nat Hq ltac:(lia)) as H0. pose proof (HF q 1%nat Hq ltac:(lia)) as H1. pose proof (HF q 2%nat Hq ltac:(lia)) as H2. pose proof (HF q 3%nat Hq ltac:(lia)) as H3. cbn in H0, H1, H2, H3. repeat split; lra. }
  destruct (Z 0%nat ltac:(lia)) as (A0 & A1 & A2 & A3), (Z 1%nat ltac:(lia)) as (B0 & B1 & B2 & B3), (Z 2%nat ltac:(lia)) as (C0 & C1 & C2 & C3).
  (** three vectors of the plane *)
  assert (G : forall a0 a1 b0 b1 c0 c1 : R, exists k0 k1 k2, (k0 <> 0 \/ k1 <> 0 \/ k2 <> 0) /\ k0 * a0 + k1 * b0 + k2 * c0 = 0 /\ k0 * a1 + k1 * b1 + k2 * c1 = 0).
  { intros a0 a1 b0 b1 c0 c1. destruct (Req_dec (b0 * c1 - b1 * c0) 0) as [D|D].
    - destruct (Req_dec b0 0) as [Eb|Eb]; [destruct (Req_dec b1 0) as [Eb1|Eb1]|].
      + exists 0, 1, 0. subst. split; [right; left; lra|split; lra].
      + exists 0, (- c1), b1. rewrite Eb in *. assert (c0 = 0) by nra. subst. split; [right; right; auto|split; lra].
      + exists 0, (- c0), b0. split; [right; right; auto|split; lra].
    - exists (b0 * c1 - b1 * c0), (c0 * a1 - c1 * a0), (a0 * b1 - a1 * b0). split; [left; auto|split; ring]. }
  destruct (G (F 0%nat 4%nat) (F 0%nat 5%nat) (F 1%nat 4%nat) (F 1%nat 5%nat) (F 2%nat 4%nat) (F 2%nat 5%nat)) as (k0 & k1 & k2 & Hk & E4 & E5).
  exists (fun q => match q with 0%nat => k0 | 1%nat => k1 | _ => k2 end). split.
  - destruct Hk as [H|[H|H]]; [exists 0%nat|exists 1%nat|exists 2%nat]; auto.
  - intros j Hj. cbn. destruct j as [|[|[|[|[|[|j]]]]]]; [rewrite A0, B0, C0; lra|rewrite A1, B1, C1; lra|rewrite A3, B3, C3; lra|rewrite A2, B2, C2; lra|lra|lra|lia].
Qed.
Lemma upper_indep n U : upper n n U -> (forall i, (i < n)%nat -> U i i <> 0) -> columnsIndependent n n U.
Proof.
  intros HU Hd x H j Hj. apply RtoC_0. revert j Hj. apply (tri_unique n U (fun j => RtoC (x j)) Hd). intros i Hi. rewrite (csum_ext n _ (fun j => RtoC (U i j * x j))).
  - rewrite csum_RtoC. f_equal. apply (H i Hi).
  - intros j Hj. rewrite RtoC_mult. destruct (Nat.leb_spec i j); auto. rewrite HU by auto. ring.
Qed.
Lemma notBig1 r c A : columnsIndependent r c A -> @tooBig R R_num (lcond someLapack r c A) 2 = false.
Proof. intros H. cbn [lcond someLapack]. destruct (excluded_middle_informative _); [|tauto]. cbn [tooBig]. unfold ngtb; rnum. apply Rltb_false. lra. Qed.
Example C103_case : lapackOK someLapack /\ argsort_ok isort /\ length exPolys = 2%nat /\
  (forall p, In p exPolys -> (1 <= mpDegree p)%nat /\ polyOfDegree 2 (mpDegree p) (mpCoeff p)) /\
  (forall meth, exists M, @multiplicationMatrices R R_num someLapack true true isort meth 2 exPolys = MOk (Matrices 2 M)) /\
  (forall rows terms cut, @build_macaulay R R_num true true isort exPolys = Some (rows, terms, cut) -> nullityAtMost (length rows) (length terms) (fun i j => nth j (nth i rows []) 0) 2) /\
  (forall p, In p exPolys -> polyAt true (mpCoeff p) [RtoC 0; RtoC 1] = 0%C /\ polyAt true (mpCoeff p) [RtoC 0; RtoC (-1)] = 0%C).
Proof.
  split; [apply someLapack_ok|]. split; [apply isort_ok|]. split; auto. split; [apply exOK|]. split; [|split].
  - intros meth. unfold multiplicationMatrices. rewrite exBuild. change (3 =? 0)%nat with false. cbv iota. change (bezout_bound exPolys) with 2%nat. change (length exTerms) with 6%nat. change (length exRows) with 4%nat.
    pose proof (reduceWith_runs someLapack (lsvdV someLapack) 4 6 (ent exRows) 3 2 2 someLapack_ok ltac:(lia)) as HS. pose proof (reduceWith_runs someLapack (lqrT someLapack) 4 6 (ent exRows) 3 2 2 someLapack_ok ltac:(lia)) as HT. pose proof (tvb_runs someLapack 4 6 (ent exRows) 3 2 2 someLapack_ok ltac:(lia) ltac:(lia) ltac:(lia) ltac:(lia)) as HV.
    assert (NB : @tooBig R R_num (lcond someLapack 4 3 (ent exRows)) 2 = false) by (apply notBig1, exIndep).
    destruct meth; cbv iota.
    + clear HT HV. unfold reduce_macaulay_svd, reduceWith in *. rewrite NB in *. cbv zeta in *. change (3 <? 4)%nat with true in *. cbv iota in *. destruct (ltri _ _ _ _ _); [cbv beta iota; eexists; reflexivity|congruence].
    + clear HS HV. unfold reduce_macaulay_qrt, reduceWith in *. rewrite NB in *. cbv zeta in *. change (3 <? 4)%nat with true in *. cbv iota in *. destruct (ltri _ _ _ _ _); [cbv beta iota; eexists; reflexivity|congruence].
    + clear HS HT. unfold reduce_macaulay_tvb in *. rewrite NB in *. cbv zeta in *. change (3 <? 4)%nat with true in *. cbv iota in *.
      set (M1 := qrStep someLapack 4 3 (ent exRows)) in *. pose proof someLapack_ok as (HQ & _ & _ & HP & _). specialize (HP (4 - 3)%nat (6 - 3)%nat (fun i j => M1 (3 + i)%nat (3 + j)%nat)). specialize (HQ 4%nat 3%nat (ent exRows)). destruct HQ as (OQ & _).
      pose proof (qrStep_eq someLapack 4 6 3 (ent exRows) someLapack_ok) as QE. fold M1 in QE. set (Q0 := fst (lqr someLapack 4 3 (ent exRows))) in *.
      pose proof (qrStep_upper someLapack 4 6 3 (ent exRows) someLapack_ok ltac:(lia)) as QU. fold M1 in QU.
      destruct (lqrP someLapack (4 - 3) (6 - 3) (fun i j => M1 (3 + i)%nat (3 + j)%nat)) as [R2 P]. cbn [fst snd] in HP. destruct HP as (Q & PP & O1 & _ & EA & PV).
      assert (R0 : R2 0%nat 0%nat <> 0).
      { intros Z. assert (Z1 : forall j, (j < 3)%nat -> M1 3%nat (3 + nth j P 0)%nat = 0).
        { intros j Hj. pose proof (EA 0%nat j ltac:(lia) Hj) as E. cbn [sumn] in E. change (4 - 3)%nat with 1%nat in E. cbn [sumn] in E. pose proof (PV 0%nat j ltac:(lia) ltac:(lia) Hj) as V. rewrite Z in V. change (4 - 3 - 0)%nat with 1%nat in V. cbn [sumn] in V. change (0 + 0)%nat with 0%nat in V. change (3 + 0)%nat with 3%nat in E. rewrite E. assert (R2 0%nat j = 0) by nra. rewrite H. ring. }
        assert (Z2 : forall j, (3 <= j)%nat -> (j < 6)%nat -> M1 3%nat j = 0).
        { intros j H1 H2. assert (I : In (j - 3)%nat P) by (apply (Permutation_in _ (Permutation_sym PP)); apply in_seq; lia). destruct (In_nth P (j - 3)%nat 0%nat I) as (k & Hk & E). rewrite (Permutation_length PP), seq_length in Hk. rewrite <- (Z1 k Hk). rewrite E. f_equal. lia. }
        assert (Z3 : forall j, (j < 6)%nat -> M1 3%nat j = 0) by (intros j Hj; destruct (lt_dec j 3); [apply QU; lia|apply Z2; lia]).
        pose proof (Z3 0%nat ltac:(lia)) as E0. pose proof (Z3 1%nat ltac:(lia)) as E1. pose proof (Z3 2%nat ltac:(lia)) as E2. pose proof (Z3 3%nat ltac:(lia)) as E3. rewrite QE in E0, E1, E2, E3 by lia. cbn in E0, E1, E2, E3.
        pose proof (proj1 (OQ 3%nat 3%nat ltac:(lia) ltac:(lia))) as N. cbn in N. assert (Q0 0%nat 3%nat = 0) by lra. assert (Q0 1%nat 3%nat = 0) by lra. assert (Q0 2%nat 3%nat = 0) by lra. assert (Q0 3%nat 3%nat = 0) by lra. rewrite H, H0, H1, H2 in N. lra. }
      match goal with |- context [lcond someLapack ?a ?b ?m] => set (M2 := m) in * end. assert (NB2 : @tooBig R R_num (lcond someLapack (Nat.min (6 - 2) 4) (6 - 2) M2) 2 = false).
      { apply notBig1. change (Nat.min (6 - 2) 4) with 4%nat. change (6 - 2)%nat with 4%nat. pose proof (qr_diag someLapack 4 3 (ent exRows) someLapack_ok ltac:(lia) exIndep) as Hd. fold M1 in Hd. apply upper_indep.
        - intros i j Hi Hj L. unfold M2. destruct (Nat.leb_spec 3 j); [lia|]. apply QU; lia.
        - intros i Hi. unfold M2. destruct (Nat.leb_spec 3 i); [|apply Hd; lia]. replace (i - 3)%nat with 0%nat by lia. auto. }
      rewrite NB2 in *. change (4 <? 6 - 2)%nat with false in *. cbv iota in *. destruct (ltri _ _ _ _ _); [cbv beta iota; eexists; reflexivity|congruence].
  - intros rows terms cut E. rewrite exBuild in E. injection E as <- <- <-. exact exNull.
  - intros p [<-|[<-|[]]]; cbn; split; unfold tget; cbn; apply C_ext; cbn; lra.
Qed.
