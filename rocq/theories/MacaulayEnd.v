(** * From common zeros to joint eigenvectors, and the absence of exceptions *)
From Coq Require Import List Arith Reals Lia Lra Bool Permutation.
From Coquelicot Require Import Complex.
From Coq Require Import List.
From Verif Require Import Num RSum Tensor TermProofs OrderProofs UtilProps OneDSpec OneDProofs CondProofs DepProps PermProofs MonMultProofs MacaulayModel MacaulaySpec MacaulayProofs MacaulayBuild MacaulayRed MacaulayEig MacaulayCount.
Import ListNotations.
Local Open Scope R_scope.

Lemma flat_map_len {A B} (f : A -> list B) l : length (flat_map f l) = list_sum (map (fun x => length (f x)) l).
Proof. induction l; auto. cbn [flat_map map]. rewrite app_length, IHl. reflexivity. Qed.
Lemma map_seq_nth {B} (g : nat -> B) l : map (fun i => g (nth i l 0%nat)) (seq 0 (length l)) = map g l.
Proof. induction l; auto. cbn [length seq map nth]. f_equal. rewrite <- seq_shift, map_map. apply IHl. Qed.
Lemma C_finite_dec n (w : nat -> C) : (forall j, (j < n)%nat -> w j = 0%C) \/ exists j, (j < n)%nat /\ w j <> 0%C.
Proof.
  induction n as [|n [IH|(j & Hj & W)]]; [left; lia| |right; exists j; split; [lia|auto]].
  destruct (Ceq_dec (w n) 0) as [Z|Z]; [left|right; exists n; auto]. intros j Hj. destruct (Nat.eq_dec j n) as [->|]; auto. apply IH. lia.
Qed.

Section System.
  Variables (power : bool) (argsort : list nat -> list nat) (polys : list (mpoly R)) (dim : nat).
  Hypothesis Hsort : argsort_ok argsort.
  Hypothesis Hdim : (1 <= dim)%nat.
  Hypothesis Hsq : length polys = dim.
  Hypothesis Hpolys : forall p, In p polys -> (1 <= mpDegree p)%nat /\ polyOfDegree dim (mpDegree p) (mpCoeff p).
  Let D := find_degree polys.
  Let ds := map mpDegree polys.
  Lemma ds_pos d : In d ds -> (1 <= d)%nat.
  Proof. intros H. apply in_map_iff in H. destruct H as (p & <- & Hp). apply Hpolys; auto. Qed.
  Lemma ds_len : length ds = dim.
  Proof. unfold ds. rewrite map_length. auto. Qed.
  Lemma D_eq : D = (list_sum ds + 1 - length ds)%nat.
  Proof. unfold D, find_degree, ds. rewrite map_length. reflexivity. Qed.
  Lemma deg_le p : In p polys -> (mpDegree p <= D)%nat.
  Proof.
    rewrite D_eq. intros Hp. assert (I : In (mpDegree p) ds) by (apply in_map; auto). revert I. generalize (mpDegree p). intros d I. pose proof ds_pos as H. revert H. revert I. generalize ds as l. clear.
    induction l as [|a l IH]; intros I H; [destruct I|]. cbn [length list_sum fold_right]. fold (list_sum l). pose proof (sum_ge l (fun x Hx => H x (or_intror Hx))). pose proof (H a (or_introl eq_refl)).
    destruct I as [->|I]; [lia|]. specialize (IH I (fun x Hx => H x (or_intror Hx))). lia.
  Qed.
  Lemma bez_eq : bezout_bound polys = prodn ds.
  Proof. unfold bezout_bound, ds. induction (map mpDegree polys); auto. Qed.
  Lemma bez_pos : (1 <= bezout_bound polys)%nat.
  Proof. rewrite bez_eq. pose proof ds_pos as H. revert H. generalize ds as l. clear. induction l as [|a l IH]; intros H; cbn [prodn fold_right]; [lia|]; fold (prodn l). pose proof (H a (or_introl eq_refl)). specialize (IH (fun x Hx => H x (or_intror Hx))). nia. Qed.
  Lemma system : exists rows terms cut, @build_macaulay R R_num true power argsort polys = Some (rows, terms, cut) /\
    NoDup terms /\ (forall v, In v terms <-> length v = dim /\ (list_sum v <= D)%nat) /\ (cut <= length terms)%nat /\ (cut = 0%nat <-> D = 1%nat) /\ (1 <= D)%nat /\
    (cut <> 0%nat -> (forall v, In v (skipn cut terms) <-> length v = dim /\ (list_sum v <= D - 1)%nat) /\ (bezout_bound polys <= length terms - cut)%nat /\
       ((2 <= dim)%nat -> (bezout_bound polys < length terms - cut)%nat)) /\
    (length terms - bezout_bound polys <= length rows)%nat /\
    (forall z, length z = dim -> (forall p, In p polys -> polyAt power (mpCoeff p) z = 0%C) ->
       forall i, (i < length rows)%nat -> mvC (length terms) (@ent R R_num rows) (fun j => monAt power (nth j terms []) z) i = 0%C).
  Proof.
    assert (Hne : polys <> []) by (intros E; rewrite E in Hsq; cbn in Hsq; lia).
    destruct (build_spec power argsort polys dim Hsort Hne Hdim) as (rows & terms & cut & labels & Eb & Et & Pl & Fl).
    { intros p Hp. destruct (Hpolys p Hp). split; auto. split; auto. apply deg_le; auto. }
    fold D in Et, Pl. assert (D1 : (1 <= D)%nat) by (rewrite D_eq; pose proof (sum_ge ds ds_pos); lia).
    destruct (terms_spec D dim Hdim D1) as (terms' & cut' & Et' & Nt & It & _ & Hc & Hc0 & HL). rewrite Et in Et'. injection Et' as <- <-.
    exists rows, terms, cut. assert (Itd : forall v, In v terms <-> length v = length ds /\ (list_sum v <= list_sum ds + 1 - length ds)%nat) by (intros v; rewrite It, D_eq, ds_len; tauto).
    split; auto. split; auto. split; auto. split; auto. split; auto. split; auto. split; [|split].
    - intros Hcn. assert (D2 : (2 <= D)%nat) by (destruct (Nat.eq_dec D 1); [tauto|lia]). destruct (HL D2) as [_ Low]. split; auto.
      assert (Lowd : forall v, In v (skipn cut terms) <-> length v = length ds /\ (list_sum v <= list_sum ds + 1 - length ds - 1)%nat) by (intros v; rewrite Low, D_eq, ds_len; tauto).
      rewrite bez_eq. split; [eapply bezout_le; eauto; rewrite ds_len; auto|]. intros H2. pose proof D_eq as DE. eapply bezout_lt; eauto using ds_pos; rewrite ?ds_len in *; auto; lia.
    - assert (Er : length rows = length (multipliers ds)).
      { transitivity (length labels); [symmetry; clear - Fl; induction Fl; cbn; auto|]. rewrite <- (Permutation_length Pl). rewrite flat_map_len. unfold multipliers. rewrite flat_map_len. f_equal.
        transitivity (map (fun d => length (enum leafLe dim (D - d))) ds); [unfold ds; rewrite map_map; apply map_ext; intros p; unfold labelsOf; rewrite map_length; auto|].
        rewrite <- (map_seq_nth (fun d => length (enum leafLe dim (D - d))) ds). apply map_ext. intros i. rewrite map_length. rewrite ds_len. f_equal. f_equal. rewrite D_eq, ds_len. reflexivity. }
      rewrite Er, bez_eq. apply (out_le_rows ds terms Nt Itd); rewrite ds_len; auto.
    - intros z Lz Hz i Hi. unfold mvC, ent. pose proof Fl as Fl'. assert (G : exists lab, In lab labels /\ rowOf power dim terms lab (nth i rows [])).
      { clear - Fl Hi. revert i Hi. induction Fl as [|lab row labs rs H F IH]; intros i Hi; [cbn in Hi; lia|]. destruct i; [exists lab; split; [left; auto|auto]|]. destruct (IH i ltac:(cbn in Hi; lia)) as (lb & I & G). exists lb. split; [right; auto|auto]. }
      destruct G as (lab & Il & _ & HV). etransitivity; [apply (HV z Lz)|]. apply (Permutation_in _ (Permutation_sym Pl)) in Il. apply in_flat_map in Il. destruct Il as (p & Hp & Il). apply in_map_iff in Il. destruct Il as (mon & <- & _). cbn [fst]. rewrite Hz by auto. ring.
  Qed.
End System.

(** ** svd and qrt *)
Lemma getQ_reveals X meth : lapackOK X -> forall r c A, revealing r c A (match meth with Msvd => lsvdV X | _ => lqrT X end r c A).
Proof.
  intros (_ & HS & HT & _) r c A. destruct meth; [apply svd_reveals; auto| |]; destruct (HT r c A) as (U & P & H); eapply qrt_reveals; eauto.
Qed.
Lemma eig_ortho power X rows N cut bez M mc getQ E Q2 terms dim D z :
  lapackOK X -> (forall r c A, revealing r c A (getQ r c A)) -> (1 <= bez <= N - cut)%nat -> (cut <= N)%nat -> length terms = N ->
  @reduceWith R R_num X getQ rows N M cut bez mc = MOk (E, Q2) -> nullityAtMost rows N M bez ->
  (forall v, In v terms <-> length v = dim /\ (list_sum v <= D)%nat) -> (1 <= D)%nat -> (forall v, In v (skipn cut terms) -> (list_sum v <= D - 1)%nat) -> length z = dim ->
  (forall i, (i < rows)%nat -> mvC N M (fun j => monAt power (nth j terms []) z) i = 0%C) ->
  exists w : nat -> C, (exists j, (j < bez)%nat /\ w j <> 0%C) /\
    forall var, (var < dim)%nat -> leftEigen bez ((if power then @ms_matrices R R_num else @ms_matrices_cheb R R_num) cut (N - cut)%nat E Q2 terms var) (nth var z 0%C) w.
Proof.
  intros HX Hrev Hbez Hcut Lt Hok Hnull It HD Low Lz Hu. set (u := fun j => monAt power (nth j terms []) z) in *. exists (wOf N cut Q2 u).
  pose proof (reduce_low X rows N cut M HX Hcut getQ bez mc Hrev Hbez E Q2 Hok Hnull u Hu) as RL. pose proof (reduce_high X rows N cut M HX Hcut getQ bez mc Hrev Hbez E Q2 Hok Hnull u Hu) as RH.
  split.
  - destruct (C_finite_dec bez (wOf N cut Q2 u)) as [Z|]; auto. exfalso.
    assert (U0 : forall j, (j < N)%nat -> u j = 0%C).
    { intros j Hj. destruct (lt_dec j cut) as [L|L].
      - rewrite RH by auto. rewrite mvC_zero by auto. ring.
      - replace j with (cut + (j - cut))%nat by lia. rewrite RL by lia. apply mvC_zero; auto. }
    assert (I : In (repeat 0%nat dim) terms) by (apply It; rewrite repeat_length, sum_zeros; split; auto; lia).
    destruct (In_nth _ _ [] I) as (j & Hj & Ej). specialize (U0 j ltac:(lia)). unfold u in U0. rewrite Ej in U0. rewrite <- Lz in U0. revert U0. clear. intros U0. assert (E1 : monAt power (repeat 0%nat (length z)) z = 1%C).
    { clear. induction z as [|b z IH]; auto. cbn [length repeat monAt]. rewrite IH. destruct power; cbn; ring. }
    rewrite E1 in U0. injection U0. lra.
  - intros var Hv s Hs. rewrite (ms_mul cut (N - cut) bez E Q2 u (wOf N cut Q2 u) RH RL terms var ltac:(lia) ltac:(lia) power s).
    unfold wOf. rewrite <- csum_scal. apply csum_ext. intros j Hj. pose proof (shift_spec power terms cut var D dim z j It HD Low Lz Hv ltac:(lia)) as SS. fold u in SS. rewrite SS. unfold u. ring.
Qed.
(** ** tvb *)
Lemma eig_tvb power X rows N cut bez M mc E P terms dim D z :
  lapackOK X -> (1 <= bez <= N - cut)%nat -> (cut <= N)%nat -> length terms = N ->
  @reduce_macaulay_tvb R R_num X rows N M cut bez mc = MOk (E, P) ->
  (forall v, In v terms <-> length v = dim /\ (list_sum v <= D)%nat) -> (1 <= D)%nat -> (forall v, In v (skipn cut terms) -> (list_sum v <= D - 1)%nat) -> length z = dim ->
  (forall i, (i < rows)%nat -> mvC N M (fun j => monAt power (nth j terms []) z) i = 0%C) ->
  exists w : nat -> C, (exists j, (j < bez)%nat /\ w j <> 0%C) /\
    forall var, (var < dim)%nat -> leftEigen bez ((if power then @ms_matrices_p R R_num else @ms_matrices_p_cheb R R_num) (N - bez)%nat E (permuteTerms terms cut P) var) (nth var z 0%C) w.
Proof.
  intros HX Hbez Hcut Lt Hok It HD Low Lz Hu. set (u := fun j => monAt power (nth j terms []) z) in *. set (br := (N - bez)%nat).
  pose proof (tvb_perm X rows N cut bez M mc HX Hcut Hbez E P Hok) as PP. set (terms' := permuteTerms terms cut P).
  assert (LP : length P = (N - cut)%nat) by (rewrite (Permutation_length PP), seq_length; auto).
  assert (Lf : length (firstn cut terms) = cut) by (rewrite firstn_length; lia).
  assert (Lt' : length terms' = N) by (unfold terms', permuteTerms; rewrite app_length, map_length; lia).
  assert (Esk : forall p, nth p (skipn cut terms) [] = nth (cut + p) terms []).
  { intros p. clear. revert terms. induction cut; intros [|a l]; cbn; auto. destruct p; reflexivity. }
  assert (En : forall j, (j < N)%nat -> nth j terms' [] = if (j <? cut)%nat then nth j terms [] else nth (cut + nth (j - cut) P 0)%nat terms []).
  { intros j Hj. unfold terms', permuteTerms. destruct (Nat.ltb_spec j cut).
    - rewrite app_nth1 by lia. clear - H. revert j H terms. induction cut as [|c IH]; intros j H [|a l]; try lia; auto; destruct j; cbn; auto. apply IH. lia.
    - rewrite app_nth2 by lia. rewrite Lf. rewrite (nth_map' _ _ 0%nat) by lia. apply Esk. }
  assert (It' : forall v, In v terms' <-> length v = dim /\ (list_sum v <= D)%nat).
  { intros v. rewrite <- It. rewrite <- (firstn_skipn cut terms). unfold terms', permuteTerms. rewrite !in_app_iff. assert (PS : Permutation (map (fun p => nth p (skipn cut terms) []) P) (skipn cut terms)).
    { apply (Permutation_trans (Permutation_map _ PP)). replace (N - cut)%nat with (length (skipn cut terms)) by (rewrite skipn_length; lia). match goal with |- Permutation (map ?f _) ?l => replace (map f (seq 0 (length l))) with l; auto end.
      apply nth_ext with (d := []) (d' := []); [rewrite map_length, seq_length; auto|]. intros k Hk. rewrite (nth_map' _ _ 0%nat) by (rewrite seq_length; auto). rewrite seq_nth by auto. reflexivity. }
    split; intros [H|H]; auto; right; [eapply Permutation_in; eauto|eapply Permutation_in; [apply Permutation_sym; eauto|auto]]. }
  assert (Low' : forall v, In v (skipn br terms') -> (list_sum v <= D - 1)%nat).
  { intros v Hv. apply Low. unfold terms', permuteTerms in Hv. rewrite skipn_app, Lf in Hv. rewrite skipn_all2 in Hv by (rewrite Lf; unfold br; lia). cbn [app] in Hv.
    assert (Hv' : In v (map (fun p => nth p (skipn cut terms) []) P)) by (rewrite <- (firstn_skipn (br - cut)); apply in_or_app; auto). apply in_map_iff in Hv'. destruct Hv' as (p & <- & Hp).
    apply nth_In. rewrite skipn_length. apply (Permutation_in _ PP) in Hp. apply in_seq in Hp. lia. }
  set (u' := fun j => monAt power (nth j terms' []) z).
  assert (Eu : forall j, (j < N)%nat -> permuted cut P u j = u' j).
  { intros j Hj. unfold permuted, u', u. rewrite En by auto. destruct (j <? cut)%nat; auto. }
  pose proof (tvb_back X rows N cut bez M mc HX Hcut Hbez E P Hok u Hu) as TB. fold br in TB. exists (fun j => u' (br + j)%nat).
  assert (TB' : forall i, (i < br)%nat -> u' i = (- mvC bez E (fun j => u' (br + j)%nat) i)%C).
  { intros i Hi. rewrite <- Eu by (unfold br in *; lia). rewrite TB by auto. f_equal. apply mvC_ext; auto. intros j Hj. apply Eu. unfold br. lia. }
  split.
  - destruct (C_finite_dec bez (fun j => u' (br + j)%nat)) as [Z|]; auto. exfalso.
    assert (U0 : forall j, (j < N)%nat -> u' j = 0%C).
    { intros j Hj. destruct (lt_dec j br) as [L|L]; [rewrite TB' by auto; rewrite mvC_zero by auto; ring|]. replace j with (br + (j - br))%nat by lia. apply Z. unfold br in *. lia. }
    assert (I : In (repeat 0%nat dim) terms') by (apply It'; rewrite repeat_length, sum_zeros; split; auto; lia).
    destruct (In_nth _ _ [] I) as (j & Hj & Ej). specialize (U0 j ltac:(lia)). unfold u' in U0. rewrite Ej in U0. rewrite <- Lz in U0. revert U0. clear. intros U0. assert (E1 : monAt power (repeat 0%nat (length z)) z = 1%C).
    { clear. induction z as [|b z IH]; auto. cbn [length repeat monAt]. rewrite IH. destruct power; cbn; ring. }
    rewrite E1 in U0. injection U0. lra.
  - intros var Hv s Hs. fold br. fold terms'. rewrite (msp_mul br bez E u' (fun j => u' (br + j)%nat) TB' (fun i Hi => eq_refl) terms' var ltac:(unfold br; lia) ltac:(lia) power s).
    apply (shift_spec power terms' br var D dim z s It' HD Low' Lz Hv). unfold br in *. lia.
Qed.

(** ** No exception *)
Lemma tri_indep X n U : lapackOK X -> upper n n U -> columnsIndependent n n U -> forall i, (i < n)%nat -> U i i <> 0.
Proof.
  intros HX HU HI. destruct (first_zero (fun i => U i i = 0) (fun i => Req_EM_T (U i i) 0) n) as (k & Kn & Kb & Kz). destruct (Nat.eq_dec k n) as [->|Ne]; [auto|]. exfalso.
  specialize (Kz ltac:(lia)). destruct HX as (_ & _ & _ & _ & HT & _). specialize (HT k 1%nat U (fun i _ => U i k)). destruct (ltri X k 1 U (fun i _ => U i k)) as [E|]; [|destruct HT as (i & Hi & Z); apply (Kb i); auto]. destruct HT as [_ HT].
  set (x := fun j => if (j <? k)%nat then - E j 0%nat else if (j =? k)%nat then 1 else 0).
  assert (X1 : x k = 0).
  { apply (HI x); [|lia]. intros i Hi. replace n with (k + (n - k))%nat by lia. rewrite sumn_split. rewrite (sumn_single (n - k) 0); [|lia|].
    - rewrite Nat.add_0_r. replace (x k) with 1 by (unfold x; rewrite Nat.ltb_irrefl, Nat.eqb_refl; auto).
      destruct (lt_dec i k) as [L|L].
      + rewrite <- (HT i 0%nat L ltac:(lia)). rewrite Rmult_1_r. rewrite <- sumn_plus. apply sumn_zero. intros j Hj. unfold x. destruct (Nat.ltb_spec j k); [|lia]. destruct (Nat.leb_spec i j); [ring|]. rewrite HU by lia. ring.
      + rewrite sumn_zero by (intros j Hj; rewrite HU by lia; ring). destruct (Nat.eq_dec i k) as [->|]; [rewrite Kz; ring|]. rewrite HU by lia. ring.
    - intros j Hj Hne. unfold x. destruct (Nat.ltb_spec (k + j) k); [lia|]. destruct (Nat.eqb_spec (k + j) k); [lia|]. ring. }
  revert X1. unfold x. rewrite Nat.ltb_irrefl, Nat.eqb_refl. lra.
Qed.
Lemma qr_diag X rows cut M : lapackOK X -> (cut <= rows)%nat -> columnsIndependent rows cut M -> forall i, (i < cut)%nat -> @qrStep R R_num X rows cut M i i <> 0.
Proof.
  intros HX Hc HI. apply (tri_indep X cut _ HX).
  - intros i j Hi Hj L. apply (qrStep_upper X rows cut cut M HX ltac:(lia)); lia.
  - intros x Hx. apply HI. intros i Hi. apply RtoC_0. rewrite <- mvC_RtoC. revert i Hi. apply (qrStep_null_back X rows cut cut M HX). intros i Hi. rewrite mvC_RtoC.
    destruct (lt_dec i cut) as [L|L]; [rewrite Hx by auto; auto|]. rewrite sumn_zero; auto. intros j Hj. rewrite (qrStep_upper X rows cut cut M HX ltac:(lia)) by lia. ring.
Qed.
Lemma notBig (c : option R) mc : @tooBig R R_num c mc = false -> c <> None.
Proof. destruct c; [discriminate|]. cbn. discriminate. Qed.
Lemma reduceWith_runs X getQ rows N M cut bez mc : lapackOK X -> (cut < rows)%nat -> @reduceWith R R_num X getQ rows N M cut bez mc <> MRaise.
Proof.
  intros HX Hr. unfold reduceWith. destruct (tooBig _ _) eqn:T; [discriminate|]. apply notBig in T. destruct (Nat.ltb_spec cut rows); [|lia].
  pose proof (proj2 (proj2 (proj2 (proj2 (proj2 HX)))) rows cut M ltac:(lia) T) as HI. pose proof (qr_diag X rows cut M HX ltac:(lia) HI) as Hd.
  match goal with |- context [ltri X cut bez ?m ?b] => pose proof (proj1 (proj2 (proj2 (proj2 (proj2 HX)))) cut bez m b) as HT; destruct (ltri X cut bez m b) end; [discriminate|].
  destruct HT as (i & Hi & Z). exfalso. apply (Hd i Hi). rewrite <- Z. unfold colStep. destruct (Nat.leb_spec cut i); [lia|]. rewrite andb_false_r. reflexivity.
Qed.
Lemma tvb_runs X rows N M cut bez mc : lapackOK X -> (cut <= N)%nat -> (bez <= N - cut)%nat -> (cut < rows)%nat -> (N - bez <= rows)%nat -> @reduce_macaulay_tvb R R_num X rows N M cut bez mc <> MRaise.
Proof.
  intros HX Hcut Hb Hr Hbr. unfold reduce_macaulay_tvb. destruct (tooBig _ _) eqn:T; [discriminate|]. destruct (Nat.ltb_spec cut rows); [|lia].
  set (M1 := qrStep X rows cut M). pose proof (proj1 (proj2 (proj2 (proj2 HX))) (rows - cut)%nat (N - cut)%nat (fun i j => M1 (cut + i)%nat (cut + j)%nat)) as (Q & _ & _ & HU & _).
  destruct (lqrP X (rows - cut) (N - cut) _) as [R2 P]. cbn [fst snd] in HU. match goal with |- context [lcond X _ _ ?m] => set (M2 := m) end. destruct (tooBig (lcond X _ _ M2) _) eqn:T2; [discriminate|]. apply notBig in T2.
  destruct (Nat.ltb_spec rows (N - bez)); [lia|]. rewrite Nat.min_l in T2 by lia.
  pose proof (proj2 (proj2 (proj2 (proj2 (proj2 HX)))) (N - bez)%nat (N - bez)%nat M2 ltac:(lia) T2) as HI.
  assert (Hd : forall i, (i < N - bez)%nat -> M2 i i <> 0).
  { apply (tri_indep X _ _ HX); auto. intros i j Hi Hj L. unfold M2. destruct (Nat.leb_spec cut j).
    - destruct (Nat.leb_spec cut i); [|lia]. apply HU; lia.
    - apply (qrStep_upper X rows N cut M HX Hcut); lia. }
  match goal with |- context [ltri X ?r bez ?m ?b] => pose proof (proj1 (proj2 (proj2 (proj2 (proj2 HX)))) r bez m b) as HT; destruct (ltri X r bez m b) end; [discriminate|].
  destruct HT as (i & Hi & Z). exfalso. apply (Hd i Hi). exact Z.
Qed.
