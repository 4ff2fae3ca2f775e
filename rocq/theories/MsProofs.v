(** * Joint eigenvalues: greedy matching, simultaneous triangular form, msroots *)
From Coq Require Import List Arith Reals Lia Lra Bool Permutation Sorted.
From Coquelicot Require Import Complex.
From Coq Require Import List.
From Verif Require Import Num RSum OneDSpec OneDProofs OrderProofs CondProofs LinAlgModel MacaulaySpec MsModel MsSpec.
Import ListNotations.
Local Open Scope R_scope.

(** ** sort_eigs *)
Lemma argminRFrom_spec l : forall best at_ i, (at_ < i)%nat ->
  let a := argminRFrom best at_ i l in
  (a = at_ /\ (forall x, In x l -> best <= x)) \/ (exists k, (k < length l)%nat /\ a = (i + k)%nat /\ nth k l 0 < best /\ forall x, In x l -> nth k l 0 <= x).
Proof.
  induction l as [|x l IH]; intros best at_ i H; cbn [argminRFrom].
  - left. split; auto. intros ? [].
  - destruct (Rlt_dec x best) as [L|L].
    + destruct (IH x i (S i) ltac:(lia)) as [[E A]|(k & Hk & E & B & A)]; right.
      * exists 0%nat. cbn [length nth]. repeat split; auto; try lia. intros y [<-|Hy]; [lra|auto].
      * exists (S k). cbn [length nth]. repeat split; auto; try lia; try lra. intros y [<-|Hy]; [lra|auto].
    + destruct (IH best at_ (S i) ltac:(lia)) as [[E A]|(k & Hk & E & B & A)]; [left|right].
      * split; auto. intros y [<-|Hy]; [lra|auto].
      * exists (S k). cbn [length nth]. repeat split; auto; try lia; try lra. intros y [<-|Hy]; [lra|auto].
Qed.
Lemma argminR_spec l : l <> [] -> exists a, argminR l = Some a /\ (a < length l)%nat /\ forall x, In x l -> nth a l 0 <= x.
Proof.
  destruct l as [|x l]; [congruence|]. intros _. cbn [argminR]. eexists. split; [reflexivity|].
  destruct (argminRFrom_spec l x 0 1 ltac:(lia)) as [[-> A]|(k & Hk & -> & B & A)].
  - cbn. split; [lia|]. intros y [<-|Hy]; [lra|auto].
  - cbn [length nth Nat.add]. split; [lia|]. intros y [<-|Hy]; [lra|auto].
Qed.
Lemma removeFirst_perm i l : In i l -> Permutation l (i :: removeFirst i l).
Proof.
  induction l as [|x l IH]; intros H; [destruct H|]. cbn [removeFirst]. destruct (Nat.eqb_spec x i) as [->|N]; [reflexivity|].
  destruct H as [H|H]; [congruence|]. rewrite perm_swap. constructor. auto.
Qed.
Lemma matchEigs_spec (diag : nat -> C) : forall eigs lst, Permutation eigs (map diag lst) ->
  exists arr, matchEigs diag eigs lst = Some arr /\ Permutation arr lst /\ map diag arr = eigs.
Proof.
  induction eigs as [|e eigs IH]; intros lst HP.
  - apply Permutation_nil in HP. apply map_eq_nil in HP. subst. exists []. repeat split; auto.
  - cbn [matchEigs]. set (ds := map (fun k => Cmod (diag k - e)%C) lst).
    assert (Ie : In e (map diag lst)) by (eapply Permutation_in; [exact HP|left; auto]). apply in_map_iff in Ie. destruct Ie as (k & Ek & Ik).
    assert (Nd : ds <> []) by (unfold ds; destruct lst; [destruct Ik|discriminate]).
    destruct (argminR_spec ds Nd) as (a & -> & Ha & Hmin). cbv zeta. set (i := nth a lst 0%nat). assert (La : (a < length lst)%nat) by (unfold ds in Ha; rewrite map_length in Ha; auto).
    assert (Ei : diag i = e).
    { assert (H0 : nth a ds 0 <= 0). { apply Hmin. unfold ds. apply in_map_iff. exists k. split; auto. rewrite Ek. replace (e - e)%C with (RtoC 0) by ring. apply Cmod_0. }
      unfold ds in H0. rewrite (nth_map_lt _ lst a 0%nat) in H0 by auto. fold i in H0. pose proof (Cmod_ge_0 (diag i - e)%C). assert (Z : (diag i - e)%C = RtoC 0) by (apply Cmod_eq_0; lra).
      replace (diag i) with ((diag i - e) + e)%C by ring. rewrite Z. ring. }
    assert (Ii : In i lst) by (apply nth_In; auto). pose proof (removeFirst_perm i lst Ii) as RP.
    destruct (IH (removeFirst i lst)) as (arr & -> & PA & MA).
    { apply (Permutation_cons_inv (a := e)). etransitivity; [exact HP|]. rewrite RP at 1. cbn [map]. rewrite Ei. reflexivity. }
    exists (i :: arr). split; auto. split; [rewrite RP; constructor; auto|]. cbn [map]. congruence.
Qed.
Lemma sorted_seq_eq l n : Permutation l (seq 0 n) -> StronglySorted le l -> l = seq 0 n.
Proof.
  intros HP HS. apply sorted_lt_ext; [|apply sorted_seq|intros i; split; intros H; [eapply Permutation_in; eauto|eapply Permutation_in; [apply Permutation_sym; eauto|auto]]].
  assert (ND : NoDup l) by (eapply Permutation_NoDup; [apply Permutation_sym; eauto|apply seq_NoDup]). clear HP. induction HS as [|a l HS IH HF]; constructor; inversion ND; subst; auto.
  rewrite Forall_forall in *. intros x Hx. specialize (HF x Hx). assert (x <> a) by (intros ->; auto). lia.
Qed.
(** the eigenvalues come out in the order of the diagonal *)
Lemma sort_eigs_spec argsort eigs n (diag : nat -> C) : argsort_ok argsort -> Permutation eigs (map diag (seq 0 n)) ->
  exists arr, sort_eigs argsort eigs n diag = Some arr /\ length arr = n /\ forall p, (p < n)%nat -> nth (nth p arr 0%nat) eigs (RtoC 0) = diag p.
Proof.
  intros Ha HP. destruct (matchEigs_spec diag eigs (seq 0 n) HP) as (arr & E & PA & MA). unfold sort_eigs. rewrite E. exists (argsort arr). split; auto.
  destruct (Ha arr) as [P1 S1]. assert (L : length arr = n) by (rewrite (Permutation_length PA), seq_length; auto). rewrite L in P1.
  split; [rewrite (Permutation_length P1), seq_length; auto|]. intros p Hp.
  assert (Es : map (fun k => nth k arr 0%nat) (argsort arr) = seq 0 n).
  { apply sorted_seq_eq; auto. rewrite P1. rewrite <- PA at 2. assert (X : map (fun k => nth k arr 0%nat) (seq 0 n) = arr).
    { apply nth_ext with (d := 0%nat) (d' := 0%nat); [rewrite map_length, seq_length; auto|]. intros k Hk. rewrite map_length, seq_length in Hk. rewrite (nth_map_lt _ _ k 0%nat) by (rewrite seq_length; auto). rewrite seq_nth by auto. reflexivity. }
    rewrite X. reflexivity. }
  assert (La : length (argsort arr) = n) by (rewrite (Permutation_length P1), seq_length; auto).
  assert (Ep : nth (nth p (argsort arr) 0%nat) arr 0%nat = p).
  { rewrite <- (nth_map_lt (fun k => nth k arr 0%nat) (argsort arr) p 0%nat 0%nat) by lia. rewrite Es. apply (@seq_nth n 0 p 0 Hp). }
  assert (Hq : (nth p (argsort arr) 0 < n)%nat) by (assert (I : In (nth p (argsort arr) 0%nat) (seq 0 n)) by (eapply Permutation_in; [exact P1|apply nth_In; lia]); apply in_seq in I; lia).
  rewrite <- MA. rewrite (nth_map_lt diag arr _ 0%nat) by lia. congruence.
Qed.

(** ** Simultaneous triangular form *)
Lemma finite_choice {A} (P : nat -> A -> Prop) (d : A) n : (forall k, (k < n)%nat -> exists x, P k x) -> exists f, forall k, (k < n)%nat -> P k (f k).
Proof.
  induction n as [|n IH]; intros H; [exists (fun _ => d); intros; lia|]. destruct IH as [f Hf]; [intros; apply H; lia|]. destruct (H n ltac:(lia)) as [x Hx].
  exists (fun k => if (k =? n)%nat then x else f k). intros k Hk. destruct (Nat.eqb_spec k n) as [->|]; auto. apply Hf. lia.
Qed.
Local Open Scope C_scope.
Lemma first_nonzero n (v : nat -> C) : (exists j, (j < n)%nat /\ v j <> 0) -> exists p, (p < n)%nat /\ v p <> 0 /\ forall j, (j < p)%nat -> v j = 0.
Proof.
  intros (j & Hj & Nj). revert Hj Nj. induction j as [j IH] using lt_wf_ind. intros Hj Nj.
  assert (D : (exists i, (i < j)%nat /\ v i <> 0) \/ forall i, (i < j)%nat -> v i = 0).
  { clear. induction j as [|j [(i & Hi & H)|H]]; [right; intros; lia|left; exists i; auto|]. destruct (Ceq_dec (v j) 0) as [E|E]; [right|left; exists j; auto]. intros i Hi. destruct (Nat.eq_dec i j) as [->|]; auto. apply H. lia. }
  destruct D as [(i & Hi & H)|H]; [apply (IH i); auto; lia|]. exists j. auto.
Qed.
Lemma Cmult_cancel_l (a b c : C) : a <> 0 -> a * b = a * c -> b = c.
Proof.
  intros N E. assert (I : / a * a = 1) by (apply Cinv_l; auto). transitivity (/ a * a * b); [rewrite I; ring|]. rewrite <- Cmult_assoc, E, Cmult_assoc, I. ring.
Qed.
Section Tri.
  Variables (n : nat) (U : nat -> nat -> C).
  Hypothesis HU : unitary n U.
  Definition through (w : nat -> C) : nat -> C := fun j => csum n (fun i => w i * U i j).
  Lemma through_eigen A lam w : leftEigen n A lam w -> forall s, (s < n)%nat -> csum n (fun r => through w r * conjugated n U A r s) = lam * through w s.
  Proof.
    intros H s Hs. unfold conjugated, through. destruct HU as [_ H2].
    transitivity (csum n (fun q => csum n (fun r => csum n (fun i => w i * U i r) * csum n (fun p => Cconj (U p r) * RtoC (A p q))) * U q s)).
    { rewrite (csum_ext n _ (fun r => csum n (fun q => csum n (fun i => w i * U i r) * csum n (fun p => Cconj (U p r) * RtoC (A p q)) * U q s))) by (intros; rewrite <- csum_scal; apply csum_ext; intros; ring).
      rewrite csum_swap. apply csum_ext. intros q Hq. rewrite csum_scal_r. reflexivity. }
    rewrite <- csum_scal. apply csum_ext. intros q Hq.
    assert (E : csum n (fun r => csum n (fun i => w i * U i r) * csum n (fun p => Cconj (U p r) * RtoC (A p q))) = lam * w q); [|rewrite E; ring].
    rewrite <- H by auto.
    transitivity (csum n (fun i => csum n (fun p => w i * RtoC (A p q) * csum n (fun r => U i r * Cconj (U p r))))).
    { rewrite (csum_ext n _ (fun r => csum n (fun i => csum n (fun p => w i * RtoC (A p q) * (U i r * Cconj (U p r)))))).
      - rewrite csum_swap. apply csum_ext. intros i Hi. rewrite csum_swap. apply csum_ext. intros p Hp. rewrite csum_scal. reflexivity.
      - intros r Hr. rewrite <- csum_scal_r. apply csum_ext. intros i Hi. rewrite <- csum_scal. apply csum_ext. intros p Hp. ring. }
    apply csum_ext. intros i Hi. rewrite (csum_one n _ i); auto.
    - rewrite (H2 i i) by auto. rewrite Nat.eqb_refl. ring.
    - intros p Hp Np. rewrite (H2 i p) by auto. destruct (Nat.eqb_spec i p); [congruence|ring].
  Qed.
  Lemma through_back w i : (i < n)%nat -> csum n (fun j => through w j * Cconj (U i j)) = w i.
  Proof.
    intros Hi. unfold through. destruct HU as [_ H2]. rewrite (csum_ext n _ (fun j => csum n (fun p => w p * (U p j * Cconj (U i j))))) by (intros; rewrite <- csum_scal_r; apply csum_ext; intros; ring).
    rewrite csum_swap. rewrite (csum_one n _ i); auto.
    - rewrite csum_scal, (H2 i i) by auto. rewrite Nat.eqb_refl. ring.
    - intros p Hp Np. rewrite csum_scal, (H2 p i) by auto. destruct (Nat.eqb_spec p i); [congruence|ring].
  Qed.
  Lemma through_nonzero (w : nat -> C) : (exists j, (j < n)%nat /\ w j <> 0) -> exists j, (j < n)%nat /\ through w j <> 0.
  Proof.
    intros (i & Hi & Ni). destruct (first_nonzero (S n) (fun j => if (j =? n)%nat then 1 else through w j)) as (p & Hp & Np & Z).
    - exists n. split; [lia|]. rewrite Nat.eqb_refl. intros E. injection E. lra.
    - destruct (Nat.eqb_spec p n) as [->|N]; [|exists p; split; auto; lia]. exfalso. apply Ni. rewrite <- (through_back w i Hi). apply csum_zero. intros j Hj. specialize (Z j Hj). destruct (Nat.eqb_spec j n); [lia|]. rewrite Z. ring.
  Qed.

  Variables (W : nat -> nat -> C) (A0 : nat -> nat -> R) (lam : nat -> C).
  Hypothesis Hlam : forall k l, (k < n)%nat -> (l < n)%nat -> lam k = lam l -> k = l.
  Hypothesis HW : forall k, (k < n)%nat -> (exists j, (j < n)%nat /\ W k j <> 0) /\ leftEigen n A0 (lam k) (W k).
  Hypothesis HT : forall r s, (r < n)%nat -> (s < r)%nat -> conjugated n U A0 r s = 0.
  (** the position of each eigenvector in the flag *)
  Lemma flag : exists pos : nat -> nat, (forall k, (k < n)%nat -> (pos k < n)%nat /\ through (W k) (pos k) <> 0 /\ forall j, (j < pos k)%nat -> through (W k) j = 0) /\
    Permutation (map pos (seq 0 n)) (seq 0 n).
  Proof.
    destruct (finite_choice (fun k p => (p < n)%nat /\ through (W k) p <> 0 /\ forall j, (j < p)%nat -> through (W k) j = 0) 0%nat n) as [pos Hpos].
    { intros k Hk. apply first_nonzero. apply through_nonzero. apply HW; auto. }
    exists pos. split; auto.
    assert (D : forall k, (k < n)%nat -> conjugated n U A0 (pos k) (pos k) = lam k).
    { intros k Hk. destruct (Hpos k Hk) as (Hp & Np & Z). pose proof (through_eigen A0 (lam k) (W k) (proj2 (HW k Hk)) (pos k) Hp) as E. rewrite (csum_one n _ (pos k)) in E; auto.
      - apply (Cmult_cancel_l (through (W k) (pos k))); auto. rewrite E. ring.
      - intros r Hr Nr. destruct (lt_dec r (pos k)) as [L|L]; [rewrite Z by auto; ring|]. rewrite HT by lia. ring. }
    apply NoDup_Permutation_bis.
    - assert (Inj : forall k l, (k < n)%nat -> (l < n)%nat -> pos k = pos l -> k = l) by (intros k l Hk Hl E; apply Hlam; auto; rewrite <- !D by auto; congruence).
      clear - Inj. assert (G : forall m s, (s + m <= n)%nat -> NoDup (map pos (seq s m))).
      { induction m as [|m IH]; intros s Hs; cbn [seq map]; constructor; [|apply IH; lia]. intros H. apply in_map_iff in H. destruct H as (l & E & Il). apply in_seq in Il. apply Inj in E; lia. }
      apply G. lia.
    - rewrite map_length. auto.
    - intros p H. apply in_map_iff in H. destruct H as (k & <- & Ik). apply in_seq in Ik. apply in_seq. destruct (Hpos k ltac:(lia)). lia.
  Qed.
  Variable pos : nat -> nat.
  Hypothesis Hpos : forall k, (k < n)%nat -> (pos k < n)%nat /\ through (W k) (pos k) <> 0 /\ forall j, (j < pos k)%nat -> through (W k) j = 0.
  Hypothesis Ppos : Permutation (map pos (seq 0 n)) (seq 0 n).
  Lemma pos_onto p : (p < n)%nat -> exists k, (k < n)%nat /\ pos k = p.
  Proof. intros Hp. assert (I : In p (map pos (seq 0 n))) by (eapply Permutation_in; [apply Permutation_sym; exact Ppos|apply in_seq; lia]). apply in_map_iff in I. destruct I as (k & E & Ik). apply in_seq in Ik. exists k. split; auto. lia. Qed.
  (** every matrix with these eigenvectors becomes upper triangular, with the eigenvalues in the same places *)
  Lemma all_triangular A mu : (forall k, (k < n)%nat -> leftEigen n A (mu k) (W k)) ->
    (forall p j, (p < n)%nat -> (j < p)%nat -> conjugated n U A p j = 0) /\ forall k, (k < n)%nat -> conjugated n U A (pos k) (pos k) = mu k.
  Proof.
    intros H. assert (G : forall d p j, (n - p <= d)%nat -> (p < n)%nat -> (j < p)%nat -> conjugated n U A p j = 0).
    { induction d as [|d IH]; intros p j Hd Hp Hj; [lia|]. destruct (pos_onto p Hp) as (k & Hk & E). destruct (Hpos k Hk) as (_ & Np & Z). rewrite E in *.
      pose proof (through_eigen A (mu k) (W k) (H k Hk) j ltac:(lia)) as X. rewrite (csum_one n _ p) in X; auto.
      - rewrite (Z j Hj) in X. apply (Cmult_cancel_l (through (W k) p)); auto. rewrite X. ring.
      - intros r Hr Nr. destruct (lt_dec r p) as [L|L]; [rewrite Z by auto; ring|]. rewrite (IH r j) by lia. ring. }
    assert (G' : forall p j, (p < n)%nat -> (j < p)%nat -> conjugated n U A p j = 0) by (intros; apply (G n); lia). split; auto.
    intros k Hk. destruct (Hpos k Hk) as (Hp & Np & Z). pose proof (through_eigen A (mu k) (W k) (H k Hk) (pos k) Hp) as E. rewrite (csum_one n _ (pos k)) in E; auto.
    - apply (Cmult_cancel_l (through (W k) (pos k))); auto. rewrite E. ring.
    - intros r Hr Nr. destruct (lt_dec r (pos k)) as [L|L]; [rewrite Z by auto; ring|]. rewrite G' by lia. ring.
  Qed.
  (** there is no further joint eigenvector with other eigenvalues *)
  Lemma no_more (w : nat -> C) : (exists j, (j < n)%nat /\ w j <> 0) -> exists k, (k < n)%nat /\
    forall A mu nu, (forall k, (k < n)%nat -> leftEigen n A (mu k) (W k)) -> leftEigen n A nu w -> nu = mu k.
  Proof.
    intros Nw. destruct (first_nonzero n _ (through_nonzero w Nw)) as (p & Hp & Np & Z). destruct (pos_onto p Hp) as (k & Hk & E). exists k. split; auto.
    intros A mu nu HA Hw. destruct (all_triangular A mu HA) as [T1 T2]. pose proof (through_eigen A nu w Hw p Hp) as X. rewrite (csum_one n _ p) in X; auto.
    - rewrite <- (T2 k Hk), E. apply (Cmult_cancel_l (through w p)); auto. rewrite X. ring.
    - intros r Hr Nr. destruct (lt_dec r p) as [L|L]; [rewrite Z by auto; ring|]. rewrite T1 by lia. ring.
  Qed.
End Tri.
