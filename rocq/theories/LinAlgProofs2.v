(** * Reduced echelon forms: triangular_solve and rref *)
From Coq Require Import Reals List Lia Lra Arith Bool Permutation.
From Verif Require Import Num RSum Cheb Tensor PolySpec LinAlgSpec LinAlgModel LinAlgProofs.
Import ListNotations.
Local Open Scope R_scope.

(** ** inverse_P *)
Lemma inverse_P_loop P k : NoDup P -> (forall c, In c P -> (c < length P)%nat) -> (k <= length P)%nat ->
  let inv := fold_left (fun inv i => upd inv (nth i P 0%nat) i) (seq 0 k) (repeat 0%nat (length P)) in
  length inv = length P /\ forall i, (i < k)%nat -> nth (nth i P 0%nat) inv 0%nat = i.
Proof.
  intros N B. induction k; intros Hk.
  - cbn. split; [apply repeat_length|intros; lia].
  - rewrite seq_S, fold_left_app. cbn [fold_left Nat.add]. destruct (IHk ltac:(lia)) as [L H]. cbv zeta. set (inv := fold_left _ _ _) in *. cbv zeta in *.
    assert (Hk' : (nth k P 0 < length inv)%nat) by (rewrite L; apply B, nth_In; lia).
    split; [rewrite upd_length; auto|]. intros i Hi. rewrite nth_upd by auto.
    destruct (Nat.eqb_spec (nth i P 0%nat) (nth k P 0%nat)) as [E|E].
    + apply (proj1 (NoDup_nth P 0%nat) N) in E; lia.
    + apply H. destruct (Nat.eq_dec i k); [congruence|lia].
Qed.
Lemma inverse_P_spec P i : NoDup P -> (forall c, In c P -> (c < length P)%nat) -> (i < length P)%nat -> nth (nth i P 0%nat) (inverse_P P) 0%nat = i.
Proof. intros N B Hi. apply (inverse_P_loop P (length P) N B (le_n _)); auto. Qed.

(** ** The walk over an echelon form *)
Lemma walk_spec m n (M : nat -> nat -> R) p : isEchelon m n M p -> forall fuel j k, (n < fuel + k)%nat -> (j <= m)%nat -> (k <= n)%nat ->
  (forall i, (i < j)%nat -> (p i < k)%nat) -> (forall i, (j <= i < m)%nat -> (k <= p i)%nat) ->
  exists D, @walk R R_num fuel m n M j k = (map p (seq j (m - j)), D) /\ NoDup D /\ (length D + (m - j) = n - k)%nat /\
    forall c, In c D <-> (k <= c < n)%nat /\ forall i, (i < m)%nat -> p i <> c.
Proof.
  intros (Hp & Hi & Hz). induction fuel as [|fuel IH]; intros j k Hf Hj Hk H1 H2; [lia|]. cbn [walk].
  destruct (Nat.ltb_spec j m) as [Lj|Lj].
  - assert (Lk : (k < n)%nat) by (destruct (Hp j Lj); specialize (H2 j ltac:(lia)); lia). destruct (Nat.ltb_spec k n); [|lia]. cbn [andb]. rnum.
    destruct (Reqb (M j k) 0) eqn:E.
    + apply Reqb_true in E. assert (Nk : (k < p j)%nat).
      { specialize (H2 j ltac:(lia)). destruct (Nat.eq_dec k (p j)) as [->|]; [|lia]. destruct (Hp j Lj). tauto. }
      destruct (IH j (k + 1)%nat) as (D & E1 & ND & LD & ID); try lia.
      { intros i Hi'. specialize (H1 i Hi'). lia. }
      { intros i Hi'. destruct (Nat.eq_dec i j) as [->|]; [lia|]. specialize (Hi j i ltac:(lia)). lia. }
      rewrite E1. exists (k :: D). split; auto. split; [constructor; auto; rewrite ID; lia|]. split; [cbn; lia|]. intros c. cbn [In]. rewrite ID. split.
      * intros [<-|[B Q]]; [|split; [lia|auto]]. split; [lia|]. intros i Hm. destruct (le_lt_dec j i) as [G|G]; [|specialize (H1 i G); lia].
        destruct (Nat.eq_dec i j) as [->|]; [lia|]. specialize (Hi j i ltac:(lia)). lia.
      * intros [B Q]. destruct (Nat.eq_dec k c); auto. right. split; [lia|auto].
    + apply Reqb_false in E. assert (Ek : p j = k).
      { specialize (H2 j ltac:(lia)). destruct (Nat.eq_dec (p j) k); auto. exfalso. apply E. apply Hz; auto. lia. }
      destruct (IH (j + 1)%nat (k + 1)%nat) as (D & E1 & ND & LD & ID); try lia.
      { intros i Hi'. destruct (Nat.eq_dec i j) as [->|]; [lia|]. specialize (H1 i ltac:(lia)). lia. }
      { intros i Hi'. specialize (Hi j i ltac:(lia)). lia. }
      rewrite E1. exists D. split.
      { f_equal. replace (m - j)%nat with (S (m - (j + 1))) by lia. cbn [seq map]. rewrite Ek, Nat.add_1_r. auto. }
      split; auto. split; [lia|]. intros c. rewrite ID. split; intros [B Q]; (split; [|auto]); [lia|]. specialize (Q j Lj). lia.
  - cbn [andb]. exists (seq k (n - k)). replace (m - j)%nat with 0%nat by lia. split; auto. split; [apply seq_NoDup|]. split; [rewrite seq_length; lia|].
    intros c. rewrite in_seq. split; [|lia]. intros B. split; [lia|]. intros i Hm. specialize (H1 i ltac:(lia)). lia.
Qed.

(** ** triangular_solve *)
Section Echelon.
  Variables (m n : nat) (M : nat -> nat -> R) (p : nat -> nat).
  Hypothesis HE : isEchelon m n M p.
  Let C : nat -> nat -> R := fun i c => M i (p c).
  Lemma p_inj i i' : (i < m)%nat -> (i' < m)%nat -> p i = p i' -> i = i'.
  Proof. destruct HE as (_ & Hi & _). intros A B E. destruct (lt_eq_lt_dec i i') as [[G|G]|G]; auto; [specialize (Hi i i' ltac:(lia))|specialize (Hi i' i ltac:(lia))]; lia. Qed.
  Lemma C_upper i c : (i < m)%nat -> (c < i)%nat -> C i c = 0.
  Proof. intros Hi Hc. destruct HE as (_ & Hinc & Hz). apply Hz; auto. Qed.
  Lemma C_diag i : (i < m)%nat -> C i i <> 0.
  Proof. intros Hi. apply HE. auto. Qed.
  (** C x = 0 only for x = 0 *)
  Lemma C_injective x : (forall i, (i < m)%nat -> sumn m (fun c => C i c * x c) = 0) -> forall i, (i < m)%nat -> x i = 0.
  Proof.
    intros H i Hi. assert (E1 : @backsub R R_num m C (fun _ => 0) m = map x (seq (m - m) m)).
    { apply backsub_unique; [lia|]. intros r Hr. split; [apply C_diag; lia|]. rewrite upperRow_full by (try lia; intros; apply C_upper; lia). apply H. lia. }
    assert (E2 : @backsub R R_num m C (fun _ => 0) m = map (fun _ => 0) (seq (m - m) m)).
    { apply backsub_unique; [lia|]. intros r Hr. split; [apply C_diag; lia|]. unfold upperRow. rewrite sumn_zero by (intros; ring). ring. }
    rewrite E1 in E2. rewrite Nat.sub_diag in E2.
    assert (G : forall f : nat -> R, nth i (map f (seq 0 m)) 0 = f i).
    { intros f. rewrite (nth_indep _ 0 (f 0%nat)) by (rewrite map_length, seq_length; auto). rewrite map_nth, seq_nth by auto. auto. }
    rewrite <- (G x), E2. apply (G (fun _ => 0)).
  Qed.
  (** M = C R gives the same kernel *)
  Lemma kernel_factor (R' : nat -> nat -> R) v : (forall i c, (i < m)%nat -> (c < n)%nat -> M i c = sumn m (fun s => C i s * R' s c)) ->
    inKernel m n R' v <-> inKernel m n M v.
  Proof.
    intros F. assert (E : forall i, (i < m)%nat -> rowTimes n (M i) v = sumn m (fun s => C i s * rowTimes n (R' s) v)).
    { intros i Hi. unfold rowTimes. rewrite (sumn_ext n _ (fun c => sumn m (fun s => C i s * (R' s c * v c)))).
      - rewrite sumn_swap. apply sumn_ext. intros s Hs. rewrite sumn_scal. auto.
      - intros c Hc. rewrite F by auto. rewrite <- sumn_scal_r. apply sumn_ext. intros; ring. }
    split; intros H.
    - intros i Hi. rewrite E by auto. apply sumn_zero. intros s Hs. rewrite H by auto. ring.
    - intros i Hi. apply (C_injective (fun s => rowTimes n (R' s) v)); auto. intros r Hr. rewrite <- E by auto. apply H. auto.
  Qed.
  Lemma backsub_suffix U b K k c : (k <= K)%nat -> (c < k)%nat -> nth (c + (K - k)) (@backsub R R_num m U b K) 0 = nth c (@backsub R R_num m U b k) 0.
  Proof.
    intros Hk Hc. induction Hk as [|K Hk IH]; [rewrite Nat.sub_diag, Nat.add_0_r; auto|].
    cbn [backsub]. replace (c + (S K - k))%nat with (S (c + (K - k))) by lia. cbn [nth]. auto.
  Qed.

  Lemma triangular_ok : exists R', @triangular_solve R R_num m n M = Some R' /\ isReduced m n R' p /\ forall v, inKernel m n R' v <-> inKernel m n M v.
  Proof.
    destruct HE as (Hp & Hinc & Hz). unfold triangular_solve. destruct (Nat.eqb_spec m n) as [Emn|Emn].
    - assert (Pid : forall i, (i < m)%nat -> p i = i).
      { assert (Lo : forall i, (i < m)%nat -> (i <= p i)%nat) by (induction i; intros; [lia|]; specialize (Hinc i (S i) ltac:(lia)); specialize (IHi ltac:(lia)); lia).
        assert (Up : forall d i, (i + d + 1 = m)%nat -> (p i + d < m)%nat).
        { induction d; intros i Hi; [destruct (Hp i ltac:(lia)); lia|]. specialize (IHd (S i) ltac:(lia)). specialize (Hinc i (S i) ltac:(lia)). lia. }
        intros i Hi. specialize (Lo i Hi). specialize (Up (m - 1 - i)%nat i ltac:(lia)). lia. }
      eexists. split; [reflexivity|]. split.
      + split; [|intros i i' Hi Hi'; rewrite Pid by auto; rnum; destruct (Nat.eqb_spec i' i); auto].
        split; [|split]; auto.
        * intros i Hi. split; [apply Hp; auto|]. rewrite Pid, Nat.eqb_refl by auto. rnum. lra.
        * intros i c Hi Hc. rewrite Pid in Hc by auto. destruct (Nat.eqb_spec i c); [lia|reflexivity].
      + intros v. apply kernel_factor. intros i c Hi Hc. rnum. rewrite (sumn_single m c) by (try lia; intros s Hs Ns; destruct (Nat.eqb_spec s c); (congruence || ring)).
        rewrite Nat.eqb_refl. unfold C. rewrite Pid by lia. ring.
    - destruct (walk_spec m n M p HE (n + 1) 0 0) as (D & EW & ND & LD & ID); try lia.
      rewrite EW, Nat.sub_0_r. rewrite map_length, seq_length, Nat.eqb_refl. cbv zeta. rewrite Nat.sub_0_r in LD.
      set (P := map p (seq 0 m) ++ D). eexists. split; [reflexivity|].
      assert (LP : length P = n) by (unfold P; rewrite app_length, map_length, seq_length; lia).
      assert (Np : forall i, (i < m)%nat -> nth i (map p (seq 0 m)) 0%nat = p i).
      { intros i Hi. rewrite (nth_indep _ _ (p 0%nat)) by (rewrite map_length, seq_length; auto). rewrite map_nth, seq_nth; auto. }
      assert (NP : NoDup P).
      { unfold P. assert (NDp : NoDup (map p (seq 0 m))).
        { apply (NoDup_nth _ 0%nat). rewrite map_length, seq_length. intros i j Hi Hj E. rewrite !Np in E by auto. apply p_inj; auto. }
        assert (Dis : forall c, In c (map p (seq 0 m)) -> ~ In c D).
        { intros c Hc K. apply in_map_iff in Hc. destruct Hc as [i [<- Hi]]. apply in_seq in Hi. apply ID in K. destruct K as [_ K]. apply (K i); auto; lia. }
        clear - NDp ND Dis. induction NDp as [|a l Na Nl IHl]; cbn [app]; auto. constructor.
        - rewrite in_app_iff. intros [K|K]; [auto|]. apply (Dis a); [left; auto|auto].
        - apply IHl. intros c Hc. apply Dis. right; auto. }
      assert (BP : forall c, In c P -> (c < length P)%nat).
      { intros c Hc. rewrite LP. unfold P in Hc. apply in_app_or in Hc. destruct Hc as [Hc|Hc]; [|apply ID in Hc; lia].
        apply in_map_iff in Hc. destruct Hc as [i [<- Hi]]. apply in_seq in Hi. apply Hp. lia. }
      assert (Ipiv : forall i, (i < m)%nat -> nth (p i) (inverse_P P) 0%nat = i).
      { intros i Hi. assert (E : nth i P 0%nat = p i) by (unfold P; rewrite app_nth1 by (rewrite map_length, seq_length; auto); apply Np; auto).
        rewrite <- E. apply inverse_P_spec; auto. destruct (Hp i Hi). rewrite LP. unfold P in LP. rewrite app_length, map_length, seq_length in LP. lia. }
      assert (Iother : forall c, (c < n)%nat -> (forall i, (i < m)%nat -> p i <> c) -> exists q, nth q D 0%nat = c /\ nth c (inverse_P P) 0%nat = (m + q)%nat /\ (m + q < n)%nat).
      { intros c Hc Nc. assert (Ic : In c D) by (apply ID; split; [lia|auto]). destruct (In_nth D c 0%nat Ic) as [q [Hq Eq]]. exists q. split; auto.
        assert (E : nth (m + q) P 0%nat = c) by (unfold P; rewrite app_nth2 by (rewrite map_length, seq_length; lia); rewrite map_length, seq_length; replace (m + q - m)%nat with q by lia; auto).
        split; [|lia]. rewrite <- E. apply inverse_P_spec; auto. lia. }
      set (CC := fun i c => M i (nth c (map p (seq 0 m)) 0%nat)).
      assert (ECC : forall b k, (k <= m)%nat -> @backsub R R_num m CC b k = @backsub R R_num m C b k).
      { intros b. induction k; intros Hk; auto. cbn [backsub]. rewrite IHk by lia. cbv zeta. unfold CC at 2. unfold CC, C. rewrite Np by lia. do 3 f_equal.
        f_equal. apply map_ext_in. intros c Hc. apply in_seq in Hc. rewrite Np by lia. auto. }
      assert (Q : forall c, {exists i, (i < m)%nat /\ p i = c} + {forall i, (i < m)%nat -> p i <> c}).
      { intros c. destruct (in_dec Nat.eq_dec c (map p (seq 0 m))) as [I|I].
        - left. apply in_map_iff in I. destruct I as [i [E Hi]]. apply in_seq in Hi. exists i. split; auto. lia.
        - right. intros i Hi E. apply I. apply in_map_iff. exists i. split; auto. apply in_seq. lia. }
      split.
      + split; [split; [|split]|]; auto.
        * intros i Hi. split; [apply Hp; auto|]. rewrite Ipiv by auto. destruct (Nat.ltb_spec i m); [|lia]. rewrite Nat.eqb_refl. rnum. lra.
        * intros i c Hi Hc. destruct (Q c) as [[i0 [Hi0 <-]]|Nc].
          -- rewrite Ipiv by auto. destruct (Nat.ltb_spec i0 m); [|lia]. destruct (Nat.eqb_spec i i0) as [->|]; [lia|reflexivity].
          -- destruct (Iother c) as (q & Eq & EP & Bq); auto; [destruct (Hp i Hi); lia|]. rewrite EP. destruct (Nat.ltb_spec (m + q) m); [lia|].
             replace (m + q - m)%nat with q by lia. rewrite Eq. unfold solveUpper. rewrite ECC by lia.
             change (@n0 R R_num) with 0. replace i with (0 + (m - (m - i)))%nat at 1 by lia. rewrite backsub_suffix by lia.
             rewrite (backsub_unique m C _ (fun _ => 0) (m - i)); try lia.
             ++ destruct (m - i)%nat eqn:Z; [lia|]. reflexivity.
             ++ intros r Hr. split; [apply C_diag; lia|]. unfold upperRow. rewrite sumn_zero by (intros; ring). rewrite Rmult_0_r, Rplus_0_l.
                symmetry. apply Hz; [lia|]. destruct (Nat.eq_dec r i) as [->|]; auto. specialize (Hinc i r ltac:(lia)). lia.
        * intros i i' Hi Hi'. rewrite Ipiv by auto. destruct (Nat.ltb_spec i m); [|lia]. rnum. auto.
      + intros v. apply kernel_factor. intros i c Hi Hc. destruct (Q c) as [[i0 [Hi0 <-]]|Nc].
        * rewrite Ipiv by auto. destruct (Nat.ltb_spec i0 m); [|lia]. rnum.
          rewrite (sumn_single m i0) by (auto; intros s Hs Ns; destruct (Nat.eqb_spec s i0); (congruence || ring)). rewrite Nat.eqb_refl. unfold C. ring.
        * destruct (Iother c Hc Nc) as (q & Eq & EP & Bq). rewrite EP. destruct (Nat.ltb_spec (m + q) m); [lia|].
          replace (m + q - m)%nat with q by lia. rewrite Eq. unfold solveUpper. rewrite ECC by lia.
          pose proof (backsub_solves m C (fun r => M r c) m (le_n _)) as B. rewrite Nat.sub_diag in B.
          specialize (B ltac:(intros; apply C_diag; lia) i ltac:(lia)). rewrite upperRow_full in B by (auto; intros; apply C_upper; auto).
          rewrite <- B. apply sumn_ext. intros s Hs. rewrite Nat.sub_0_r. auto.
  Qed.
End Echelon.

(** ** rref *)
Section Rref.
  Variables (m n : nat) (A : nat -> nat -> R).
  (** what holds before step j: unit columns on the left, the same solutions, a column order that leaves the last column alone *)
  Definition rrefInv (j : nat) (M : nat -> nat -> R) (Pc : list nat) : Prop :=
    (forall i c, (i < m)%nat -> (c < j)%nat -> M i c = if (i =? c)%nat then 1 else 0) /\
    Permutation Pc (seq 0 n) /\ nth (n - 1) Pc 0%nat = (n - 1)%nat /\
    (forall v, inKernel m n M (fun c => v (nth c Pc 0%nat)) <-> inKernel m n A v).
  Lemma swapped_order Pc j l : (j < length Pc)%nat -> (l < length Pc)%nat -> forall c, nth c (upd (upd Pc j (nth l Pc 0%nat)) l (nth j Pc 0%nat)) 0%nat = nth (swapIx j l c) Pc 0%nat.
  Proof.
    intros Hj Hl c. rewrite nth_upd by (rewrite upd_length; auto). rewrite nth_upd by auto. unfold swapIx.
    destruct (Nat.eqb_spec c l), (Nat.eqb_spec c j); subst; auto.
  Qed.
  Lemma swapped_perm (Pc : list nat) j l : (j < length Pc)%nat -> (l < length Pc)%nat -> Permutation (upd (upd Pc j (nth l Pc 0%nat)) l (nth j Pc 0%nat)) Pc.
  Proof.
    intros Hj Hl. set (Q := upd _ _ _). assert (LQ : length Q = length Pc) by (unfold Q; rewrite !upd_length; auto).
    assert (E : Q = map (fun c => nth (swapIx j l c) Pc 0%nat) (seq 0 (length Pc))).
    { apply nth_ext with (d := 0%nat) (d' := nth (swapIx j l 0) Pc 0%nat); [rewrite map_length, seq_length; auto|]. intros c Hc.
      rewrite (map_nth (fun c => nth (swapIx j l c) Pc 0%nat)), seq_nth by lia. unfold Q. rewrite swapped_order by auto. auto. }
    rewrite E. rewrite <- (map_map (swapIx j l) (fun c => nth c Pc 0%nat)).
    assert (F : Pc = map (fun c => nth c Pc 0%nat) (seq 0 (length Pc))).
    { apply nth_ext with (d := 0%nat) (d' := nth 0 Pc 0%nat); [rewrite map_length, seq_length; auto|]. intros c Hc. rewrite (map_nth (fun c => nth c Pc 0%nat)), seq_nth by lia. auto. }
    apply Permutation_trans with (map (fun c => nth c Pc 0%nat) (seq 0 (length Pc))); [|rewrite <- F; apply Permutation_refl]. apply Permutation_map. apply NoDup_Permutation.
    - apply FinFun.Injective_map_NoDup; [|apply seq_NoDup]. intros a b H. rewrite <- (swapIx_inv j l a), H. apply swapIx_inv.
    - apply seq_NoDup.
    - intros c. rewrite in_map_iff, in_seq. split.
      + intros [a [<- Ha]]. apply in_seq in Ha. split; [lia|]. apply swapIx_lt; lia.
      + intros Hc. exists (swapIx j l c). split; [apply swapIx_inv|]. apply in_seq. split; [lia|]. apply swapIx_lt; lia.
  Qed.
  Lemma pivot_range j (M : nat -> nat -> R) : (j < m)%nat -> (j < n - 1)%nat ->
    (j <= fst (@rrefPivot R R_num m n j M) < m)%nat /\ (j <= snd (@rrefPivot R R_num m n j M) < n - 1)%nat /\
    forall i c, (j <= i < m)%nat -> (j <= c < n - 1)%nat -> Rabs (M i c) <= Rabs (M (fst (@rrefPivot R R_num m n j M)) (snd (@rrefPivot R R_num m n j M))).
  Proof.
    intros Hm Hn. unfold rrefPivot. set (ps := flat_map _ _).
    destruct (argmax_spec (fun p => Rabs (M (fst p) (snd p))) ps (j, j)) as [I X].
    change (argmax (fun p => Rabs (M (fst p) (snd p))) (j, j) ps) with (@argmax R R_num _ (fun p => nabs (M (fst p) (snd p))) (j, j) ps) in *.
    set (q := argmax _ _ _) in *.
    assert (In_ps : forall a, In a ps <-> (j <= fst a < m)%nat /\ (j <= snd a < n - 1)%nat).
    { intros [a b]. unfold ps. rewrite in_flat_map. cbn [fst snd]. split.
      - intros [i [Hi Hc]]. apply in_seq in Hi. apply in_map_iff in Hc. destruct Hc as [c [E Hc]]. apply in_seq in Hc. injection E as <- <-. lia.
      - intros [Ha Hb]. exists a. split; [apply in_seq; lia|]. apply in_map_iff. exists b. split; auto. apply in_seq. lia. }
    destruct I as [I|I].
    - rewrite <- I. cbn [fst snd]. repeat split; try lia. intros i c Hi Hc. rewrite <- I in X. apply (X (i, c)). right. apply In_ps. cbn; lia.
    - apply In_ps in I. repeat split; try lia. intros i c Hi Hc. apply (X (i, c)). right. apply In_ps. cbn; lia.
  Qed.
  Lemma rref_swap j M Pc k l : (j <= k < m)%nat -> (j <= l < n - 1)%nat -> rrefInv j M Pc ->
    rrefInv j (swapCols j l (swapRows j k M)) (upd (upd Pc j (nth l Pc 0%nat)) l (nth j Pc 0%nat)).
  Proof.
    intros Hk Hl (U & P & L & K). pose proof (Permutation_length P) as LP. rewrite seq_length in LP.
    split; [|split; [|split]].
    - intros i c Hi Hc. unfold swapCols, swapRows. assert (E : swapIx j l c = c) by (unfold swapIx; destruct (Nat.eqb_spec c j), (Nat.eqb_spec c l); lia).
      rewrite E, U by (auto; apply swapIx_lt; lia). unfold swapIx. destruct (Nat.eqb_spec i j) as [->|].
      + destruct (Nat.eqb_spec k c), (Nat.eqb_spec j c); auto; lia.
      + destruct (Nat.eqb_spec i k) as [->|]; auto. destruct (Nat.eqb_spec j c), (Nat.eqb_spec k c); auto; lia.
    - eapply Permutation_trans; [|apply P]. apply swapped_perm; lia.
    - rewrite swapped_order by lia. unfold swapIx. destruct (Nat.eqb_spec (n - 1) j), (Nat.eqb_spec (n - 1) l); auto; lia.
    - intros v. rewrite <- K. rewrite <- (kernel_swapRows m n j k M) by lia. unfold inKernel. unfold rowTimes.
      assert (E : forall i, sumn n (fun c => swapCols j l (swapRows j k M) i c * v (nth c (upd (upd Pc j (nth l Pc 0%nat)) l (nth j Pc 0%nat)) 0%nat)) = sumn n (fun c => swapRows j k M i c * v (nth c Pc 0%nat))).
      { intros i. rewrite <- (sumn_perm2 n j l (fun c => swapRows j k M i c * v (nth c Pc 0%nat))) by lia. apply sumn_ext. intros c Hc. rewrite swapped_order by lia. reflexivity. }
      split; intros H i Hi; [rewrite <- E|rewrite E]; auto.
  Qed.
  Lemma rref_eliminate j M Pc : (j < m)%nat -> (j < n - 1)%nat -> M j j <> 0 -> rrefInv j M Pc -> rrefInv (S j) (@rrefEliminate R R_num j M) Pc.
  Proof.
    intros Hm Hn D (U & P & L & K). split; [|split; [|split]]; auto.
    - intros i c Hi Hc. unfold rrefEliminate. rnum. destruct (Nat.eq_dec c j) as [->|N].
      + destruct (Nat.eqb_spec i j) as [->|]; [field; auto|]. rewrite Nat.ltb_irrefl. field. auto.
      + destruct (Nat.eqb_spec i j) as [->|].
        * rewrite U by lia. destruct (Nat.eqb_spec j c); [lia|]. field. auto.
        * destruct (Nat.ltb_spec c j); [|lia]. apply U; lia.
    - intros v. rewrite <- K. apply (kernel_eliminate m n j (fun i => M i j / M j j) (/ M j j)); auto.
      + apply Rinv_neq_0_compat. auto.
      + intros c Hc. unfold rrefEliminate. rewrite Nat.eqb_refl. rnum. field. auto.
      + intros i c Hi Ni Hc. unfold rrefEliminate. rnum. destruct (Nat.eqb_spec i j); [congruence|]. destruct (Nat.ltb_spec c j).
        * rewrite (U j c) by lia. destruct (Nat.eqb_spec j c); [lia|]. field. auto.
        * field. auto.
  Qed.
  (** the result, in general *)
  Lemma rrefLoop_spec d : forall j M Pc, (j + d = m)%nat -> rrefInv j M Pc ->
    match @rrefLoop R R_num m n (seq j d) M Pc with
    | Reduced r M' Pc' => (r <= m)%nat /\ rrefInv r M' Pc' /\ ((r < m)%nat -> (r < n - 1)%nat /\ forall i c, (r <= i < m)%nat -> (r <= c < n - 1)%nat -> M' i c = 0) /\ (r <= Nat.max j (n - 1))%nat
    | ValueError => (Nat.max j (n - 1) < m)%nat
    | AttributeError => False
    end.
  Proof.
    induction d; intros j M Pc Hj I; cbn [seq rrefLoop].
    - replace j with m in * by lia. split; auto. split; auto. split; intros; lia.
    - destruct (Nat.leb_spec (n - 1) j) as [G|G]; [lia|]. pose proof (pivot_range j M ltac:(lia) G) as (Rk & Rl & Mx).
      destruct (rrefPivot m n j M) as [k l]. cbn [fst snd] in *. pose proof (rref_swap j M Pc k l Rk Rl I) as I'.
      set (M' := swapCols j l (swapRows j k M)) in *. set (Pc' := upd (upd Pc _ _) _ _) in *. rnum. destruct (Reqb (M' j j) 0) eqn:E.
      + apply Reqb_true in E. split; [lia|]. split; auto. split; [|lia]. intros _. split; auto. intros i c Hi Hc. unfold M', swapCols, swapRows in *.
        assert (E2 : swapIx j l j = l) by (unfold swapIx; rewrite Nat.eqb_refl; auto). assert (E3 : swapIx j k j = k) by (unfold swapIx; rewrite Nat.eqb_refl; auto).
        rewrite E2, E3 in E. rewrite E, Rabs_R0 in Mx. specialize (Mx (swapIx j k i) (swapIx j l c)).
        destruct (Req_dec (M (swapIx j k i) (swapIx j l c)) 0) as [Q|Q]; auto. apply Rabs_pos_lt in Q. exfalso. apply (Rlt_irrefl 0). eapply Rlt_le_trans; [apply Q|]. apply Mx.
        * split; [apply swapIx_ge; lia|apply swapIx_lt; lia].
        * split; [apply swapIx_ge; lia|apply swapIx_lt; lia].
      + apply Reqb_false in E. specialize (IHd (S j) (rrefEliminate j M') Pc' ltac:(lia) (rref_eliminate j M' Pc' ltac:(lia) G E I')).
        destruct (rrefLoop m n (seq (S j) d) (rrefEliminate j M') Pc'); auto; [|lia]. destruct IHd as (X1 & X2 & X3 & X4). split; auto. split; auto. split; auto. lia.
  Qed.
  Lemma rrefInv_start : (1 <= n)%nat -> rrefInv 0 A (seq 0 n).
  Proof.
    intros Hn. split; [intros; lia|]. split; [apply Permutation_refl|]. split; [rewrite seq_nth; lia|]. intros v. unfold inKernel, rowTimes.
    assert (E : forall i, sumn n (fun c => A i c * v (nth c (seq 0 n) 0%nat)) = sumn n (fun c => A i c * v c)) by (intros; apply sumn_ext; intros c Hc; rewrite seq_nth by auto; auto).
    split; intros H i Hi; [rewrite <- E|rewrite E]; auto.
  Qed.
End Rref.
