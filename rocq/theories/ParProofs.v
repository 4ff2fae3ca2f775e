(** * Proofs about bounding_parallelepiped *)
From Coq Require Import List Arith Bool ZArith Reals Lra Lia Permutation.
From Verif Require Import Num RSum Tensor LinAlgModel LinAlgProofs ParModel.
Import ListNotations.
Local Open Scope R_scope.

(** ** A convex set with all edge points of the slice has the whole slice *)
Section Hull.
  Variable n : nat.
  Variables (c0 : R) (c : nat -> R).
  Definition onPlane (x : nat -> R) : Prop := c0 + sumn n (fun j => c j * x j) = 0.
  Definition inCube (x : nat -> R) : Prop := forall j, (j < n)%nat -> -1 <= x j <= 1.
  Definition corner (v : R) : Prop := v = -1 \/ v = 1.
  Definition cornerb (v : R) : bool := Reqb v (-1) || Reqb v 1.
  Lemma cornerb_iff v : cornerb v = true <-> corner v.
  Proof. unfold cornerb, corner. rewrite orb_true_iff, !Reqb_true. tauto. Qed.
  Definition free (x : nat -> R) : list nat := filter (fun j => negb (cornerb (x j))) (seq 0 n).
  Lemma free_in x j : In j (free x) <-> (j < n)%nat /\ ~ corner (x j).
  Proof.
    unfold free. rewrite filter_In, in_seq, negb_true_iff. rewrite <- cornerb_iff. destruct (cornerb (x j)); split; intros [H1 H2]; split; try lia; try congruence; auto.
  Qed.
  Lemma free_less x y i : (forall j, In j (free y) -> In j (free x)) -> In i (free x) -> ~ In i (free y) -> (length (free y) < length (free x))%nat.
  Proof.
    intros H Hi Hn. assert (N : NoDup (free x)) by (apply NoDup_filter, seq_NoDup). assert (N' : NoDup (free y)) by (apply NoDup_filter, seq_NoDup).
    assert (L : (length (i :: free y) <= length (free x))%nat).
    { apply NoDup_incl_length; [constructor; auto|]. intros j [<-|Hj]; auto. }
    cbn in L. lia.
  Qed.
  Lemma sumn_dir (x d : nat -> R) t : sumn n (fun j => c j * (x j + t * d j)) = sumn n (fun j => c j * x j) + t * sumn n (fun j => c j * d j).
  Proof. rewrite <- sumn_scal, <- sumn_plus. apply sumn_ext. intros. ring. Qed.

  (** moving from x along a direction that is nonzero only at free coordinates, until a free coordinate reaches an end *)
  Definition hit (v d : R) : R := if Rlt_dec 0 d then (1 - v) / d else (-1 - v) / d.
  Lemma hit_pos v d : -1 < v < 1 -> d <> 0 -> 0 < hit v d.
  Proof.
    intros Hv Hd. unfold hit. destruct (Rlt_dec 0 d); [apply Rdiv_lt_0_compat; lra|].
    replace ((-1 - v) / d) with ((1 + v) / - d) by (field; lra). apply Rdiv_lt_0_compat; lra.
  Qed.
  Lemma hit_corner v d : d <> 0 -> corner (v + hit v d * d).
  Proof. intros Hd. unfold hit, corner. destruct (Rlt_dec 0 d); [right|left]; field; auto. Qed.
  Lemma hit_before v d t : -1 < v < 1 -> d <> 0 -> 0 <= t <= hit v d -> -1 <= v + t * d <= 1.
  Proof.
    intros Hv Hd Ht. pose proof (hit_pos v d Hv Hd). unfold hit in *. destruct (Rlt_dec 0 d).
    - assert (t * d <= 1 - v) by (replace (1 - v) with ((1 - v) / d * d) by (field; lra); apply Rmult_le_compat_r; lra). nra.
    - assert (t * - d <= 1 + v) by (replace (1 + v) with ((-1 - v) / d * - d) by (field; lra); apply Rmult_le_compat_r; lra). nra.
  Qed.
  Lemma inside x j : inCube x -> In j (free x) -> -1 < x j < 1.
  Proof. intros H Hj. apply free_in in Hj as [Hj Hc]. specialize (H j Hj). unfold corner in Hc. destruct (Req_dec (x j) (-1)), (Req_dec (x j) 1); try tauto. lra. Qed.
  Lemma walk x d js : inCube x -> onPlane x -> sumn n (fun j => c j * d j) = 0 -> js <> [] -> (forall j, In j js -> In j (free x) /\ d j <> 0) ->
    (forall j, (j < n)%nat -> ~ In j js -> d j = 0) ->
    exists t, 0 < t /\ inCube (fun j => x j + t * d j) /\ onPlane (fun j => x j + t * d j) /\ (length (free (fun j => (x j + t * d j)%R)) < length (free x))%nat.
  Proof.
    intros Hc Hp Hd Hne Hjs H0.
    assert (Hmin : exists i, In i js /\ forall j, In j js -> hit (x i) (d i) <= hit (x j) (d j)).
    { clear -Hne. induction js as [|a js IH]; [congruence|]. destruct js as [|b js].
      - exists a. split; [left; auto|]. intros j [<-|[]]. lra.
      - destruct IH as (i & Hi & Hm); [discriminate|]. destruct (Rle_dec (hit (x a) (d a)) (hit (x i) (d i))).
        + exists a. split; [left; auto|]. intros j [<-|Hj]; [lra|]. specialize (Hm j Hj). lra.
        + exists i. split; [right; auto|]. intros j [<-|Hj]; [lra|]. auto. }
    destruct Hmin as (i & Hi & Hm). destruct (Hjs i Hi) as [Hif Hid]. set (t := hit (x i) (d i)) in *. exists t.
    pose proof (hit_pos (x i) (d i) (inside x i Hc Hif) Hid) as Ht. fold t in Ht. split; auto. split; [|split].
    - intros j Hj. destruct (in_dec Nat.eq_dec j js) as [Hin|Hout].
      + destruct (Hjs j Hin) as [Hf Hdj]. apply hit_before; auto; [apply inside; auto|]. split; [lra|]. apply Hm; auto.
      + rewrite (H0 j Hj Hout), Rmult_0_r, Rplus_0_r. auto.
    - unfold onPlane in *. rewrite sumn_dir, Hd. lra.
    - apply (free_less _ _ i); auto.
      + intros j Hj. apply free_in in Hj as [Hj Hcj]. destruct (in_dec Nat.eq_dec j js) as [Hin|Hout]; [apply Hjs; auto|].
        apply free_in. split; auto. rewrite (H0 j Hj Hout), Rmult_0_r, Rplus_0_r in Hcj. auto.
      + intros Hj. apply free_in in Hj as [_ Hj]. apply Hj. apply hit_corner; auto.
  Qed.

  Variable K : (nat -> R) -> Prop.
  Hypothesis Kext : forall x y, (forall j, (j < n)%nat -> x j = y j) -> K x -> K y.
  Hypothesis Kconv : forall x y s, 0 <= s <= 1 -> K x -> K y -> K (fun j => s * x j + (1 - s) * y j).
  Hypothesis Kedge : forall x i, (i < n)%nat -> c i <> 0 -> inCube x -> onPlane x -> (forall j, (j < n)%nat -> j <> i -> corner (x j)) -> K x.
  Hypothesis Hc : exists i, (i < n)%nat /\ c i <> 0.

  Theorem slice_in_hull x : inCube x -> onPlane x -> K x.
  Proof.
    remember (length (free x)) as m eqn:Em. revert x Em. induction m as [m IH] using lt_wf_ind. intros x Em HC HP.
    (* two walks in opposite directions *)
    assert (W : forall d js, sumn n (fun j => c j * d j) = 0 -> js <> [] -> (forall j, In j js -> In j (free x) /\ d j <> 0) ->
       (forall j, (j < n)%nat -> ~ In j js -> d j = 0) -> K x).
    { intros d js Hd Hne Hjs H0. destruct (walk x d js HC HP Hd Hne Hjs H0) as (t & Ht & C1 & P1 & L1).
      destruct (walk x (fun j => - d j) js HC HP) as (u & Hu & C2 & P2 & L2); auto.
      - rewrite (sumn_ext _ _ (fun j => - (c j * d j))) by (intros; ring). rewrite sumn_opp, Hd. lra.
      - intros j Hj. destruct (Hjs j Hj). split; auto. lra.
      - intros j Hj Ho. rewrite (H0 j Hj Ho). lra.
      - rewrite <- Em in L1, L2. pose proof (IH _ L1 _ eq_refl C1 P1) as K1. pose proof (IH _ L2 _ eq_refl C2 P2) as K2.
        apply (Kext (fun j => u / (t + u) * (x j + t * d j) + (1 - u / (t + u)) * (x j + u * - d j))).
        + intros j _. field. lra.
        + apply Kconv; auto. split; [apply Rlt_le, Rdiv_lt_0_compat; lra|]. apply Rmult_le_reg_r with (t + u); [lra|]. unfold Rdiv. rewrite Rmult_assoc, Rinv_l by lra. lra. }
    destruct (free x) as [|i [|k l]] eqn:Ef.
    - destruct Hc as (i & Hi & Hci). apply (Kedge x i); auto. intros j Hj _. apply cornerb_iff. destruct (cornerb (x j)) eqn:E; auto. exfalso.
      assert (In j (free x)) as Hf by (apply free_in; split; auto; rewrite <- cornerb_iff; congruence). rewrite Ef in Hf. destruct Hf.
    - assert (Hi : In i (free x)) by (rewrite Ef; left; auto). assert (Hi' := Hi). apply free_in in Hi' as [Hin _].
      destruct (Req_dec (c i) 0) as [Hz|Hz].
      + apply (W (fun j => if Nat.eqb j i then 1 else 0) [i]); try discriminate.
        * apply sumn_zero. intros j _. destruct (Nat.eqb_spec j i); [subst; rewrite Hz|]; ring.
        * intros j [<-|[]]. split; [left; auto|]. rewrite Nat.eqb_refl. lra.
        * intros j _ Hj. destruct (Nat.eqb_spec j i); auto. subst. exfalso. apply Hj. left; auto.
      + apply (Kedge x i); auto. intros j Hj Hji. apply cornerb_iff. destruct (cornerb (x j)) eqn:E; auto. exfalso.
        assert (In j (free x)) as Hf by (apply free_in; split; auto; rewrite <- cornerb_iff; congruence). rewrite Ef in Hf. destruct Hf as [?|[]]; congruence.
    - assert (Hi : In i (free x)) by (rewrite Ef; left; auto). assert (Hk : In k (free x)) by (rewrite Ef; right; left; auto).
      assert (Hik : i <> k). { assert (N : NoDup (free x)) by (apply NoDup_filter, seq_NoDup). rewrite Ef in N. inversion N; subst. intros ->. apply H1. left; auto. }
      assert (Hi' := Hi). apply free_in in Hi' as [Hin _]. assert (Hk' := Hk). apply free_in in Hk' as [Hkn _].
      destruct (Req_dec (c i) 0) as [Hz|Hz]; [|destruct (Req_dec (c k) 0) as [Hzk|Hzk]].
      + apply (W (fun j => if Nat.eqb j i then 1 else 0) [i]); try discriminate.
        * apply sumn_zero. intros j _. destruct (Nat.eqb_spec j i); [subst; rewrite Hz|]; ring.
        * intros j [<-|[]]. split; [left; auto|]. rewrite Nat.eqb_refl. lra.
        * intros j _ Hj. destruct (Nat.eqb_spec j i); auto. subst. exfalso. apply Hj. left; auto.
      + apply (W (fun j => if Nat.eqb j k then 1 else 0) [k]); try discriminate.
        * apply sumn_zero. intros j _. destruct (Nat.eqb_spec j k); [subst; rewrite Hzk|]; ring.
        * intros j [<-|[]]. split; [right; left; auto|]. rewrite Nat.eqb_refl. lra.
        * intros j _ Hj. destruct (Nat.eqb_spec j k); auto. subst. exfalso. apply Hj. left; auto.
      + apply (W (fun j => if Nat.eqb j i then c k else if Nat.eqb j k then - c i else 0) [i; k]); try discriminate.
        * rewrite (sumn_ext _ _ (fun j => (if Nat.eqb j i then c i * c k else 0) + (if Nat.eqb j k then - (c k * c i) else 0))).
          -- rewrite sumn_plus. rewrite (sumn_single n i), (sumn_single n k); auto.
             ++ rewrite !Nat.eqb_refl. ring.
             ++ intros j _ Hj. destruct (Nat.eqb_spec j k); congruence.
             ++ intros j _ Hj. destruct (Nat.eqb_spec j i); congruence.
          -- intros j _. destruct (Nat.eqb_spec j i), (Nat.eqb_spec j k); subst; try congruence; ring.
        * intros j [<-|[<-|[]]]; [split; [left; auto|]|split; [right; left; auto|]]; rewrite !Nat.eqb_refl; auto. destruct (Nat.eqb_spec k i); [congruence|lra].
        * intros j _ Hj. destruct (Nat.eqb_spec j i); [subst; exfalso; apply Hj; left; auto|]. destruct (Nat.eqb_spec j k); auto. subst. exfalso. apply Hj. right; left; auto.
  Qed.
End Hull.

(** ** The edge points *)
Lemma corners_iff k : forall p, In p (@corners R R_num k) <-> length p = k /\ Forall corner p.
Proof.
  induction k as [|k IH]; intros p; cbn [corners].
  - split; [intros [<-|[]]; auto|]. intros [H _]. left. destruct p; auto; discriminate.
  - rewrite in_app_iff, !in_map_iff. rnum. split.
    + intros [(q & <- & Hq)|(q & <- & Hq)]; apply IH in Hq as [L F]; (split; [cbn; lia|]; constructor; auto); [left|right]; lra.
    + destruct p as [|v p]; intros [L F]; [discriminate|]. inversion F; subst. cbn in L. injection L as L. destruct H1 as [->| ->]; [left|right]; exists p; (split; [f_equal; lra|apply IH; auto]).
Qed.
Lemma insertAt_length i v (pt : list R) : (i <= length pt)%nat -> length (insertAt i v pt) = S (length pt).
Proof. intros. unfold insertAt. rewrite app_length, firstn_length. cbn. rewrite skipn_length. lia. Qed.
Lemma insertAt_eq i v (pt : list R) : (i <= length pt)%nat -> nth i (insertAt i v pt) 0 = v.
Proof. intros. unfold insertAt. rewrite app_nth2; rewrite firstn_length, Nat.min_l by auto; [|lia]. rewrite Nat.sub_diag. reflexivity. Qed.
Lemma insertAt_other i v w (pt : list R) j : (i <= length pt)%nat -> j <> i -> nth j (insertAt i v pt) 0 = nth j (insertAt i w pt) 0.
Proof.
  intros Hi Hj. unfold insertAt. destruct (lt_dec j i).
  - rewrite !app_nth1 by (rewrite firstn_length; lia). reflexivity.
  - rewrite !app_nth2 by (rewrite firstn_length; lia). rewrite firstn_length, Nat.min_l by auto. destruct (j - i)%nat eqn:E; [lia|]. reflexivity.
Qed.
Lemma insertAt_self i (p : list R) : (i < length p)%nat -> insertAt i (nth i p 0) (firstn i p ++ skipn (S i) p) = p.
Proof.
  intros H. unfold insertAt. assert (L : length (firstn i p) = i) by (rewrite firstn_length; lia).
  rewrite firstn_app, L, Nat.sub_diag, firstn_O, app_nil_r, firstn_firstn, Nat.min_id. rewrite skipn_app, L, Nat.sub_diag, skipn_O.
  rewrite skipn_all2 by (rewrite L; lia). cbn [app]. rewrite <- (firstn_skipn i p) at 4. f_equal.
  clear L. revert p H. induction i as [|i IH]; intros [|a p] H; cbn in H; try lia; auto. cbn [skipn nth]. apply IH. lia.
Qed.
Lemma insertAt_Forall P i v (pt : list R) : Forall P pt -> (i <= length pt)%nat -> forall j, (j < S (length pt))%nat -> j <> i -> P (nth j (insertAt i v pt) 0).
Proof.
  intros F Hi j Hj Hn. rewrite Forall_forall in F. apply F. unfold insertAt.
  assert (G1 : forall x, In x (firstn i pt) -> In x pt) by (intros x Hx; rewrite <- (firstn_skipn i pt); apply in_app_iff; auto).
  assert (G2 : forall x, In x (skipn i pt) -> In x pt) by (intros x Hx; rewrite <- (firstn_skipn i pt); apply in_app_iff; auto).
  destruct (lt_dec j i).
  - rewrite app_nth1 by (rewrite firstn_length; lia). apply G1, nth_In. rewrite firstn_length; lia.
  - rewrite app_nth2 by (rewrite firstn_length; lia). rewrite firstn_length, Nat.min_l by auto. destruct (j - i)%nat as [|m] eqn:E; [lia|]. cbn [nth].
    apply G2, nth_In. rewrite skipn_length; lia.
Qed.
Lemma restOf_R const coeff i pt : @restOf R R_num const coeff i pt = - const - sumn (length coeff) (fun j => if Nat.eqb i j then 0 else nth j coeff 0 * nth j pt 0).
Proof.
  unfold restOf. generalize (length coeff). intros n. induction n as [|n IH]; [cbn; rnum; lra|].
  rewrite seq_S, fold_left_app. cbn [fold_left Nat.add sumn]. rewrite IH. destruct (Nat.eqb i n); rnum; lra.
Qed.
Definition planeAt (const : R) (coeff : list R) (p : list R) : R := const + sumn (length coeff) (fun j => nth j coeff 0 * nth j p 0).
Lemma sumn_except n i (f : nat -> R) : (i < n)%nat -> sumn n f = f i + sumn n (fun j => if Nat.eqb i j then 0 else f j).
Proof.
  intros Hi. assert (E : sumn n (fun j => if Nat.eqb i j then f j else 0) = f i).
  { rewrite (sumn_single n i); auto; [rewrite Nat.eqb_refl; auto|]. intros j _ Hj. destruct (Nat.eqb_spec i j); congruence. }
  rewrite <- E, <- sumn_plus. apply sumn_ext. intros j _. destruct (Nat.eqb i j); lra.
Qed.
Lemma edgePoints_iff const coeff i p : (i < length coeff)%nat ->
  (In p (@edgePoints R R_num const coeff i) <->
   length p = length coeff /\ / 10 ^ 8 < Rabs (nth i coeff 0) /\ inCube (length coeff) (fun j => nth j p 0) /\
   (forall j, (j < length coeff)%nat -> j <> i -> corner (nth j p 0)) /\ planeAt const coeff p = 0).
Proof.
  intros Hi. unfold edgePoints, closeTo0. change (@n0 R R_num) with 0. set (n := length coeff) in *.
  assert (E8 : @nlit R R_num 1 100000000 = / 10 ^ 8) by (rewrite nlit_R; lra). rewrite E8.
  destruct (@nleb R R_num (nabs (nth i coeff 0)) (/ 10 ^ 8)) eqn:Ec.
  { cbn [nleb nabs R_num] in Ec. apply Rleb_true in Ec. split; [intros []|]. intros (_ & H & _). lra. }
  cbn [nleb nabs R_num] in Ec. apply Rleb_false in Ec.
  assert (H8 : 0 < / 10 ^ 8) by (apply Rinv_0_lt_compat, pow_lt; lra).
  assert (Hci : nth i coeff 0 <> 0) by (intros E; rewrite E, Rabs_R0 in Ec; lra).
  assert (Val : forall pt, length pt = (n - 1)%nat -> let v := @restOf R R_num const coeff i (insertAt i 0 pt) / nth i coeff 0 in planeAt const coeff (insertAt i v pt) = 0).
  { intros pt L v. unfold planeAt. fold n. rewrite (sumn_except n i) by auto. rewrite insertAt_eq by lia.
    rewrite (sumn_ext n (fun j => if Nat.eqb i j then 0 else nth j coeff 0 * nth j (insertAt i v pt) 0) (fun j => if Nat.eqb i j then 0 else nth j coeff 0 * nth j (insertAt i 0 pt) 0)).
    - unfold v. rewrite restOf_R. fold n. field. auto.
    - intros j _. destruct (Nat.eqb_spec i j); auto. f_equal. apply insertAt_other; lia. }
  rewrite filter_In, in_map_iff. split.
  - intros [(pt & <- & Hpt) Hf]. apply corners_iff in Hpt as [L F]. rnum. set (v := restOf const coeff i (insertAt i 0 pt) / nth i coeff 0) in *.
    assert (Ln : length (insertAt i v pt) = n) by (rewrite insertAt_length; lia).
    split; auto. split; auto. split; [|split].
    + intros j Hj. rewrite forallb_forall in Hf. specialize (Hf (nth j (insertAt i v pt) 0)). rewrite andb_true_iff, !Rleb_true in Hf.
      apply Hf. apply nth_In. lia.
    + intros j Hj Hn. apply insertAt_Forall; auto; lia.
    + apply Val. auto.
  - intros (L & _ & HC & Hco & HP). assert (L' : length (firstn i p ++ skipn (S i) p) = (n - 1)%nat) by (rewrite app_length, firstn_length, skipn_length; lia).
    split.
    + exists (firstn i p ++ skipn (S i) p). split.
      * rewrite <- (insertAt_self i p) at 5 by lia. f_equal. apply (Rmult_eq_reg_l (nth i coeff 0)); auto.
        rnum. replace (nth i coeff 0 * (restOf const coeff i (insertAt i 0 (firstn i p ++ skipn (S i) p)) / nth i coeff 0)) with (@restOf R R_num const coeff i (insertAt i 0 (firstn i p ++ skipn (S i) p))) by (field; auto).
        rewrite restOf_R. fold n. unfold planeAt in HP. fold n in HP. rewrite (sumn_except n i) in HP by auto.
        rewrite (sumn_ext n _ (fun j => if Nat.eqb i j then 0 else nth j coeff 0 * nth j p 0)); [lra|].
        intros j _. destruct (Nat.eqb_spec i j); auto. f_equal. rewrite (insertAt_other i 0 (nth i p 0)) by lia. rewrite insertAt_self by lia. reflexivity.
      * apply corners_iff. split; auto. apply Forall_forall. intros v Hv. apply in_app_iff in Hv.
        assert (G : exists j, (j < n)%nat /\ j <> i /\ v = nth j p 0).
        { destruct Hv as [Hv|Hv]; apply (In_nth _ _ 0) in Hv as (j & Hj & <-).
          - rewrite firstn_length in Hj. exists j. split; [lia|]. split; [lia|]. rewrite <- (firstn_skipn i p) at 2. rewrite app_nth1; auto. rewrite firstn_length. lia.
          - rewrite skipn_length in Hj. exists (S i + j)%nat. split; [lia|]. split; [lia|]. rewrite <- (firstn_skipn (S i) p) at 2. rewrite app_nth2; rewrite firstn_length, Nat.min_l by lia; [|lia]. f_equal. lia. }
        destruct G as (j & Hj & Hn & ->). auto.
    + apply forallb_forall. intros v Hv. apply (In_nth _ _ 0) in Hv as (j & Hj & <-). rnum. rewrite andb_true_iff, !Rleb_true. apply HC. lia.
Qed.

(** ** np.unique *)
Lemma lexCompare_eq : forall p q, @lexCompare R R_num p q = Eq -> p = q.
Proof.
  induction p as [|a p IH]; intros [|b q]; cbn; try discriminate; auto. destruct (Rltb a b) eqn:E1; [discriminate|]. destruct (Rltb b a) eqn:E2; [discriminate|].
  apply Rltb_false in E1, E2. intros H. rewrite (IH q H). f_equal. lra.
Qed.
Lemma insertRow_in p l q : In q (@insertRow R R_num p l) <-> q = p \/ In q l.
Proof.
  induction l as [|r l IH]; cbn [insertRow].
  - cbn. intuition.
  - destruct (lexCompare p r) eqn:E; cbn [In]; [|intuition|rewrite IH; intuition].
    apply lexCompare_eq in E. subst. intuition.
Qed.
Lemma uniqueRows_in l q : In q (@uniqueRows R R_num l) <-> In q l.
Proof. induction l as [|p l IH]; cbn; [tauto|]. rewrite insertRow_in. fold (@uniqueRows R R_num l). rewrite IH. intuition. Qed.

(** ** minima and maxima of rows *)
Lemma minOf_le (f : nat -> R) k : (0 < k)%nat -> (forall c, (c < k)%nat -> @minOf R R_num f k <= f c) /\ exists c, (c < k)%nat /\ @minOf R R_num f k = f c.
Proof.
  intros Hk. destruct k as [|m]; [lia|]. unfold minOf. replace (S m - 1)%nat with m by lia. clear Hk. induction m as [|m [I1 (c & Hc & Ec)]].
  - cbn [seq fold_left]. split; [intros c Hc; replace c with 0%nat by lia; lra|exists 0%nat; split; [lia|auto]].
  - rewrite seq_S, fold_left_app. cbn [fold_left Nat.add]. set (v := fold_left _ (seq 1 m) _) in *. rewrite nmin_R. split.
    + intros c' Hc'. destruct (Nat.eq_dec c' (S m)); [subst; apply Rmin_r|]. eapply Rle_trans; [apply Rmin_l|apply I1; lia].
    + destruct (Rle_dec v (f (S m))); [rewrite Rmin_left by lra; exists c; split; [lia|auto]|rewrite Rmin_right by lra; exists (S m); split; [lia|auto]].
Qed.
Lemma maxOf_ge (f : nat -> R) k : (0 < k)%nat -> (forall c, (c < k)%nat -> f c <= @maxOf R R_num f k) /\ exists c, (c < k)%nat /\ @maxOf R R_num f k = f c.
Proof.
  intros Hk. destruct k as [|m]; [lia|]. unfold maxOf. replace (S m - 1)%nat with m by lia. clear Hk. induction m as [|m [I1 (c & Hc & Ec)]].
  - cbn [seq fold_left]. split; [intros c Hc; replace c with 0%nat by lia; lra|exists 0%nat; split; [lia|auto]].
  - rewrite seq_S, fold_left_app. cbn [fold_left Nat.add]. set (v := fold_left _ (seq 1 m) _) in *. rewrite nmax_R. split.
    + intros c' Hc'. destruct (Nat.eq_dec c' (S m)); [subst; apply Rmax_r|]. eapply Rle_trans; [apply I1; lia|apply Rmax_l].
    + destruct (Rle_dec (f (S m)) v); [rewrite Rmax_left by lra; exists c; split; [lia|auto]|rewrite Rmax_right by lra; exists (S m); split; [lia|auto]].
Qed.

(** ** The pivoted QR factorisation of vectors in a plane *)
Section QR.
  Variables (n k : nat) (Q U : nat -> nat -> R) (a : nat -> nat -> R) (p : nat -> nat) (c : nat -> R).
  (** a j v: coordinate j of vector v; p: the order the factorisation puts the vectors in *)
  Hypothesis Hn : (0 < n)%nat.
  Hypothesis Qc : forall r s, (r < n)%nat -> (s < n)%nat -> sumn n (fun j => Q j r * Q j s) = if Nat.eqb r s then 1 else 0.
  Hypothesis Qr : forall i j, (i < n)%nat -> (j < n)%nat -> sumn n (fun r => Q i r * Q j r) = if Nat.eqb i j then 1 else 0.
  Hypothesis Hp : forall t, (t < k)%nat -> (p t < k)%nat.
  Hypothesis Hps : forall v, (v < k)%nat -> exists t, (t < k)%nat /\ p t = v.
  Hypothesis HA : forall j t, (j < n)%nat -> (t < k)%nat -> sumn n (fun r => Q j r * U r t) = a j (p t).
  Hypothesis HU : forall i t, (t < i)%nat -> (i < n)%nat -> (t < k)%nat -> U i t = 0.
  Hypothesis HP : forall s i t, (s <= i)%nat -> (s <= t)%nat -> (i < n)%nat -> (t < k)%nat -> Rabs (U i t) <= Rabs (U s s).
  Hypothesis Hpl : forall v, (v < k)%nat -> sumn n (fun j => c j * a j v) = 0.
  Hypothesis Hc : exists i, (i < n)%nat /\ c i <> 0.
  Let w (r : nat) : R := sumn n (fun j => c j * Q j r).

  Lemma coords j t : (j < n)%nat -> (t < k)%nat -> sumn n (fun i => Q i j * a i (p t)) = U j t.
  Proof.
    intros Hj Ht. rewrite (sumn_ext n _ (fun i => sumn n (fun r => Q i j * (Q i r * U r t)))).
    - rewrite sumn_swap. rewrite (sumn_ext n _ (fun r => (if Nat.eqb j r then 1 else 0) * U r t)).
      + rewrite (sumn_single n j); auto; [rewrite Nat.eqb_refl; ring|]. intros i _ Hi. destruct (Nat.eqb_spec j i); [congruence|ring].
      + intros r Hr. rewrite <- (Qc j r Hj Hr), <- sumn_scal_r. apply sumn_ext. intros. ring.
    - intros i Hi. rewrite sumn_scal, HA; auto.
  Qed.
  Lemma wU t : (t < k)%nat -> sumn n (fun r => w r * U r t) = 0.
  Proof.
    intros Ht. rewrite <- (Hpl (p t) (Hp t Ht)). unfold w.
    rewrite (sumn_ext n _ (fun r => sumn n (fun j => c j * (Q j r * U r t)))).
    - rewrite sumn_swap. apply sumn_ext. intros j Hj. rewrite sumn_scal, HA; auto.
    - intros r _. rewrite <- sumn_scal_r. apply sumn_ext. intros. ring.
  Qed.
  Lemma w_zero r t : (r < n)%nat -> (t < k)%nat -> U r t <> 0 -> w r = 0.
  Proof.
    intros Hr Ht HUr. assert (Hrt : (r <= t)%nat) by (destruct (le_lt_dec r t); auto; exfalso; apply HUr, HU; auto).
    assert (D : forall s, (s <= r)%nat -> U s s <> 0).
    { intros s Hs E. pose proof (HP s r t Hs ltac:(lia) Hr Ht) as H. rewrite E, Rabs_R0 in H. pose proof (Rabs_pos_lt _ HUr). lra. }
    assert (G : forall s, (s <= r)%nat -> w s = 0).
    { intros s. induction s as [s IH] using lt_wf_ind. intros Hs. pose proof (wU s ltac:(lia)) as E.
      rewrite (sumn_single n s) in E; [| lia |].
      - apply Rmult_integral in E as [E|E]; auto. exfalso. apply (D s); auto.
      - intros i Hi Hne. destruct (lt_dec i s); [rewrite (IH i) by lia; ring|]. rewrite (HU i s) by lia. ring. }
    apply G. auto.
  Qed.
  Lemma last_row t : (t < k)%nat -> U (n - 1) t = 0.
  Proof.
    intros Ht. destruct (Req_dec (U (n - 1) t) 0) as [E|E]; auto. exfalso.
    assert (Hrt : (n - 1 <= t)%nat) by (destruct (le_lt_dec (n - 1) t); auto; exfalso; apply E, HU; auto; lia).
    assert (D : forall s, (s < n)%nat -> w s = 0).
    { intros s Hs. apply (w_zero s s); auto; [lia|]. intros Z. pose proof (HP s (n - 1) t ltac:(lia) ltac:(lia) ltac:(lia) Ht) as H. rewrite Z, Rabs_R0 in H. pose proof (Rabs_pos_lt _ E). lra. }
    destruct Hc as (i & Hi & Hci). apply Hci.
    assert (E' : c i = sumn n (fun r => w r * Q i r)).
    { unfold w. rewrite (sumn_ext n _ (fun r => sumn n (fun j => c j * (Q j r * Q i r)))).
      - rewrite sumn_swap. rewrite (sumn_ext n _ (fun j => c j * (if Nat.eqb j i then 1 else 0))).
        + rewrite (sumn_single n i); auto; [rewrite Nat.eqb_refl; ring|]. intros j _ Hj. destruct (Nat.eqb_spec j i); [congruence|ring].
        + intros j Hj. rewrite sumn_scal, Qr; auto.
      - intros r _. rewrite <- sumn_scal_r. apply sumn_ext. intros. ring. }
    rewrite E'. apply sumn_zero. intros r Hr. rewrite D; auto. ring.
  Qed.
  Lemma expand x j : (j < n)%nat -> x j = sumn n (fun r => Q j r * sumn n (fun i => Q i r * x i)).
  Proof.
    intros Hj. rewrite (sumn_ext n _ (fun r => sumn n (fun i => x i * (Q j r * Q i r)))).
    - rewrite sumn_swap. rewrite (sumn_ext n _ (fun i => x i * (if Nat.eqb j i then 1 else 0))).
      + rewrite (sumn_single n j); auto; [rewrite Nat.eqb_refl; ring|]. intros i _ Hi. destruct (Nat.eqb_spec j i); [congruence|ring].
      + intros i Hi. rewrite sumn_scal, Qr; auto.
    - intros r _. rewrite <- sumn_scal. apply sumn_ext. intros. ring.
  Qed.
End QR.
