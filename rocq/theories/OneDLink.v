(** * multCheb, divCheb and solve *)
From Coq Require Import List Arith Bool Reals Lia Lra Classical.
From Coquelicot Require Import Complex.
From Verif Require Import Num OneDSpec OneDModel OneDProofs OneDCheb.
Import ListNotations.
Local Open Scope R_scope.

(** ** matrix entries *)
Lemma colleague_entry (coeff : list R) n i j : length coeff = S n -> (2 <= n)%nat -> (i < n)%nat -> (j < n)%nat ->
  colleague coeff i j = (if Nat.eqb i (j + 1) then (if Nat.eqb j 0 then 1 else / 2) else 0) + (if Nat.eqb j (i + 1) then / 2 else 0)
    - (if Nat.eqb j (n - 1) then / 2 * nth i coeff 0 / nth n coeff 0 else 0).
Proof.
  intros Hl Hn Hi Hj. unfold colleague. rewrite Hl. replace (S n - 1)%nat with n by lia.
  rewrite slice_super, slice_sub1 by lia. rewrite nlit_R.
  change (@n0 R R_num) with 0. change (@n1 R R_num) with 1. change (@nmul R R_num) with Rmult. change (@nsub R R_num) with Rminus. change (@ndiv R R_num) with Rdiv.
  destruct (Nat.eqb_spec j (n - 1)) as [E|E]; destruct (Nat.eqb_spec i (j + 1)), (Nat.eqb_spec j (i + 1)), (Nat.eqb_spec i 1), (Nat.eqb_spec j 0), (Nat.leb_spec 1 j); try lia; cbn [andb]; lra.
Qed.

Lemma setNth_length {T} {NT : Num T} (l : list T) i v : length (setNth l i v) = length l.
Proof. revert i. induction l; intros [|i]; simpl; auto. Qed.
Lemma nth_setNth (l : list R) i v k d : (i < length l)%nat -> nth k (setNth l i v) d = if Nat.eqb k i then v else nth k l d.
Proof.
  revert i k. induction l as [|a l IH]; intros i k Hi; simpl in Hi; [lia|].
  destruct i as [|i], k as [|k]; simpl; auto. apply IH. lia.
Qed.
Lemma xinvLoop_spec m : forall (curr xinv : list R), (m + 1 < length curr)%nat -> (m < length xinv)%nat ->
  forall curr' xinv', xinvLoop (rev (seq 1 m)) curr xinv = (curr', xinv') ->
  (forall k, (m <= k)%nat -> nth k curr' 0 = nth k curr 0) /\
  (forall k, (k < m)%nat -> nth k curr' 0 = nth k curr 0 - nth (k + 2) curr' 0) /\
  length xinv' = length xinv /\
  (forall i, nth i xinv' 0 = if Nat.leb 1 i && Nat.leb i m then nth i xinv 0 - 2 * nth (i + 1) curr' 0 else nth i xinv 0).
Proof.
  induction m; intros curr xinv Hc Hx curr' xinv' H.
  - simpl in H. injection H as <- <-. repeat split; auto; try lia. intros [|i]; reflexivity.
  - rewrite seq_S, rev_app_distr in H. simpl in H.
    replace (m - 0)%nat with m in H by lia. replace (m + 1)%nat with (S m) in H by lia.
    apply IHm in H; rewrite ?setNth_length; try lia. destruct H as [H1 [H2 [H3 H4]]].
    assert (E : forall k, (m < k)%nat -> nth k curr' 0 = nth k curr 0).
    { intros k Hk. rewrite H1, nth_setNth by lia. destruct (Nat.eqb_spec k m); [lia|auto]. }
    split; [|split; [|split]].
    + intros k Hk. apply E. lia.
    + intros k Hk. destruct (Nat.eq_dec k m) as [->|Hne].
      * rewrite H1, nth_setNth, Nat.eqb_refl by lia. rewrite (E (m + 2)%nat) by lia. replace (m + 2)%nat with (S (S m)) by lia. rnum. lra.
      * rewrite H2 by lia. rewrite nth_setNth by lia. destruct (Nat.eqb_spec k m); [lia|auto].
    + now rewrite H3, setNth_length.
    + intros i. rewrite H4, nth_setNth by lia. destruct (Nat.eqb_spec i (S m)) as [->|Hne].
      * replace (Nat.leb (S m) m) with false by (symmetry; apply Nat.leb_gt; lia). rewrite andb_false_r.
        replace (Nat.leb (S m) (S m)) with true by (symmetry; apply Nat.leb_le; lia). cbn [andb Nat.leb].
        rewrite (E (S m + 1)%nat) by lia. replace (S m + 1)%nat with (S (S m)) by lia. rnum. rewrite ?n2_R; lra.
      * replace (Nat.leb i (S m)) with (Nat.leb i m) by (destruct (Nat.leb_spec i m), (Nat.leb_spec i (S m)); auto; lia). reflexivity.
Qed.
Lemma nth_repeat0 n i : nth i (repeat 0 n) 0 = 0.
Proof. revert i. induction n; intros [|i]; simpl; auto. Qed.
(** the coefficients of -(p(x) - p(0)) / x, through s_k = c_k - s_{k+2} *)
Lemma getXinv_spec (coeff : list R) n : length coeff = S n -> (2 <= n)%nat ->
  exists s xinv, getXinv coeff = Some (xinv, s 0%nat) /\
    s n = nth n coeff 0 /\ s (n - 1)%nat = nth (n - 1) coeff 0 /\ (forall k, (n < k)%nat -> s k = 0) /\
    (forall k, (k < n - 1)%nat -> s k = nth k coeff 0 - s (k + 2)%nat) /\
    nth 0 xinv 0 = - s 1%nat /\ (forall i, (1 <= i)%nat -> (i < n)%nat -> nth i xinv 0 = - 2 * s (i + 1)%nat).
Proof.
  intros Hl Hn. unfold getXinv. rewrite Hl. replace (S n - 1)%nat with n by lia.
  replace (Nat.leb (S n) 1) with false by (symmetry; apply Nat.leb_gt; lia).
  destruct (xinvLoop (rev (seq 1 (n - 1))) coeff (repeat (@n0 R R_num) n)) as [curr xinv] eqn:E.
  apply xinvLoop_spec in E; [|lia|rewrite repeat_length; lia]. destruct E as [H1 [H2 [H3 H4]]].
  rewrite repeat_length in H3. change (@n0 R R_num) with 0 in *.
  exists (fun k => nth k curr 0), (setNth xinv 0 (nth 0 xinv n0 + - nth 1 curr n0)%num).
  assert (Hx0 : nth 0 xinv 0 = 0) by (rewrite H4; cbn [Nat.leb andb]; apply nth_repeat0).
  repeat split.
  - now rewrite H1 by lia.
  - now rewrite H1 by lia.
  - intros k Hk. rewrite H1 by lia. apply nth_overflow. lia.
  - intros k Hk. now apply H2.
  - rewrite nth_setNth, Nat.eqb_refl by lia. change (@n0 R R_num) with 0. rewrite Hx0. rnum. lra.
  - intros i Hi Hi2. rewrite nth_setNth by lia. destruct (Nat.eqb_spec i 0); [lia|].
    rewrite H4, nth_repeat0. replace (Nat.leb 1 i && Nat.leb i (n - 1)) with true; [lra|].
    symmetry. apply andb_true_iff. rewrite !Nat.leb_le. lia.
Qed.

Lemma fold_unique (P : nat -> bool) (f : nat -> R) m0 : forall l e, 
  (forall m, In m l -> P m = true -> m = m0) ->
  (In m0 l -> P m0 = true -> fold_left (fun e m => if P m then f m else e) l e = f m0) /\
  (e = f m0 -> P m0 = true -> fold_left (fun e m => if P m then f m else e) l e = f m0) /\
  (~ In m0 l \/ P m0 = false -> fold_left (fun e m => if P m then f m else e) l e = e).
Proof.
  induction l as [|a l IH]; intros e H; simpl.
  - repeat split; auto. tauto.
  - assert (Hl : forall m, In m l -> P m = true -> m = m0) by (intros; apply H; simpl; auto).
    repeat split.
    + intros [->|Hin] Hp.
      * rewrite Hp. destruct (IH (f m0) Hl) as [_ [B _]]. auto.
      * destruct (IH (if P a then f a else e) Hl) as [A _]. auto.
    + intros He Hp. destruct (P a) eqn:Ea.
      * rewrite (H a (or_introl eq_refl) Ea). destruct (IH (f m0) Hl) as [_ [B _]]. auto.
      * destruct (IH e Hl) as [_ [B _]]. auto.
    + intros Hno. destruct (P a) eqn:Ea.
      * assert (a = m0) by (apply H; simpl; auto). subst. destruct Hno as [Hno|Hno]; [tauto|congruence].
      * apply IH; auto. tauto.
Qed.
Lemma oddDiagonals_eq n i j : (i < n)%nat -> (j < n)%nat ->
  oddDiagonals n i j = (if Nat.odd (j - i) then 2 * alternating ((j - i) / 2) else 0).
Proof.
  intros Hi Hj. unfold oddDiagonals.
  set (P := fun m => Nat.ltb (2 * m + 1) n && inSlice (2 * m + 1) ((n - (2 * m + 1)) * n) (n + 1) (i * n + j)).
  assert (HP : forall m, P m = true <-> (j = i + (2 * m + 1))%nat).
  { intros m. unfold P. rewrite andb_true_iff, Nat.ltb_lt. split.
    - intros [H1 H2]. rewrite slice_diag in H2 by lia. now apply Nat.eqb_eq.
    - intros H. split; [lia|]. rewrite slice_diag by lia. now apply Nat.eqb_eq. }
  change (fold_left (fun e m => if P m then (n2 * alternating m)%num else e) (seq 0 n) n0 = if Nat.odd (j - i) then 2 * alternating ((j - i) / 2) else 0).
  set (m0 := ((j - i) / 2)%nat).
  assert (Hd : (j - i = 2 * m0 + Nat.b2n (Nat.odd (j - i)))%nat) by (unfold m0; rewrite <- Nat.div2_div; apply Nat.div2_odd).
  destruct (fold_unique P (fun m => (n2 * alternating m)%num) m0 (seq 0 n) n0) as [Ha [_ Hc]].
  { intros m _ Hm. apply HP in Hm. unfold m0. replace (j - i)%nat with (1 + m * 2)%nat by lia. rewrite Nat.div_add by lia. reflexivity. }
  destruct (Nat.odd (j - i)) eqn:Eo; simpl in Hd.
  - rewrite Ha; [change (n2 * @alternating R R_num m0 = 2 * alternating m0); now rewrite n2_R| |].
    + apply in_seq. lia.
    + apply HP. lia.
  - rewrite Hc; [reflexivity|]. right. destruct (P m0) eqn:E; auto. apply HP in E. lia.
Qed.
Lemma alternating_S m : @alternating R R_num (S m) = - alternating m.
Proof. unfold alternating. rewrite Nat.even_succ, <- Nat.negb_even. destruct (Nat.even m); simpl; rnum; lra. Qed.
Lemma half_SS j : (S (S j) / 2 = S (j / 2))%nat.
Proof. replace (S (S j)) with (j + 1 * 2)%nat by lia. rewrite Nat.div_add by lia. lia. Qed.

(** the division matrix: columns 1 and j + 2 *)
Lemma divColleague_1 (coeff xinv : list R) n d i : length coeff = S n -> (2 <= n)%nat -> (i < n)%nat ->
  divColleague coeff xinv d i 1 = if Nat.eqb i 0 then (if Rltb 1 (Rabs d) then 1 else d) else 0.
Proof.
  intros Hl Hn Hi. unfold divColleague. rewrite Hl. replace (S n - 1)%nat with n by lia. cbn [Nat.even].
  rewrite oddDiagonals_eq by lia. unfold ngtb. rnum. rewrite ?n2_R.
  destruct i as [|i].
  - simpl. unfold alternating. simpl. destruct (Rltb 1 (Rabs d)); rnum; lra.
  - replace (1 - S i)%nat with 0%nat by lia. simpl. destruct (Rltb 1 (Rabs d)); lra.
Qed.
Lemma divColleague_rec (coeff xinv : list R) n d i j : length coeff = S n -> (i < n)%nat -> (S (S j) < n)%nat ->
  divColleague coeff xinv d i (S (S j)) + divColleague coeff xinv d i j = if Nat.eqb i (S j) then 2 * (if Rltb 1 (Rabs d) then 1 else d) else 0.
Proof.
  intros Hl Hi Hj. unfold divColleague. rewrite Hl. replace (S n - 1)%nat with n by lia. cbn [Nat.even].
  rewrite half_SS, alternating_S. rewrite !oddDiagonals_eq by lia. unfold ngtb. rnum. rewrite ?n2_R.
  destruct (Nat.eqb_spec i (S j)) as [->|Hne].
  - replace (S (S j) - S j)%nat with 1%nat by lia. replace (j - S j)%nat with 0%nat by lia. cbn [Nat.eqb Nat.odd Nat.even negb]. 
    change (1 / 2)%nat with 0%nat. unfold alternating. cbn [Nat.even]. rnum.
    destruct (Nat.even j), (Rltb 1 (Rabs d)); lra.
  - destruct (le_lt_dec i j) as [Hij|Hij].
    + replace (S (S j) - i)%nat with (S (S (j - i))) by lia. rewrite half_SS, alternating_S.
      replace (Nat.odd (S (S (j - i)))) with (Nat.odd (j - i)) by reflexivity.
      destruct (Nat.odd (j - i)), (Nat.eqb i 0), (Nat.even j), (Rltb 1 (Rabs d)); lra.
    + replace (S (S j) - i)%nat with 0%nat by lia. replace (j - i)%nat with 0%nat by lia. cbn [Nat.odd Nat.even negb].
      destruct (Nat.eqb i 0), (Nat.even j), (Rltb 1 (Rabs d)); lra.
Qed.
Lemma divColleague_0 (coeff xinv : list R) n d i : length coeff = S n -> (2 <= n)%nat -> (i < n)%nat ->
  divColleague coeff xinv d i 0 = if Rltb 1 (Rabs d) then nth i xinv 0 / d else nth i xinv 0.
Proof.
  intros Hl Hn Hi. unfold divColleague. rewrite Hl. replace (S n - 1)%nat with n by lia. cbn [Nat.even].
  rewrite oddDiagonals_eq by lia. unfold ngtb. rnum. rewrite ?n2_R. replace (0 - i)%nat with 0%nat by lia. cbn [Nat.odd Nat.even negb].
  change (0 / 2)%nat with 0%nat. unfold alternating. cbn [Nat.even]. rnum. destruct (Nat.eqb i 0), (Rltb 1 (Rabs d)); lra.
Qed.

Local Open Scope C_scope.
(** ** rows of the colleague matrix *)
Section Rows.
  Variable n : nat.
  Hypothesis Hn : (2 <= n)%nat.
  Variable c : nat -> C.
  Hypothesis Hcn : c n <> 0.
  Variable X : cmat.
  Hypothesis HX : forall i j, (i < n)%nat -> (j < n)%nat ->
    X i j = (if Nat.eqb i (j + 1) then (if Nat.eqb j 0 then RtoC 1 else / 2) else 0) + (if Nat.eqb j (i + 1) then / 2 else 0)
            - (if Nat.eqb j (n - 1) then / 2 * c i / c n else 0).
  Lemma coll_app v i : (i < n)%nat ->
    app n X v i = (if Nat.eqb i 0 then RtoC 0 else if Nat.eqb i 1 then v 0%nat else / 2 * v (i - 1)%nat)
                  + (if Nat.ltb (i + 1) n then / 2 * v (i + 1)%nat else 0) - / 2 * c i / c n * v (n - 1)%nat.
  Proof.
    intros Hi. unfold app.
    rewrite (csum_ext n _ (fun j => ((if Nat.eqb i (j + 1) then (if Nat.eqb j 0 then RtoC 1 else / 2) * v j else 0)
       + (if Nat.eqb j (i + 1) then / 2 * v j else 0)) + (if Nat.eqb j (n - 1) then - (/ 2 * c i / c n) * v j else 0))).
    2:{ intros j Hj. rewrite HX by auto. destruct (Nat.eqb i (j + 1)), (Nat.eqb j (i + 1)), (Nat.eqb j (n - 1)), (Nat.eqb j 0); ring. }
    rewrite !csum_plus.
    rewrite (csum_one n (fun j => if Nat.eqb j (n - 1) then _ else _) (n - 1)) by (try lia; intros j _ Hj; destruct (Nat.eqb_spec j (n - 1)); try lia; auto).
    rewrite Nat.eqb_refl.
    assert (E1 : csum n (fun j => if Nat.eqb j (i + 1) then / 2 * v j else 0) = if Nat.ltb (i + 1) n then / 2 * v (i + 1)%nat else 0).
    { destruct (Nat.ltb_spec (i + 1) n).
      - rewrite (csum_one n _ (i + 1)) by (try lia; intros j _ Hj; destruct (Nat.eqb_spec j (i + 1)); try lia; auto). now rewrite Nat.eqb_refl.
      - apply csum_zero. intros j Hj. destruct (Nat.eqb_spec j (i + 1)); [lia|auto]. }
    assert (E2 : csum n (fun j => if Nat.eqb i (j + 1) then (if Nat.eqb j 0 then RtoC 1 else / 2) * v j else 0)
                 = if Nat.eqb i 0 then RtoC 0 else if Nat.eqb i 1 then v 0%nat else / 2 * v (i - 1)%nat).
    { destruct (Nat.eqb_spec i 0).
      - apply csum_zero. intros j Hj. destruct (Nat.eqb_spec i (j + 1)); [lia|auto].
      - rewrite (csum_one n _ (i - 1)) by (try lia; intros j _ Hj; destruct (Nat.eqb_spec i (j + 1)); try lia; auto).
        replace (Nat.eqb i (i - 1 + 1)) with true by (symmetry; apply Nat.eqb_eq; lia).
        destruct (Nat.eqb_spec (i - 1) 0), (Nat.eqb_spec i 1); try lia; auto. subst. simpl. ring. }
    rewrite E1, E2. ring.
  Qed.
End Rows.

Lemma Cm2 : RtoC (- 2) = - RtoC 2.
Proof. now rewrite <- RtoC_opp. Qed.
Section Cheb.
  Variable coeff : list R.
  Variable n : nat.
  Hypothesis Hl : length coeff = S n.
  Hypothesis Hn : (2 <= n)%nat.
  Hypothesis Hlast : nth n coeff 0%R <> 0%R.
  Let c := lowFirst coeff.
  Lemma c_nz : c n <> 0.
  Proof. now apply RtoC_nz. Qed.
  Lemma HX i j : (i < n)%nat -> (j < n)%nat ->
    ofR (colleague coeff) i j = (if Nat.eqb i (j + 1) then (if Nat.eqb j 0 then RtoC 1 else / 2) else 0) + (if Nat.eqb j (i + 1) then / 2 else 0)
            - (if Nat.eqb j (n - 1) then / 2 * c i / c n else 0).
  Proof.
    intros Hi Hj. unfold ofR. rewrite (colleague_entry coeff n) by auto.
    rewrite RtoC_minus, RtoC_plus, !C_if, RtoC_div, RtoC_mult, RtoC_inv by (auto; lra). reflexivity.
  Qed.
  Lemma p_value x : p n c x = chebValue coeff x.
  Proof. unfold p, chebValue. now rewrite Hl. Qed.
  Lemma colleague_right z : (exists v, eigenpair n (colleague coeff) z v) <-> chebValue coeff z = 0.
  Proof. rewrite <- p_value. exact (coll_eigen n Hn c c_nz _ HX z). Qed.
  Lemma colleague_left z v : leftpair n (colleague coeff) z v ->
    cdiv (v 1%nat) (v 0%nat) = Some (Cconj z) /\ chebValue coeff z = 0.
  Proof.
    intros H. apply leftpair_left in H. destruct (coll_left n Hn c c_nz _ HX _ _ H) as [Hw [H1 Hz]].
    rewrite p_value in Hz. split; auto.
    assert (Hv : v 0%nat <> 0) by (intros E; apply Hw; now apply conj_0).
    rewrite cdiv_some by auto. f_equal.
    replace (v 1%nat) with (Cconj (Cconj (v 1%nat))) by apply conj_conj.
    rewrite H1, conj_mult, conj_conj. field. auto.
  Qed.

  Variables (xinv : list R) (s : nat -> R).
  Hypothesis Hsn : s n = nth n coeff 0%R.
  Hypothesis Hsn1 : s (n - 1)%nat = nth (n - 1) coeff 0%R.
  Hypothesis Hsk : forall k, (k < n - 1)%nat -> s k = (nth k coeff 0 - s (k + 2)%nat)%R.
  Hypothesis Hx0 : nth 0 xinv 0%R = (- s 1%nat)%R.
  Hypothesis Hxi : forall i, (1 <= i)%nat -> (i < n)%nat -> nth i xinv 0%R = (- 2 * s (i + 1)%nat)%R.
  Lemma X_xinv i : (i < n)%nat -> app n (ofR (colleague coeff)) (fun k => RtoC (nth k xinv 0%R)) i = if Nat.eqb i 0 then RtoC (s 0%nat) else 0.
  Proof.
    intros Hi. rewrite (coll_app n Hn c _ HX) by auto. unfold c, lowFirst.
    assert (E : / 2 * RtoC (nth i coeff 0%R) / RtoC (nth n coeff 0%R) * RtoC (nth (n - 1) xinv 0%R) = - RtoC (nth i coeff 0%R)).
    { rewrite Hxi by lia. replace (n - 1 + 1)%nat with n by lia. rewrite Hsn, RtoC_mult, Cm2. field. split; apply RtoC_nz; auto; lra. }
    rewrite E. clear E.
    assert (E : forall k, (1 <= k)%nat -> (k < n)%nat -> / 2 * RtoC (nth k xinv 0%R) = RtoC (- s (k + 1)%nat)).
    { intros k H1 H2. rewrite Hxi, RtoC_mult, Cm2, RtoC_opp by auto. field. apply C2_nz. }
    destruct (Nat.eqb_spec i 0) as [->|Hi0].
    - destruct (Nat.ltb_spec (0 + 1) n); [|lia]. rewrite E, (Hsk 0) by lia. simpl Nat.add. rewrite RtoC_minus, RtoC_opp. ring.
    - assert (El : (if Nat.eqb i 1 then RtoC (nth 0 xinv 0%R) else / 2 * RtoC (nth (i - 1) xinv 0%R)) = RtoC (- s i)).
      { destruct (Nat.eqb_spec i 1) as [->|Hi1]; [now rewrite Hx0|]. rewrite E by lia. now replace (i - 1 + 1)%nat with i by lia. }
      rewrite El. destruct (Nat.ltb_spec (i + 1) n).
      + rewrite E, (Hsk i) by lia. replace (i + 1 + 1)%nat with (i + 2)%nat by lia. rewrite !RtoC_opp, RtoC_minus. ring.
      + replace i with (n - 1)%nat by lia. rewrite Hsn1, RtoC_opp. ring.
  Qed.
  Lemma divisor_value : RtoC (s 0%nat) = chebValue coeff 0.
  Proof.
    rewrite <- p_value.
    assert (E : csum n (fun i => chebT 0 i * app n (ofR (colleague coeff)) (fun k => RtoC (nth k xinv 0%R)) i) = RtoC (s 0%nat)).
    { rewrite (csum_one n _ 0) by (try lia; intros i Hi H; rewrite X_xinv by auto; apply Nat.eqb_neq in H; rewrite H; ring).
      rewrite X_xinv by lia. unfold chebT. simpl. ring. }
    rewrite <- E, csum_app_coapp.
    rewrite (csum_one n _ (n - 1)); [| lia |].
    - rewrite (cheb_coapp n Hn c c_nz _ HX), Nat.eqb_refl by lia. rewrite Hxi by lia. replace (n - 1 + 1)%nat with n by lia.
      rewrite Hsn, RtoC_mult, Cm2. fold (lowFirst coeff n). fold c. field. split; auto using c_nz, C2_nz.
    - intros i Hi Hne. rewrite (cheb_coapp n Hn c c_nz _ HX) by auto. apply Nat.eqb_neq in Hne. rewrite Hne. ring.
  Qed.

  Hypothesis Hp0 : chebValue coeff 0 <> 0.
  Let d := s 0%nat.
  Let sc : R := if Rltb 1 (Rabs d) then 1%R else d.
  Let D := ofR (divColleague coeff xinv d).
  Lemma d_nz : d <> 0%R.
  Proof. intros E. apply Hp0. rewrite <- divisor_value. unfold d in E. now rewrite E. Qed.
  Lemma sc_nz : RtoC sc <> 0.
  Proof. apply RtoC_nz. unfold sc. destruct (Rltb 1 (Rabs d)); [lra|apply d_nz]. Qed.
  Lemma D0 i : (i < n)%nat -> app n (ofR (colleague coeff)) (fun k => D k 0%nat) i = if Nat.eqb i 0 then RtoC sc else 0.
  Proof.
    intros Hi. unfold app.
    rewrite (csum_ext n _ (fun k => (if Rltb 1 (Rabs d) then / RtoC d else 1) * (ofR (colleague coeff) i k * RtoC (nth k xinv 0%R)))).
    - rewrite csum_scal. pose proof (X_xinv i Hi) as E. unfold app in E. rewrite E. fold d. unfold sc.
      destruct (Rltb 1 (Rabs d)), (Nat.eqb i 0); try ring. apply Cinv_l, RtoC_nz, d_nz.
    - intros k Hk. unfold D, ofR at 2. rewrite (divColleague_0 coeff xinv n) by auto.
      destruct (Rltb 1 (Rabs d)); [rewrite RtoC_div by apply d_nz; unfold Cdiv; ring|ring].
  Qed.
  Lemma D1 i : (i < n)%nat -> D i 1%nat = if Nat.eqb i 0 then RtoC sc else 0.
  Proof. intros Hi. unfold D, ofR. rewrite (divColleague_1 coeff xinv n) by auto. now rewrite C_if. Qed.
  Lemma D2 i j : (i < n)%nat -> (S (S j) < n)%nat -> D i (S (S j)) + D i j = if Nat.eqb i (S j) then 2 * RtoC sc else 0.
  Proof.
    intros Hi Hj. unfold D, ofR. rewrite <- RtoC_plus, (divColleague_rec coeff xinv n) by auto. rewrite C_if. fold sc. now rewrite RtoC_mult.
  Qed.
  Lemma pn0 : p n c 0 <> 0.
  Proof. now rewrite p_value. Qed.
  Lemma div_right m : (exists v, eigenpair n (divColleague coeff xinv d) m v) <-> m <> 0 /\ chebValue coeff (RtoC sc / m) = 0.
  Proof. rewrite <- p_value. exact (inv_eigen n Hn c c_nz _ HX D (RtoC sc) sc_nz D0 D1 D2 pn0 m). Qed.
  Lemma div_left m v : leftpair n (divColleague coeff xinv d) m v ->
    m <> 0 /\ option_map Cconj (cdiv (v 1%nat) (v 0%nat)) = Some (RtoC sc / m) /\ chebValue coeff (RtoC sc / m) = 0.
  Proof.
    intros H. apply leftpair_left in H. apply (inv_left n Hn c c_nz _ HX D (RtoC sc) sc_nz D0 D1 D2 pn0) in H.
    destruct H as [Hm H]. split; auto.
    destruct (coll_left n Hn c c_nz _ HX _ _ H) as [Hw [H1 Hz]]. rewrite p_value in Hz. split; auto.
    assert (Hv : v 0%nat <> 0) by (intros E; apply Hw; now apply conj_0).
    rewrite cdiv_some by auto. simpl. f_equal. rewrite conj_div by auto. rewrite H1. field. auto.
  Qed.
End Cheb.

Lemma chebT_conj x k : chebT (Cconj x) k = Cconj (chebT x k).
Proof.
  assert (H : forall k, chebT (Cconj x) k = Cconj (chebT x k) /\ chebT (Cconj x) (S k) = Cconj (chebT x (S k))).
  { clear k. induction k as [|k [H1 H2]].
    - split; [symmetry; apply conj_R|reflexivity].
    - split; auto. rewrite !chebT_rec, H1, H2. unfold Cminus. rewrite conj_plus, conj_opp, !conj_mult, conj_R. reflexivity. }
  apply H.
Qed.
Lemma cheb_zero_conj coeff z : chebValue coeff z = 0 -> chebValue coeff (Cconj z) = 0.
Proof.
  intros H. apply conj_0 in H. rewrite <- H. unfold chebValue. rewrite conj_csum. apply csum_ext. intros i _.
  now rewrite conj_mult, conj_R, chebT_conj.
Qed.
Lemma cheb_power_linear c0 c1 z : chebValue [c0; c1] z = powerValue [c0; c1] z.
Proof. unfold chebValue, powerValue, chebT. simpl. ring. Qed.
Lemma cheb_power_const c z : chebValue [c] z = powerValue [c] z.
Proof. unfold chebValue, powerValue, chebT. simpl. ring. Qed.

Lemma multCheb_exact eigvals eigLeft coeff u :
  last coeff 0%R <> 0%R ->
  (forall n M, spectrum n M (eigvals n M)) -> (forall n M, leftSpectrum n M (eigLeft n M)) ->
  exists l, multCheb eigvals eigLeft Floats coeff u = Zeros l /\ exactly l (fun z => chebValue coeff z = 0).
Proof.
  intros Hlast He Hv. destruct coeff as [|c0 [|c1 [|c2 cs]]].
  - simpl in Hlast. lra.
  - exists []. split; [reflexivity|]. intros o. split; [intros []|]. intros [z [_ Hz]]. rewrite cheb_power_const in Hz. destruct (const_nonzero c0 z Hlast Hz).
  - eexists. split; [reflexivity|]. eapply exactly_ext; [|apply linear_exactly; exact Hlast]. intros z. now rewrite cheb_power_linear.
  - cbn [multCheb inFloats]. set (coeff := c0 :: c1 :: c2 :: cs) in *.
    assert (Hl : length coeff = S (length coeff - 1)) by (simpl; lia).
    assert (Hn : (2 <= length coeff - 1)%nat) by (simpl; lia).
    set (n := (length coeff - 1)%nat) in *.
    assert (Hc : nth n coeff 0%R <> 0%R) by (now rewrite (nth_last coeff n Hl)).
    rewrite divided_ok by auto. specialize (He n (colleague coeff)). specialize (Hv n (colleague coeff)).
    destruct u; eexists; (split; [reflexivity|]).
    + apply exactly_map_some. intros z. rewrite (He z). now apply colleague_right.
    + destruct Hv as [H1 H2]. intros o. rewrite in_map_iff. split.
      * intros [[z v] [<- Hin]]. cbn [snd]. apply H1 in Hin. destruct (colleague_left coeff n Hl Hn Hc z v Hin) as [-> Hz].
        exists (Cconj z). split; auto. now apply cheb_zero_conj.
      * intros [z [-> Hz]]. apply cheb_zero_conj in Hz. apply (colleague_right coeff n Hl Hn Hc) in Hz.
        destruct (H2 _ Hz) as [v Hin]. exists (Cconj z, v). split; auto. cbn [snd].
        destruct (colleague_left coeff n Hl Hn Hc _ v (H1 _ _ Hin)) as [-> _]. now rewrite conj_conj.
Qed.

Lemma divCheb_exact eigvals eigLeft coeff u :
  last coeff 0%R <> 0%R -> (2 <= length coeff)%nat -> chebValue coeff 0 <> 0 ->
  (forall n M, spectrum n M (eigvals n M)) -> (forall n M, leftSpectrum n M (eigLeft n M)) ->
  exists l, divCheb eigvals eigLeft Floats coeff u = Zeros l /\ exactly l (fun z => chebValue coeff z = 0).
Proof.
  intros Hlast Hlen Hp0 He Hv. destruct coeff as [|c0 [|c1 [|c2 cs]]].
  - simpl in Hlen. lia.
  - simpl in Hlen. lia.
  - eexists. split; [reflexivity|]. eapply exactly_ext; [|apply linear_exactly; exact Hlast]. intros z. now rewrite cheb_power_linear.
  - unfold divCheb. set (coeff := c0 :: c1 :: c2 :: cs) in *.
    assert (Hl : length coeff = S (length coeff - 1)) by (simpl; lia).
    assert (Hn : (2 <= length coeff - 1)%nat) by (simpl; lia).
    set (n := (length coeff - 1)%nat) in *.
    assert (Hc : nth n coeff 0%R <> 0%R) by (now rewrite (nth_last coeff n Hl)).
    destruct (getXinv_spec coeff n Hl Hn) as [s [xinv [Eg [Hsn [Hsn1 [_ [Hsk [Hx0 Hxi]]]]]]]].
    rewrite Eg. cbn [inFloats]. set (d := s 0%nat).
    set (sc := if Rltb 1 (Rabs d) then 1%R else d).
    pose proof (div_right coeff n Hl Hn Hc xinv s Hsn Hsn1 Hsk Hx0 Hxi Hp0) as Hr.
    pose proof (div_left coeff n Hl Hn Hc xinv s Hsn Hsn1 Hsk Hx0 Hxi Hp0) as Hlf.
    pose proof (sc_nz coeff n Hl Hn Hc xinv s Hsn Hsn1 Hsk Hx0 Hxi Hp0) as Hsc.
    fold d in Hr, Hlf, Hsc. fold sc in Hr, Hlf, Hsc.
    specialize (He n (divColleague coeff xinv d)). specialize (Hv n (divColleague coeff xinv d)).
    assert (Hx : forall z, chebValue coeff z = 0 -> z <> 0 /\ RtoC sc / (RtoC sc / z) = z /\ exists v, eigenpair n (divColleague coeff xinv d) (RtoC sc / z) v).
    { intros z Hz. assert (Hz0 : z <> 0) by (intros ->; tauto).
      assert (E : RtoC sc / (RtoC sc / z) = z) by (field; auto). split; auto. split; auto.
      apply Hr. rewrite E. split; auto. apply Cmult_neq_0; auto. now apply inv_nz. }
    destruct u.
    + assert (Hmain : forall l, l = map (fun m => cdiv (RtoC sc) m) (eigvals n (divColleague coeff xinv d)) -> exactly l (fun z => chebValue coeff z = 0)).
      { intros l ->. intros o. rewrite in_map_iff. split.
        - intros [m [<- Hm]]. apply He, Hr in Hm. destruct Hm as [Hm Hz]. rewrite cdiv_some by auto. eauto.
        - intros [z [-> Hz]]. destruct (Hx z Hz) as [Hz0 [E Hex]]. exists (RtoC sc / z). split; [|now apply He].
          rewrite cdiv_some; [now rewrite E|]. apply Cmult_neq_0; auto. now apply inv_nz. }
      change (ngtb (nabs d) 1%R) with (Rltb 1 (Rabs d)). unfold sc in Hmain. destruct (Rltb 1 (Rabs d)) eqn:Eb.
      * eexists. split; [reflexivity|]. now apply Hmain.
      * eexists. split; [reflexivity|]. apply Hmain. rewrite map_map. apply map_ext. intros m.
        unfold cdiv. destruct (Req_EM_T (fst m) 0), (Req_EM_T (snd m) 0); simpl; auto; f_equal; unfold Cdiv; ring.
    + eexists. split; [reflexivity|]. destruct Hv as [H1 H2]. intros o. rewrite in_map_iff. split.
      * intros [[m v] [<- Hin]]. cbn [snd]. apply H1 in Hin. destruct (Hlf m v Hin) as [_ [-> Hz]]. eauto.
      * intros [z [-> Hz]]. destruct (Hx z Hz) as [Hz0 [E Hex]]. destruct (H2 _ Hex) as [v Hin]. exists (RtoC sc / z, v). split; auto. cbn [snd].
        destruct (Hlf _ v (H1 _ _ Hin)) as [_ [-> _]]. now rewrite E.
Qed.

(** ** solve *)
Lemma trimFront_spec l : exists k, l = repeat 0%R k ++ trimFront l /\ (trimFront l = [] \/ hd 0%R (trimFront l) <> 0%R).
Proof.
  induction l as [|a l [k [E H]]]; simpl.
  - exists 0%nat. auto.
  - destruct (Req_EM_T a 0) as [->|Ha].
    + exists (S k). simpl. split; [now f_equal|auto].
    + exists 0%nat. simpl. auto.
Qed.
Lemma trimFront_id l : l = [] \/ hd 0%R l <> 0%R -> trimFront l = l.
Proof. destruct l as [|a l]; simpl; auto. intros [H|H]; [discriminate|]. destruct (Req_EM_T a 0); [lra|auto]. Qed.
Lemma last_snoc (l : list R) a : last (l ++ [a]) 0%R = a.
Proof. induction l as [|b l IH]; auto. simpl. destruct (l ++ [a]) eqn:E; [destruct l; discriminate|auto]. Qed.
Lemma hd_rev (l : list R) : hd 0%R (rev l) = last l 0%R.
Proof. destruct l as [|a l] using rev_ind; auto. rewrite rev_app_distr, last_snoc. reflexivity. Qed.
Lemma last_app_nz (a b : list R) : b <> [] -> last (a ++ b) 0%R = last b 0%R.
Proof. intros H. destruct b as [|x b] using rev_ind; [tauto|]. rewrite app_assoc. now rewrite !last_snoc. Qed.
Lemma trimZeros_spec l : last l 0%R <> 0%R ->
  exists k, l = repeat 0%R k ++ trimZeros l /\ nth 0 (trimZeros l) 0%R <> 0%R /\ last (trimZeros l) 0%R <> 0%R.
Proof.
  intros H. destruct (trimFront_spec l) as [k [E Hh]]. 
  assert (Hne : trimFront l <> []).
  { intros E0. rewrite E0, app_nil_r in E. rewrite E in H. apply H. destruct k; auto. clear.
    induction k; auto. }
  assert (Hlast : last (trimFront l) 0%R = last l 0%R) by (rewrite E at 2; now rewrite last_app_nz).
  unfold trimZeros. rewrite (trimFront_id (rev (trimFront l))) by (right; rewrite hd_rev; congruence).
  rewrite rev_involutive. exists k. split; auto. split; [|congruence].
  destruct Hh as [|Hh]; [tauto|]. destruct (trimFront l); auto.
Qed.
Lemma powerValue_cons a l z : powerValue (a :: l) z = RtoC a + z * powerValue l z.
Proof.
  unfold powerValue. simpl length. rewrite csum_first. rewrite <- csum_scal. f_equal; [simpl; ring|].
  apply csum_ext. intros i _. simpl. ring.
Qed.
Lemma powerValue_shift k l z : powerValue (repeat 0%R k ++ l) z = cpow z k * powerValue l z.
Proof.
  induction k; [simpl; ring|]. change (repeat 0%R (S k) ++ l) with (0%R :: (repeat 0%R k ++ l)).
  rewrite powerValue_cons, IHk. simpl. ring. Qed.
Lemma cpow_0 z k : cpow z k = 0 -> z = 0.
Proof. intros H. apply NNPP. intros E. exact (cpow_nz z k E H). Qed.
Lemma powerValue_at_0 l : powerValue l 0 = RtoC (nth 0 l 0%R).
Proof. destruct l as [|a l]; [reflexivity|]. rewrite powerValue_cons. simpl. ring. Qed.

Lemma solve_power_exact eigvals eigLeft coeff ms u :
  last coeff 0%R <> 0%R -> (ms = 0 \/ ms = -1)%Z ->
  (forall n M, spectrum n M (eigvals n M)) -> (forall n M, leftSpectrum n M (eigLeft n M)) ->
  exists l, solve1D eigvals eigLeft Power Floats coeff ms u = Other (Zeros l) /\ exactly l (fun z => powerValue coeff z = 0).
Proof.
  intros Hlast Hms He Hv. destruct (trimZeros_spec coeff Hlast) as [k [E [Hf Hl]]].
  assert (Hk : (length coeff - length (trimZeros coeff) = k)%nat).
  { rewrite E at 1. rewrite app_length, repeat_length. lia. }
  assert (Ev : forall z, powerValue coeff z = cpow z k * powerValue (trimZeros coeff) z) by (intros; rewrite E at 1; apply powerValue_shift).
  assert (Hall : forall l, exactly l (fun z => powerValue (trimZeros coeff) z = 0) -> exactly (repeat (Some (RtoC 0)) k ++ l) (fun z => powerValue coeff z = 0)).
  { intros l Hex o. rewrite in_app_iff, (Hex o). split.
    - intros [Hin|[z [-> Hz]]].
      + pose proof (repeat_spec _ _ _ Hin) as ->. exists 0. split; auto. rewrite Ev.
        destruct k; [destruct Hin|]. simpl. ring.
      + exists z. split; auto. rewrite Ev, Hz. ring.
    - intros [z [-> Hz]]. rewrite Ev in Hz. apply cmult_integral in Hz. destruct Hz as [Hz|Hz]; [|right; eauto].
      left. destruct k as [|k]; [simpl in Hz; destruct (C1_nz Hz)|]. apply cpow_0 in Hz. subst z. left. reflexivity. }
  unfold solve1D. rewrite Hk. destruct Hms as [->| ->]; cbn [Z.eqb orb negb].
  - destruct (multPower_exact eigvals eigLeft (trimZeros coeff) u Hl He Hv) as [l [-> Hex]]. eexists. split; [reflexivity|]. auto.
  - destruct (divPower_exact eigvals eigLeft (trimZeros coeff) u Hl Hf He Hv) as [l [-> Hex]]. eexists. split; [reflexivity|]. auto.
Qed.

(** ** exact eigenvalue routines exist *)
Lemma eigen_independent n (A : cmat) (zs : nat -> C) (vs : nat -> nat -> C) m :
  (forall i j, (i < m)%nat -> (j < m)%nat -> zs i = zs j -> i = j) ->
  (forall k, (k < m)%nat -> rightEigen n A (zs k) (vs k)) ->
  forall c, (forall i, (i < n)%nat -> csum m (fun k => c k * vs k i) = 0) -> forall k, (k < m)%nat -> c k = 0.
Proof.
  induction m; intros Hd He c Hc k Hk; [lia|].
  assert (Hlow : forall k, (k < m)%nat -> c k * (zs k - zs m) = 0).
  { apply (IHm ltac:(intros; apply Hd; auto; lia) ltac:(intros; apply He; lia) (fun k => c k * (zs k - zs m))).
    intros i Hi.
    assert (E : csum (S m) (fun k => zs k * (c k * vs k i)) = 0).
    { transitivity (app n A (fun i => csum (S m) (fun k => c k * vs k i)) i).
      - unfold app. rewrite (csum_ext n _ (fun j => csum (S m) (fun k => A i j * (c k * vs k j)))) by (intros; now rewrite csum_scal).
        rewrite csum_swap. apply csum_ext. intros q Hq. destruct (He q Hq) as [_ Hv]. specialize (Hv i Hi). unfold app in Hv.
        replace (zs q * (c q * vs q i)) with (c q * (zs q * vs q i)) by ring. rewrite <- Hv, <- csum_scal. apply csum_ext. intros; ring.
      - unfold app. apply csum_zero. intros j Hj. rewrite Hc by auto. ring. }
    pose proof (Hc i Hi) as E2. simpl csum in E, E2.
    rewrite (csum_ext m _ (fun q => zs q * (c q * vs q i) + (- zs m) * (c q * vs q i))) by (intros; ring).
    rewrite csum_plus, csum_scal.
    replace (csum m (fun q => zs q * (c q * vs q i)) + - zs m * csum m (fun q => c q * vs q i))
      with ((csum m (fun q => zs q * (c q * vs q i)) + zs m * (c m * vs m i)) + - zs m * (csum m (fun q => c q * vs q i) + c m * vs m i)) by ring.
    rewrite E, E2. ring. }
  assert (Hlow0 : forall k, (k < m)%nat -> c k = 0).
  { intros q Hq. specialize (Hlow q Hq). apply cmult_integral in Hlow. destruct Hlow as [|E]; auto. exfalso.
    assert (q = m); [|lia]. apply Hd; try lia. replace (zs q) with (zs q - zs m + zs m) by ring. rewrite E. ring. }
  destruct (Nat.eq_dec k m) as [->|]; [|apply Hlow0; lia].
  destruct (He m ltac:(lia)) as [[i [Hi Hv]] _]. specialize (Hc i Hi). simpl csum in Hc.
  rewrite csum_zero in Hc by (intros q Hq; rewrite Hlow0 by auto; ring).
  assert (E : c m * vs m i = 0) by (rewrite <- Hc; ring). apply cmult_integral in E. tauto.
Qed.
Lemma eigen_bound n A l : NoDup l -> (forall z, In z l -> exists v, rightEigen n A z v) -> (length l <= n)%nat.
Proof.
  intros Hnd Hl. destruct (le_lt_dec (length l) n) as [|Hlen]; auto. exfalso.
  assert (Hvs : exists vs : nat -> nat -> C, forall k, (k < length l)%nat -> rightEigen n A (nth k l 0) (vs k)).
  { clear Hnd Hlen. induction l as [|z l IH].
    - exists (fun _ _ => RtoC 0). intros k Hk. simpl in Hk. lia.
    - destruct IH as [vs Hvs]; [intros; apply Hl; simpl; auto|]. destruct (Hl z (or_introl eq_refl)) as [v Hv].
      exists (fun k => match k with O => v | S k' => vs k' end). intros [|k] Hk; simpl in *; auto. apply Hvs. lia. }
  destruct Hvs as [vs Hvs]. destruct (dependent n vs) as [c [[k [Hk Hck]] Hc]]. apply Hck.
  apply (eigen_independent n A (fun k => nth k l 0) vs (S n)); auto; try lia.
  - intros i j Hi Hj E. apply (NoDup_nth l 0) in E; auto; lia.
  - intros q Hq. apply Hvs. lia.
Qed.
Lemma finite_list (P : C -> Prop) N : (forall l, NoDup l -> (forall z, In z l -> P z) -> (length l <= N)%nat) ->
  exists l, forall z, In z l <-> P z.
Proof.
  intros HN.
  assert (H : forall k, (exists l, forall z, In z l <-> P z) \/ exists l, NoDup l /\ (forall z, In z l -> P z) /\ length l = k).
  { induction k as [|k [IH|[l [H1 [H2 H3]]]]]; auto.
    - right. exists []. split; [constructor|]. split; auto. intros z [].
    - destruct (classic (exists z, P z /\ ~ In z l)) as [[z [Hz Hni]]|Hno].
      + right. exists (z :: l). split; [now constructor|]. split; [|simpl; lia]. intros w [<-|Hw]; auto.
      + left. exists l. intros z. split; auto. intros Hz. apply NNPP. intros Hni. apply Hno. eauto. }
  destruct (H (S N)) as [|[l [H1 [H2 H3]]]]; auto. specialize (HN l H1 H2). lia.
Qed.
Lemma spectrum_exists n M : exists l, spectrum n M l.
Proof. apply (finite_list _ n). intros l Hnd Hl. exact (eigen_bound n (ofR M) l Hnd Hl). Qed.
Lemma leftSpectrum_exists n M : exists l, leftSpectrum n M l.
Proof.
  destruct (spectrum_exists n M) as [l Hl].
  assert (H : exists ps, (forall z v, In (z, v) ps -> leftpair n M z v) /\ (forall z, In z l -> exists v, In (z, v) ps)).
  { assert (Hz : forall z, In z l -> exists v, eigenpair n M z v) by (intros; now apply Hl). clear Hl.
    induction l as [|z l IH].
    - exists []. split; [intros ? ? []|intros ? []].
    - destruct IH as [ps [H1 H2]]; [intros; apply Hz; simpl; auto|]. destruct (Hz z (or_introl eq_refl)) as [v Hv].
      destruct (right_to_left _ _ _ _ Hv) as [w [[i [Hi Hwi]] Hw]].
      exists ((z, fun i => Cconj (w i)) :: ps). split.
      + intros z' v' [E|Hin]; auto. injection E as <- <-. split.
        * exists i. split; auto. intros E. apply Hwi. now apply conj_0.
        * intros j Hj. rewrite conj_conj. rewrite <- (Hw j Hj). unfold coapp. apply csum_ext. intros q _. now rewrite conj_conj.
      + intros z' [<-|Hin]; [eexists; left; reflexivity|]. destruct (H2 z' Hin) as [v' Hv']. exists v'. now right. }
  destruct H as [ps [H1 H2]]. exists ps. split; auto. intros z Hz. apply H2. now apply Hl.
Qed.

(** ** what goes wrong *)
Lemma solve_power_split eigvals eigLeft coeff ms u :
  last coeff 0%R <> 0%R -> (ms = 0 \/ ms = -1)%Z ->
  (forall n M, spectrum n M (eigvals n M)) -> (forall n M, leftSpectrum n M (eigLeft n M)) ->
  exists k q l, solve1D eigvals eigLeft Power Floats coeff ms u = Other (Zeros (repeat (Some (RtoC 0)) k ++ l)) /\ ~ In (Some (RtoC 0)) l /\
    (forall z, powerValue coeff z = cpow z k * powerValue q z) /\ powerValue q 0 <> 0.
Proof.
  intros Hlast Hms He Hv. destruct (trimZeros_spec coeff Hlast) as [k [E [Hf Hl]]].
  assert (Hk : (length coeff - length (trimZeros coeff) = k)%nat).
  { rewrite E at 1. rewrite app_length, repeat_length. lia. }
  assert (H0 : powerValue (trimZeros coeff) 0 <> 0) by (rewrite powerValue_at_0; now apply RtoC_nz).
  exists k, (trimZeros coeff).
  assert (Ev : forall z, powerValue coeff z = cpow z k * powerValue (trimZeros coeff) z) by (intros; rewrite E at 1; apply powerValue_shift).
  unfold solve1D. rewrite Hk. destruct Hms as [->| ->]; cbn [Z.eqb orb negb].
  - destruct (multPower_exact eigvals eigLeft (trimZeros coeff) u Hl He Hv) as [l [-> Hex]]. exists l. repeat split; auto.
    intros Hin. apply Hex in Hin. destruct Hin as [z [Ez Hz]]. injection Ez as <-. tauto.
  - destruct (divPower_exact eigvals eigLeft (trimZeros coeff) u Hl Hf He Hv) as [l [-> Hex]]. exists l. repeat split; auto.
    intros Hin. apply Hex in Hin. destruct Hin as [z [Ez Hz]]. injection Ez as <-. tauto.
Qed.
Lemma divCheb_zero_at_origin eigvals eigLeft coeff :
  last coeff 0%R <> 0%R -> (3 <= length coeff)%nat -> chebValue coeff 0 = 0 ->
  exists l, divCheb eigvals eigLeft Floats coeff true = Zeros l /\ forall o, In o l -> o = None \/ o = Some (RtoC 0).
Proof.
  intros Hlast Hlen Hp0.
  assert (Hl : length coeff = S (length coeff - 1)) by lia.
  assert (Hn : (2 <= length coeff - 1)%nat) by lia.
  set (n := (length coeff - 1)%nat) in *.
  assert (Hc : nth n coeff 0%R <> 0%R) by (now rewrite (nth_last coeff n Hl)).
  destruct (getXinv_spec coeff n Hl Hn) as [s [xinv [Eg [Hsn [Hsn1 [_ [Hsk [Hx0 Hxi]]]]]]]].
  pose proof (divisor_value coeff n Hl Hn Hc xinv s Hsn Hsn1 Hsk Hx0 Hxi) as Hd. rewrite Hp0 in Hd. apply RtoC_0_iff in Hd.
  unfold divCheb. rewrite Eg, Hd. destruct coeff as [|c0 [|c1 [|c2 cs]]]; try (simpl in Hlen; lia). cbn [inFloats].
  replace (ngtb (nabs 0%R) 1%R) with false.
  - eexists. split; [reflexivity|]. intros o Hin. rewrite in_map_iff in Hin. destruct Hin as [q [<- Hq]].
    destruct q; simpl; auto. right. f_equal. ring.
  - symmetry. change (Rltb 1 (Rabs 0) = false). apply Rltb_false. rewrite Rabs_R0. lra.
Qed.
Lemma ints_TypeError eigvals eigLeft k coeff ms u :
  last coeff 0%R <> 0%R -> nth 0 coeff 0%R <> 0%R -> (3 <= length coeff)%nat -> (ms = 0 \/ ms = -1)%Z ->
  solve1D eigvals eigLeft k Ints coeff ms u = Other TypeError.
Proof.
  intros Hlast Hf Hlen Hms.
  assert (Et : trimZeros coeff = coeff).
  { unfold trimZeros. rewrite (trimFront_id coeff) by (right; destruct coeff; auto). rewrite trimFront_id; [apply rev_involutive|].
    right. now rewrite hd_rev. }
  destruct k.
  - unfold solve1D. rewrite Et. destruct coeff as [|c0 [|c1 [|c2 cs]]]; try (simpl in Hlen; lia).
    destruct Hms as [->| ->]; reflexivity.
  - unfold solve1D. destruct Hms as [->| ->]; cbn [Z.eqb orb negb].
    + destruct coeff as [|c0 [|c1 [|c2 cs]]]; try (simpl in Hlen; lia). reflexivity.
    + destruct (getXinv_spec coeff (length coeff - 1)) as [s [xinv [Eg _]]]; try lia.
      unfold divCheb. rewrite Eg. destruct coeff as [|c0 [|c1 [|c2 cs]]]; try (simpl in Hlen; lia). reflexivity.
Qed.
Lemma multCheb_last_zero eigvals eigLeft coeff u :
  last coeff 0%R = 0%R -> (3 <= length coeff)%nat -> multCheb eigvals eigLeft Floats coeff u = NotFinite.
Proof.
  intros Hlast Hlen. assert (E : nth (length coeff - 1) coeff 0%R = 0%R) by (rewrite (nth_last coeff) by lia; auto).
  destruct coeff as [|c0 [|c1 [|c2 cs]]]; try (simpl in Hlen; lia). cbn [multCheb inFloats]. unfold divided.
  rewrite E. destruct (Req_EM_T 0 0); [auto|lra].
Qed.
