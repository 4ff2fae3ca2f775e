(** * Roots at infinity: proofs *)
From Coq Require Import List Arith Bool ZArith Reals Lra Lia.
From Coquelicot Require Import Complex.
From Verif Require Import Num Tensor OneDModel OneDSpec OneDProofs OneDLink ProjSpec ProjModel.
Import ListNotations.
Local Open Scope R_scope.
Local Open Scope C_scope.

Lemma nonzero_true r : nonzero r = true <-> r <> 0%R.
Proof. unfold nonzero. destruct (Req_EM_T r 0); split; congruence. Qed.
Lemma nonzero_false r : nonzero r = false <-> r = 0%R.
Proof. unfold nonzero. destruct (Req_EM_T r 0); split; congruence. Qed.
Lemma isclose0_spec z : isclose0 z = true <-> (Cmod z <= tiny)%R.
Proof. unfold isclose0. destruct (Rle_dec (Cmod z) tiny); split; auto; discriminate. Qed.

(** ** cleaning *)
Lemma strip_spec l : exists k, l = repeat 0%R k ++ strip l /\ (hd 0%R (strip l) <> 0%R \/ (length (strip l) <= 1)%nat).
Proof.
  induction l as [|x l IH]; [exists 0%nat; simpl; auto|]. destruct l as [|y r]; [exists 0%nat; simpl; auto|].
  destruct IH as [k [E H]]. cbn [strip]. destruct (nonzero x) eqn:Ex.
  - exists 0%nat. split; auto. left. now apply nonzero_true.
  - apply nonzero_false in Ex. subst x. exists (S k). split; [simpl; f_equal; exact E|exact H].
Qed.
Lemma rev_repeat {A} (x : A) k : rev (repeat x k) = repeat x k.
Proof. induction k; simpl; auto. rewrite IHk. clear. induction k; simpl; auto. now f_equal. Qed.
Lemma powerValue_app l k z : powerValue (l ++ repeat 0%R k) z = powerValue l z.
Proof.
  induction l as [|a l IH].
  - simpl app. unfold powerValue. simpl csum. apply csum_zero. intros i Hi. rewrite repeat_length in Hi. 
    rewrite nth_repeat. ring.
  - change ((a :: l) ++ repeat 0%R k) with (a :: (l ++ repeat 0%R k)). rewrite (powerValue_cons a (l ++ repeat 0%R k)), (powerValue_cons a l), IH. reflexivity.
Qed.
Lemma clean1_spec l : exists k, l = clean1 l ++ repeat 0%R k /\ (last (clean1 l) 0%R <> 0%R \/ (length (clean1 l) <= 1)%nat).
Proof.
  unfold clean1. destruct (strip_spec (rev l)) as [k [E H]]. exists k. split.
  - rewrite <- (rev_involutive l) at 1. rewrite E at 1. now rewrite rev_app_distr, rev_repeat.
  - rewrite <- hd_rev, rev_involutive, rev_length. exact H.
Qed.
Lemma clean1_value l z : powerValue (clean1 l) z = powerValue l z.
Proof. destruct (clean1_spec l) as [k [E _]]. rewrite E at 2. now rewrite powerValue_app. Qed.
Lemma clean1_last l : (exists a, In a l /\ a <> 0%R) -> last (clean1 l) 0%R <> 0%R.
Proof.
  intros [a [Ha Hn]]. destruct (clean1_spec l) as [k [E [H|H]]]; auto.
  rewrite E in Ha. apply in_app_or in Ha. destruct Ha as [Ha|Ha].
  - destruct (clean1 l) as [|b [|c r]]; [destruct Ha| |simpl in H; lia]. destruct Ha as [->|[]]. exact Hn.
  - apply repeat_spec in Ha. congruence.
Qed.

(** ** the antidiagonal *)
Section Form.
  Variables (t : tensor R) (m n : nat).
  Hypothesis Hs : shp t = [m; n].
  Let l := Nat.max m n.
  Lemma size2_eq : size2 t = l.
  Proof. unfold size2. now rewrite Hs. Qed.
  Lemma antidiagonal_length : length (antidiagonal t) = l.
  Proof. unfold antidiagonal. now rewrite map_length, seq_length, size2_eq. Qed.
  Lemma pad_get i j : (i < l)%nat -> (j < l)%nat ->
    tget (pad_with_zeros t) [i; j] = if (i <? m)%nat && (j <? n)%nat then coef t i j else 0%R.
  Proof.
    intros Hi Hj. unfold pad_with_zeros. rewrite size2_eq, Hs. cbn [nth]. rewrite tget_tbuild by (repeat constructor; auto).
    reflexivity.
  Qed.
  Lemma antidiagonal_nth i : (i < l)%nat ->
    nth i (antidiagonal t) 0%R = if (i <? m)%nat && (l - 1 - i <? n)%nat then coef t i (l - 1 - i) else 0%R.
  Proof.
    intros Hi. unfold antidiagonal. rewrite size2_eq.
    rewrite (nth_indep _ 0%R (tget (pad_with_zeros t) [0%nat; (l - 1 - 0)%nat])) by (rewrite map_length, seq_length; auto).
    rewrite (map_nth (fun i => tget (pad_with_zeros t) [i; (l - 1 - i)%nat]) (seq 0 l) 0%nat i), seq_nth by auto.
    apply pad_get; [exact Hi|]. simpl. unfold l. lia.
  Qed.
  (** the top form evaluated through the antidiagonal *)
  Definition form (v : list R) (x y : C) : C :=
    csum (length v) (fun i => RtoC (nth i v 0%R) * cpow x i * cpow y (length v - 1 - i)).
  Hypothesis Hl : (1 <= l)%nat.
  Let d := (l - 1)%nat.
  Hypothesis Hd : degreeIs m n t d.
  Lemma coef_high i j : (i < m)%nat -> (j < n)%nat -> (d < i + j)%nat -> coef t i j = 0%R.
  Proof.
    intros Hi Hj Hh. destruct (Req_dec (coef t i j) 0) as [E|E]; auto. destruct Hd as [_ H]. specialize (H i j Hi Hj E). lia.
  Qed.
  Lemma cpow_zero k : cpow 0 k = if (k =? 0)%nat then RtoC 1 else RtoC 0.
  Proof. destruct k; simpl; auto. ring. Qed.
  Lemma csum_le N M f : (N <= M)%nat -> (forall i, (N <= i)%nat -> (i < M)%nat -> f i = RtoC 0) -> csum M f = csum N f.
  Proof. intros H. induction H as [|M H IH]; intros Hz; auto. simpl. rewrite IH, (Hz M) by (intros; try apply Hz; lia). ring. Qed.
  Lemma homogenised_form x y : homogenised m n t d x y 0 = form (antidiagonal t) x y.
  Proof.
    unfold homogenised, form. rewrite antidiagonal_length.
    assert (Hrow : forall i, (i < m)%nat ->
       csum n (fun j => RtoC (coef t i j) * cpow x i * cpow y j * cpow 0 (d - i - j)) = RtoC (nth i (antidiagonal t) 0%R) * cpow x i * cpow y (l - 1 - i)).
    { intros i Hi. assert (Hil : (i < l)%nat) by (unfold l; lia). rewrite antidiagonal_nth by auto.
      replace (i <? m)%nat with true by (symmetry; now apply Nat.ltb_lt). cbn [andb].
      destruct (Nat.ltb_spec (l - 1 - i) n) as [Hj|Hj].
      - rewrite (csum_one n _ (l - 1 - i)%nat); auto.
        + rewrite cpow_zero. replace (d - i - (l - 1 - i) =? 0)%nat with true by (symmetry; apply Nat.eqb_eq; unfold d; lia). ring.
        + intros j Hjn Hne. rewrite cpow_zero. destruct (Nat.eqb_spec (d - i - j) 0) as [E|E]; [|ring].
          rewrite (coef_high i j) by (auto; unfold d in *; lia). ring.
      - rewrite csum_zero; [ring|]. intros j Hjn. rewrite cpow_zero.
        replace (d - i - j =? 0)%nat with false by (symmetry; apply Nat.eqb_neq; unfold d; lia). ring. }
    rewrite (csum_ext m _ _ Hrow). symmetry. apply csum_le; [unfold l; lia|]. intros i H1 H2. rewrite antidiagonal_nth by auto.
    replace (i <? m)%nat with false by (symmetry; apply Nat.ltb_ge; lia). cbn [andb]. ring.
  Qed.
  Lemma antidiagonal_nonzero : exists a, In a (antidiagonal t) /\ a <> 0%R.
  Proof.
    destruct Hd as [[i [j [Hi [Hj [Hc E]]]]] _]. exists (coef t i j). split; auto.
    replace (coef t i j) with (nth i (antidiagonal t) 0%R).
    - apply nth_In. rewrite antidiagonal_length. unfold l. lia.
    - rewrite antidiagonal_nth by (unfold l; lia). replace (l - 1 - i)%nat with j by (unfold d in E; lia).
      now rewrite (proj2 (Nat.ltb_lt i m) Hi), (proj2 (Nat.ltb_lt j n) Hj).
  Qed.
End Form.

Lemma form_at_infinity v x : (2 <= length v)%nat -> form v x 0 = RtoC (last v 0%R) * cpow x (length v - 1).
Proof.
  intros Hv. unfold form. rewrite (csum_one _ _ (length v - 1)%nat); [|lia|].
  - replace (length v - 1 - (length v - 1))%nat with 0%nat by lia. simpl cpow.
    replace (nth (length v - 1) v 0%R) with (last v 0%R); [ring|].
    destruct v as [|a v] using rev_ind; [simpl in Hv; lia|]. rewrite last_snoc, app_length. simpl length.
    replace (length v + 1 - 1)%nat with (length v) by lia. rewrite app_nth2, Nat.sub_diag by lia. reflexivity.
  - intros i Hi Hne. rewrite cpow_zero. replace (length v - 1 - i =? 0)%nat with false by (symmetry; apply Nat.eqb_neq; lia). ring.
Qed.
Lemma form_scale v s x y : form v (s * x) (s * y) = cpow s (length v - 1) * form v x y.
Proof.
  unfold form. rewrite <- csum_scal. apply csum_ext. intros i Hi.
  assert (Hm : forall k a b, cpow (a * b) k = cpow a k * cpow b k) by (induction k; intros; simpl; [ring|rewrite IHk; ring]).
  rewrite !Hm. replace (length v - 1)%nat with (i + (length v - 1 - i))%nat at 3 by lia. rewrite cpow_split. ring.
Qed.
Lemma form_at_one v x : form v x 1 = powerValue v x.
Proof.
  unfold form, powerValue. apply csum_ext. intros i _. assert (H1 : forall k, cpow 1 k = 1) by (induction k; simpl; [auto|rewrite IHk; ring]).
  rewrite H1. ring.
Qed.

(** ** what roots_at_inf returns *)
Definition isZeroForm (v : list R) (x y : C) : Prop := (x <> 0 \/ y <> 0) /\ form v x y = 0.
Lemma filter_one v : length (filter nonzero v) = 1%nat ->
  exists i, (i < length v)%nat /\ nth i v 0%R <> 0%R /\ forall j, j <> i -> nth j v 0%R = 0%R.
Proof.
  induction v as [|a v IH]; simpl; [discriminate|]. destruct (nonzero a) eqn:Ea; simpl; intros H.
  - exists 0%nat. split; [lia|]. split; [now apply nonzero_true|]. intros [|j] Hj; [lia|].
    assert (E : filter nonzero v = []) by (destruct (filter nonzero v); [auto|simpl in H; lia]). simpl.
    destruct (nth_in_or_default j v 0%R) as [Hin|]; auto. destruct (nonzero (nth j v 0%R)) eqn:En; [|now apply nonzero_false].
    assert (Hf : In (nth j v 0%R) (filter nonzero v)) by (apply filter_In; auto). rewrite E in Hf. destruct Hf.
  - destruct (IH H) as [i [H1 [H2 H3]]]. exists (S i). split; [lia|]. split; auto. intros [|j] Hj; [now apply nonzero_false|].
    apply H3. lia.
Qed.
Lemma last_nth_len v : last v 0%R = nth (length v - 1) v 0%R.
Proof.
  destruct v as [|a v] using rev_ind; auto. rewrite last_snoc, app_length. simpl length.
  replace (length v + 1 - 1)%nat with (length v) by lia. rewrite app_nth2, Nat.sub_diag by lia. reflexivity.
Qed.
Lemma cpow_0_iff z k : (1 <= k)%nat -> (cpow z k = 0 <-> z = 0).
Proof. intros Hk. split; [apply cpow_0|]. intros ->. destruct k; [lia|]. simpl. ring. Qed.

Definition listsZeros (v : list R) (L : list point) : Prop :=
  (forall p, In p L -> exists x, fst p = Some x /\ isZeroForm v x (snd p)) /\
  (forall x y, isZeroForm v x y -> exists a b, In (Some a, b) L /\ samePoint (x, y) (a, b)).

Lemma zeros_exactly v xs : (2 <= length v)%nat -> (exists a, In a v /\ a <> 0%R) ->
  exactly xs (fun z => powerValue v z = 0) -> (last v 0%R = 0%R \/ (tiny < Rabs (last v 0%R))%R) ->
  listsZeros v (map (fun x => (x, RtoC 1)) xs ++ (if isclose0 (RtoC (last v 0%R)) then [(Some (RtoC 1), RtoC 0)] else [])).
Proof.
  intros Hlen Hnz Hex Hlast.
  assert (Hc : isclose0 (RtoC (last v 0%R)) = true <-> last v 0%R = 0%R).
  { rewrite isclose0_spec, Cmod_R. split.
    - intros H. destruct Hlast as [|Hl]; auto. lra.
    - intros ->. rewrite Rabs_R0. unfold tiny. lra. }
  split.
  - intros p Hp. apply in_app_or in Hp. destruct Hp as [Hp|Hp].
    + apply in_map_iff in Hp. destruct Hp as [o [<- Ho]]. apply Hex in Ho. destruct Ho as [z [-> Hz]]. exists z. split; auto.
      cbn [snd]. split; [right; apply C1_nz|]. now rewrite form_at_one.
    + destruct (isclose0 _) eqn:E; [|destruct Hp]. destruct Hp as [<-|[]]. exists 1. split; auto. cbn [snd].
      split; [left; apply C1_nz|]. rewrite form_at_infinity by auto. rewrite (proj1 Hc eq_refl). ring.
  - intros x y [Hxy Hz]. destruct (Ceq_dec y 0) as [->|Hy].
    + rewrite form_at_infinity in Hz by auto.
      assert (Hx : x <> 0) by tauto. apply cmult_integral in Hz. destruct Hz as [Hz|Hz]; [|destruct (cpow_nz x _ Hx Hz)].
      apply RtoC_0_iff in Hz. rewrite (proj2 Hc Hz). exists 1, 0. split; [apply in_or_app; right; left; reflexivity|].
      exists x. split; [exact Hx|]. split; simpl; ring.
    + assert (E : form v x y = cpow y (length v - 1) * powerValue v (x / y)).
      { rewrite <- form_at_one, <- form_scale. f_equal; field; auto. }
      rewrite E in Hz. apply cmult_integral in Hz. destruct Hz as [Hz|Hz]; [destruct (cpow_nz y _ Hy Hz)|].
      exists (x / y), 1. split.
      * apply in_or_app. left. apply in_map_iff. exists (Some (x / y)). split; auto. apply Hex. eauto.
      * exists y. split; auto. split; simpl; field; auto.
Qed.

Section Roots.
  Variable eigvals : nat -> (nat -> nat -> R) -> list C.
  Variable eigLeft : nat -> (nat -> nat -> R) -> list (C * (nat -> C)).
  Hypothesis He : forall n M, spectrum n M (eigvals n M).
  Hypothesis Hf : forall n M, leftSpectrum n M (eigLeft n M).

  Lemma powerValue_monomial v i z : (i < length v)%nat -> (forall j, j <> i -> nth j v 0%R = 0%R) ->
    powerValue v z = RtoC (nth i v 0%R) * cpow z i.
  Proof.
    intros Hi Hz. unfold powerValue. rewrite (csum_one _ _ i); auto. intros j _ Hj. rewrite (Hz j Hj). ring.
  Qed.
  Lemma roots_spec t m n : shp t = [m; n] -> (2 <= Nat.max m n)%nat -> degreeIs m n t (Nat.max m n - 1) ->
    ((Nat.max m n - 1 < m)%nat -> coef t (Nat.max m n - 1) 0 = 0%R \/ (tiny < Rabs (coef t (Nat.max m n - 1) 0))%R) ->
    exists L, roots_at_inf eigvals eigLeft t = Points L /\ listsZeros (antidiagonal t) L.
  Proof.
    intros Hs Hl Hd Hc. unfold roots_at_inf. rewrite Hs.
    pose proof (antidiagonal_length t m n Hs) as Hlen. pose proof (antidiagonal_nonzero t m n Hs ltac:(lia) Hd) as Hnz.
    assert (Hlast : last (antidiagonal t) 0%R = 0%R \/ (tiny < Rabs (last (antidiagonal t) 0%R))%R).
    { rewrite last_nth_len, Hlen, (antidiagonal_nth t m n Hs) by lia.
      replace (Nat.max m n - 1 - (Nat.max m n - 1))%nat with 0%nat by lia.
      destruct (Nat.ltb_spec (Nat.max m n - 1) m) as [Hm|Hm]; [|left; reflexivity].
      destruct (0 <? n)%nat; [|left; reflexivity]. cbn [andb]. exact (Hc Hm). }
    assert (Hlen2 : (2 <= length (antidiagonal t))%nat) by (rewrite Hlen; exact Hl).
    destruct (Nat.eqb_spec (length (filter nonzero (antidiagonal t))) 1) as [E1|E1].
    - destruct (filter_one _ E1) as [i [Hi [Hn Ho]]].
      destruct (nonzero (nth 0 (antidiagonal t) 0%R)) eqn:E0.
      + apply nonzero_true in E0. assert (i = 0%nat) by (destruct i; auto; exfalso; apply E0, Ho; lia). subst i.
        eexists. split; [reflexivity|].
        assert (Hlz : last (antidiagonal t) 0%R = 0%R) by (rewrite last_nth_len; apply Ho; lia).
        assert (Hex : exactly [] (fun z => powerValue (antidiagonal t) z = 0)).
        { intros o. split; [intros []|]. intros [z [_ Hz]]. exfalso. rewrite (powerValue_monomial _ 0%nat) in Hz by (auto; lia).
          apply Hn, RtoC_0_iff. rewrite <- Hz. simpl. ring. }
        pose proof (zeros_exactly _ [] Hlen2 Hnz Hex Hlast) as H. rewrite Hlz in H.
        replace (isclose0 (RtoC 0)) with true in H by (symmetry; apply isclose0_spec; rewrite Cmod_0; unfold tiny; lra). exact H.
      + apply nonzero_false in E0. assert (Hi1 : (1 <= i)%nat) by (destruct i; [congruence|lia]).
        eexists. split; [reflexivity|]. apply (zeros_exactly _ [Some (RtoC 0)] Hlen2 Hnz); auto.
        intros o. split.
        * intros [<-|[]]. exists 0. split; auto. rewrite (powerValue_monomial _ i) by auto. rewrite (proj2 (cpow_0_iff 0 i Hi1) eq_refl). ring.
        * intros [z [-> Hz]]. left. f_equal. rewrite (powerValue_monomial _ i) in Hz by auto. apply cmult_integral in Hz.
          destruct Hz as [Hz|Hz]; [exfalso; apply Hn; now apply RtoC_0_iff|]. symmetry. now apply cpow_0 in Hz.
    - destruct (solve_power_exact eigvals eigLeft (clean1 (antidiagonal t)) 0 true (clean1_last _ Hnz) (or_introl eq_refl) He Hf) as [xs [-> Hx]].
      eexists. split; [reflexivity|]. apply zeros_exactly; auto. intros o. rewrite (Hx o).
      split; intros [z [-> Hz]]; exists z; (split; [reflexivity|]); [rewrite <- clean1_value|rewrite clean1_value]; exact Hz.
  Qed.
End Roots.

(** ** common_root_at_inf *)
Lemma polyval_sum x l : polyval x l = csum (length l) (fun i => nth i l 0 * cpow x i).
Proof.
  induction l as [|a l IH]; [reflexivity|]. simpl length. rewrite csum_first. change (polyval x (a :: l)) with (a + polyval x l * x). rewrite IH.
  simpl nth. simpl cpow. f_equal; [ring|]. rewrite Cmult_comm, <- csum_scal. apply csum_ext. intros i _. ring.
Qed.
Lemma nth_map_seq0 {A} (f : nat -> A) k i d : (i < k)%nat -> nth i (map f (seq 0 k)) d = f i.
Proof.
  intros Hi. rewrite (nth_indep _ d (f 0%nat)) by (rewrite map_length, seq_length; auto). rewrite map_nth, seq_nth by auto. reflexivity.
Qed.
Lemma second_value t m n x y : shp t = [m; n] ->
  value2 (second_poly t) (x, y) = csum (length (antidiagonal t)) (fun i => RtoC (nth (length (antidiagonal t) - 1 - i) (antidiagonal t) 0%R) * cpow (x * y) i).
Proof.
  intros Hs. unfold value2. set (v := antidiagonal t).
  assert (Hsh : shp (second_poly t) = [length v; length v]) by (unfold second_poly; rewrite shp_tbuild, rev_length; reflexivity).
  rewrite Hsh. cbn [nth fst snd]. rewrite polyval_sum, map_length, seq_length. apply csum_ext. intros j Hj.
  rewrite nth_map_seq0 by auto. rewrite polyval_sum, map_length, seq_length. rewrite (csum_one _ _ j); auto.
  - rewrite nth_map_seq0 by auto. unfold second_poly. rewrite rev_length. fold v. rewrite tget_tbuild by (repeat constructor; auto).
    cbn [nth]. rewrite Nat.eqb_refl, rev_nth by auto. replace (length v - S j)%nat with (length v - 1 - j)%nat by lia.
    assert (Hm : forall k a b, cpow (a * b) k = cpow a k * cpow b k) by (induction k; intros; simpl; [ring|rewrite IHk; ring]).
    rewrite Hm. ring.
  - intros i Hi Hne. rewrite nth_map_seq0 by auto. unfold second_poly. rewrite rev_length. fold v.
    rewrite tget_tbuild by (repeat constructor; auto). cbn [nth]. rewrite (proj2 (Nat.eqb_neq i j) Hne). ring.
Qed.
Lemma cpow_1 k : cpow 1 k = 1.
Proof. induction k; simpl; [auto|rewrite IHk; ring]. Qed.
Lemma second_value_one t m n x : shp t = [m; n] -> value2 (second_poly t) (x, RtoC 1) = form (antidiagonal t) 1 x.
Proof.
  intros Hs. rewrite (second_value t m n) by auto. unfold form. rewrite csum_rev. apply csum_ext. intros i Hi. rewrite cpow_1.
  replace (length (antidiagonal t) - 1 - (length (antidiagonal t) - 1 - i))%nat with i by lia.
  replace (x * 1) with x by ring. ring.
Qed.
Lemma second_value_inf t m n : shp t = [m; n] -> (1 <= Nat.max m n)%nat -> value2 (second_poly t) (RtoC 1, RtoC 0) = form (antidiagonal t) 1 0.
Proof.
  intros Hs Hl. rewrite (second_value t m n) by auto. unfold form. rewrite (csum_rev _ (fun i => RtoC (nth i _ _) * _ * _)).
  apply csum_ext. intros i Hi. rewrite cpow_1.
  replace (length (antidiagonal t) - 1 - (length (antidiagonal t) - 1 - i))%nat with i by lia.
  replace (1 * 0) with (RtoC 0) by ring. ring.
Qed.
Section Common.
  Variable eigvals : nat -> (nat -> nat -> R) -> list C.
  Variable eigLeft : nat -> (nat -> nat -> R) -> list (C * (nat -> C)).
  Hypothesis He : forall n M, spectrum n M (eigvals n M).
  Hypothesis Hf : forall n M, leftSpectrum n M (eigLeft n M).

  (** the points listed are (x, 1) or (1, 0) *)
  Lemma roots_shape t L p : roots_at_inf eigvals eigLeft t = Points L -> In p L -> snd p = RtoC 1 \/ p = (Some (RtoC 1), RtoC 0).
  Proof.
    unfold roots_at_inf. intros E Hp. destruct (shp t) as [|m [|n [|]]]; try discriminate.
    assert (Hfin : forall xs, In p (map (fun x : option C => (x, RtoC 1)) xs ++ (if isclose0 (RtoC (last (antidiagonal t) 0%R)) then [(Some (RtoC 1), RtoC 0)] else []))
              -> snd p = RtoC 1 \/ p = (Some (RtoC 1), RtoC 0)).
    { intros xs H. apply in_app_or in H. destruct H as [H|H].
      - apply in_map_iff in H. destruct H as [x [<- _]]. auto.
      - destruct (isclose0 _); [|destruct H]. destruct H as [<-|[]]. auto. }
    destruct (_ =? 1)%nat.
    - destruct (nonzero _); injection E as <-; [destruct Hp as [<-|[]]; auto|]. exact (Hfin [Some (RtoC 0)] Hp).
    - destruct (solve1D _ _ _ _ _ _ _) as [|[| | |xs]]; try discriminate. injection E as <-. eauto.
  Qed.
  Definition reported (t u : tensor R) : Prop :=
    (exists x, isZeroForm (antidiagonal t) x 1 /\ (Cmod (form (antidiagonal u) 1 x) <= tiny)%R) \/
    (isZeroForm (antidiagonal t) 1 0 /\ (Cmod (form (antidiagonal u) 1 0) <= tiny)%R).
  Lemma isRoot_one u m n x : shp u = [m; n] -> isRoot u (Some x, RtoC 1) = true <-> (Cmod (form (antidiagonal u) 1 x) <= tiny)%R.
  Proof. intros Hs. unfold isRoot. cbn [fst snd]. rewrite (second_value_one u m n) by auto. apply isclose0_spec. Qed.
  Lemma isRoot_inf u m n : shp u = [m; n] -> (1 <= Nat.max m n)%nat -> isRoot u (Some (RtoC 1), RtoC 0) = true <-> (Cmod (form (antidiagonal u) 1 0) <= tiny)%R.
  Proof. intros Hs Hl. unfold isRoot. cbn [fst snd]. rewrite (second_value_inf u m n) by auto. apply isclose0_spec. Qed.

  Lemma common_spec t u m n m' n' : shp t = [m; n] -> (2 <= Nat.max m n)%nat -> degreeIs m n t (Nat.max m n - 1) ->
    ((Nat.max m n - 1 < m)%nat -> coef t (Nat.max m n - 1) 0 = 0%R \/ (tiny < Rabs (coef t (Nat.max m n - 1) 0))%R) ->
    shp u = [m'; n'] -> (1 <= Nat.max m' n')%nat ->
    exists L, roots_at_inf eigvals eigLeft t = Points L /\
    ((reported t u /\ common_root_at_inf eigvals eigLeft t u false = Just true /\
      exists p, In p L /\ common_root_at_inf eigvals eigLeft t u true = TrueWith p) \/
     (~ reported t u /\ forall b, common_root_at_inf eigvals eigLeft t u b = Just false)).
  Proof.
    intros Hs Hl Hd Hc Hu Hl'. destruct (roots_spec eigvals eigLeft He Hf t m n Hs Hl Hd Hc) as [L [E [H1 H2]]].
    exists L. split; auto. unfold common_root_at_inf. rewrite E. unfold searchRoots. rewrite Hu.
    destruct (find (isRoot u) L) as [p|] eqn:Ef.
    - left. apply find_some in Ef. destruct Ef as [Hin Hr]. split; [|split; [reflexivity|exists p; auto]].
      destruct (H1 p Hin) as [x [Ex Hz]]. destruct p as [o y]. cbn [fst snd] in *. subst o.
      destruct (roots_shape t L _ E Hin) as [Hy|Hy].
      + cbn [snd] in Hy. subst y. left. exists x. split; auto. now apply (isRoot_one u m' n').
      + injection Hy as -> ->. right. split; auto. now apply (isRoot_inf u m' n').
    - right. split; [|intros b; reflexivity]. intros Hrep.
      assert (Hnone := find_none _ _ Ef). destruct Hrep as [[x [Hz Hm]]|[Hz Hm]].
      + destruct (H2 x 1 Hz) as [a [b [Hin [s [Hs0 [Ea Eb]]]]]]. cbn [fst snd] in *.
        destruct (roots_shape t L _ E Hin) as [Hy|Hy].
        * cbn [snd] in Hy. subst b. assert (s = 1) by (rewrite Eb; ring). subst s.
          assert (a = x) by (rewrite Ea; ring). subst a. specialize (Hnone _ Hin). apply (isRoot_one u m' n') in Hm; auto. congruence.
        * injection Hy as -> ->. exfalso. apply C1_nz. rewrite Eb. ring.
      + destruct (H2 1 0 Hz) as [a [b [Hin [s [Hs0 [Ea Eb]]]]]]. cbn [fst snd] in *.
        destruct (roots_shape t L _ E Hin) as [Hy|Hy].
        * cbn [snd] in Hy. subst b. exfalso. apply Hs0. rewrite <- (Cmult_1_r s), <- Eb. reflexivity.
        * injection Hy as -> ->. specialize (Hnone _ Hin). apply (isRoot_inf u m' n') in Hm; auto. congruence.
  Qed.
End Common.
