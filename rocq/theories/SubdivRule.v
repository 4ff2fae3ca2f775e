(** * C17: which dimensions are split, and in which order *)
From Coq Require Import List Arith Bool Lia ZArith Sorted Permutation Reals Lra.
From Verif Require Import Num RSum Tensor PolySpec SystemSpec IntervalModel LinearModel LinearProofs SolverModel OrderProofs SubdivProofs SubdivProps ExtExample.
Import ListNotations.
Local Open Scope R_scope.

(** ** Specification *)
Section Rule.
  Variables (n : nat) (lo hi : nat -> R) (deg : nat -> nat) (total : nat).
  (** the ends of side d agree up to the tolerances of np.isclose *)
  Definition closedSide (d : nat) : Prop := Rabs (lo d - hi d) <= 1 / 100000000 + 1 / 100000 * Rabs (hi d).
  (** the dimensions considered: those with ends apart; the last one if there are none *)
  Definition considered (d : nat) : Prop := (d < n)%nat /\ (~ closedSide d \/ ((forall e, (e < n)%nat -> closedSide e) /\ d = (n - 1)%nat)).
  (** more than a fifth of the longest side considered *)
  Definition longSide (d : nat) : Prop := considered d /\ forall e, considered e -> hi e - lo e < 5 * (hi d - lo d).
  (** the sum of the numbers of coefficients in direction d is below the floor of total / (n + 1) *)
  Definition lowDegree (d : nat) : Prop := ((deg d + 1) * (n + 1) <= total)%nat.
  (** the rule of getSubdivisionDims: below depth 5 every dimension considered; up to depth 5 the long sides that are not of
      low degree; the last long side if all are *)
  Definition chosen (level : nat) (d : nat) : Prop :=
    ((5 < level)%nat /\ considered d) \/
    ((level <= 5)%nat /\ longSide d /\ (~ lowDegree d \/ ((forall e, longSide e -> lowDegree e) /\ forall e, longSide e -> (e <= d)%nat))).
End Rule.
(** the number of coefficients of all polynomials in direction d, and in all directions together *)
Definition sizeSum (Ms : list (tensor R)) (d : nat) : nat := list_sum (map (fun M => nth d (shp M) 0%nat) Ms).
Definition sizeTotal (n : nat) (Ms : list (tensor R)) : nat := list_sum (map (sizeSum Ms) (seq 0 n)).

(** ** Deleting the bad ones as long as two are left *)
Lemma filter_all {A} (p : A -> bool) l : (forall x, In x l -> p x = true) -> filter p l = l.
Proof. induction l; intros H; [reflexivity|]. cbn. rewrite (H a) by (left; auto). f_equal. apply IHl. intros; apply H; right; auto. Qed.
Lemma prune_spec (bad : nat -> bool) l : forall acc, StronglySorted lt (acc ++ l) -> (forall i, In i acc -> bad i = false) -> acc ++ l <> [] ->
  forall d, In d (fold_left (fun ds i => if (1 <? length ds)%nat && bad i then delVal ds i else ds) l (acc ++ l)) <->
    In d (acc ++ l) /\ (bad d = false \/ ((forall e, In e (acc ++ l) -> bad e = true) /\ forall e, In e (acc ++ l) -> (e <= d)%nat)).
Proof.
  induction l as [|i l IH]; intros acc HS HA HN d; cbn [fold_left].
  - rewrite app_nil_r in *. split; [intros H; split; [auto|left; auto]|tauto].
  - assert (ND : NoDup (acc ++ i :: l)) by (apply sorted_lt_NoDup; auto).
    destruct ((1 <? length (acc ++ i :: l))%nat && bad i) eqn:E.
    + apply andb_true_iff in E as [E1 E2]. apply Nat.ltb_lt in E1.
      assert (ED : delVal (acc ++ i :: l) i = acc ++ l).
      { unfold delVal. rewrite filter_app. cbn [filter]. rewrite Nat.eqb_refl. cbn [negb]. rewrite !filter_all; auto.
        - intros x Hx. apply Bool.negb_true_iff, Nat.eqb_neq. intros ->. apply NoDup_remove_2 in ND. apply ND, in_or_app. auto.
        - intros x Hx. apply Bool.negb_true_iff, Nat.eqb_neq. intros ->. apply NoDup_remove_2 in ND. apply ND, in_or_app. auto. }
      rewrite ED.
      assert (HS' : StronglySorted lt (acc ++ l)) by (rewrite <- ED; apply sorted_filter; auto).
      assert (HN' : acc ++ l <> []). { intros X. rewrite app_length in E1. cbn in E1. assert (Y := f_equal (@length nat) X). rewrite app_length in Y. cbn in Y. lia. }
      rewrite (IH acc HS' HA HN' d). rewrite !in_app_iff. cbn [In]. split.
      * intros [H1 [H2|[H2 H3]]]; [tauto|]. split; [tauto|]. right. split.
        -- intros e He. rewrite in_app_iff in He. cbn in He. destruct He as [He|[<-|He]]; auto; apply H2; rewrite in_app_iff; auto.
        -- intros e He. rewrite in_app_iff in He. cbn in He. destruct He as [He|[<-|He]]; [apply H3; rewrite in_app_iff; auto| |apply H3; rewrite in_app_iff; auto].
           (* acc is empty: its members are not bad *)
           destruct acc as [|a acc]; [|specialize (HA a (or_introl eq_refl)); rewrite (H2 a) in HA by (left; auto); discriminate].
           cbn in H1. destruct H1 as [[]|H1]. cbn in HS. inversion HS; subst. rewrite Forall_forall in H5. specialize (H5 d H1). lia.
      * intros [H1 H2]. assert (Hdi : d <> i \/ d = i) by lia. destruct Hdi as [Hdi| ->].
        -- split; [destruct H1 as [?|[?|?]]; auto; congruence|]. destruct H2 as [H2|[H2 H3]]; [auto|]. right. split; intros e He; [apply H2|apply H3]; rewrite in_app_iff in *; cbn; tauto.
        -- exfalso. destruct H2 as [H2|[H2 H3]]; [congruence|]. destruct acc as [|a acc].
           ++ destruct l as [|b l]; [cbn in E1; lia|]. cbn in HS. inversion HS; subst. rewrite Forall_forall in H5.
              specialize (H5 b (or_introl eq_refl)). specialize (H3 b (or_intror (or_introl eq_refl))). lia.
           ++ specialize (HA a (or_introl eq_refl)). rewrite (H2 a) in HA by (left; auto). discriminate.
    + assert (R1 : acc ++ i :: l = (acc ++ [i]) ++ l) by (rewrite <- app_assoc; reflexivity).
      destruct (bad i) eqn:B.
      * rewrite andb_true_r in E. apply Nat.ltb_ge in E. rewrite app_length in E. cbn in E. assert (acc = []) by (destruct acc; [auto|cbn in E; lia]).
        assert (l = []) by (destruct l; [auto|subst; cbn in E; lia]). subst. cbn. split.
        -- intros [<-|[]]. split; [auto|right]. split; intros e [<-|[]]; auto.
        -- tauto.
      * rewrite R1 in *. apply IH; auto. intros j Hj. apply in_app_or in Hj as [Hj|[<-|[]]]; auto.
Qed.
Lemma prune_all (bad : nat -> bool) l d : StronglySorted lt l -> l <> [] ->
  In d (fold_left (fun ds i => if (1 <? length ds)%nat && bad i then delVal ds i else ds) l l) <->
    In d l /\ (bad d = false \/ ((forall e, In e l -> bad e = true) /\ forall e, In e l -> (e <= d)%nat)).
Proof. intros HS HN. apply (prune_spec bad l []); auto. intros i []. Qed.

Section Proof.
  Variables (n : nat) (Ms : list (tensor R)) (ti : tint R).
  Hypothesis Hn : (0 < n)%nat.
  Hypothesis HM : length Ms = n.
  Hypothesis Hl : length (ivl ti) = n.
  Let lo := fun i => fst (nth i (ivl ti) (0, 0)).
  Let hi := fun i => snd (nth i (ivl ti) (0, 0)).
  Lemma isclose_iff d : @isclose R R_num (lo d) (hi d) = true <-> closedSide lo hi d.
  Proof. unfold isclose, closedSide. rewrite !nlit_R. rnum. rewrite Rleb_true. simpl IZR. tauto. Qed.
  Lemma isclose_false d : @isclose R R_num (lo d) (hi d) = false <-> ~ closedSide lo hi d.
  Proof. rewrite <- isclose_iff. destruct (isclose (lo d) (hi d)); split; congruence. Qed.
  Lemma notClose_rule d : In d (dimsNotClose (ivl ti) n) <-> considered n lo hi d.
  Proof.
    assert (E : dimsNotClose (ivl ti) n = fold_left (fun ds i => if (1 <? length ds)%nat && @isclose R R_num (lo i) (hi i) then delVal ds i else ds) (seq 0 n) (seq 0 n)).
    { unfold dimsNotClose. generalize (seq 0 n) at 2 4. generalize (seq 0 n). intros l. induction l as [|i l IH]; intros ds; [reflexivity|].
      cbn [fold_left]. rewrite IH. f_equal. cbv zeta. unfold lo, hi. cbn [n0 R_num].
      destruct (isclose (fst (nth i (ivl ti) (0, 0))) (snd (nth i (ivl ti) (0, 0)))); [rewrite andb_true_r|rewrite andb_false_r; reflexivity].
      destruct ds as [|a [|b ds]]; reflexivity. }
    rewrite E, prune_all.
    - unfold considered. split.
      + intros [H1 H2]. apply in_seq in H1. split; [lia|]. destruct H2 as [H2|[H2 H3]]; [left; apply isclose_false; auto|right]. split.
        * intros e He. apply isclose_iff, H2, in_seq. lia.
        * specialize (H3 (n - 1)%nat). rewrite in_seq in H3. lia.
      + intros [H1 H2]. split; [apply in_seq; lia|]. destruct H2 as [H2|[H2 ->]]; [left; apply isclose_false; auto|right]. split.
        * intros e He. apply isclose_iff, H2. apply in_seq in He. lia.
        * intros e He. apply in_seq in He. lia.
    - apply sorted_seq.
    - destruct n; [lia|discriminate].
  Qed.
  Lemma large_rule dims d : dims_ok n dims -> (forall i, In i dims <-> considered n lo hi i) ->
    In d (dimsLarge Ms (ivl ti) n dims) <-> longSide n lo hi d /\ (~ lowDegree n (sizeSum Ms) (sizeTotal n Ms) d \/
      ((forall e, longSide n lo hi e -> lowDegree n (sizeSum Ms) (sizeTotal n Ms) e) /\ forall e, longSide n lo hi e -> (e <= d)%nat)).
  Proof.
    intros Hd HC. unfold dimsLarge. cbv zeta.
    assert (Hbd : forall i, (i < n)%nat -> nth i (@boxDims R R_num (ivl ti)) 0 = hi i - lo i).
    { intros i Hi. unfold boxDims. rewrite (nth_map_lt _ _ _ (0, 0)) by lia. reflexivity. }
    set (mx := match map _ dims with [] => _ | x :: r => _ end).
    assert (Hmx : forall i, In i dims -> hi i - lo i <= mx /\ exists j, In j dims /\ mx = hi j - lo j).
    { intros i Hi. assert (W : forall j, In j dims -> nth j (@boxDims R R_num (ivl ti)) 0 = hi j - lo j) by (intros j Hj; apply Hbd; apply HC in Hj; apply Hj).
      unfold mx. destruct dims as [|a r]; [destruct Hi|]. cbn [map]. rnum. split.
      - rewrite <- W by auto. apply nmaxl_ge. destruct Hi as [<-|Hi]; [left; lra|right]. apply in_map_iff. eauto.
      - destruct (nmaxl_in (map (fun i => nth i (@boxDims R R_num (ivl ti)) 0) r) (nth a (@boxDims R R_num (ivl ti)) 0)) as [E|E].
        + exists a. split; [left; auto|]. rewrite <- W by (left; auto). exact E.
        + apply in_map_iff in E as (j & E & Hj). exists j. split; [right; auto|]. rewrite <- W by (right; auto). symmetry; exact E. }
    set (B := filter _ dims). assert (HB : dims_ok n B) by (apply dims_filter; auto).
    assert (InB : forall i, In i B <-> longSide n lo hi i).
    { intros i. unfold B. rewrite filter_In, HC. unfold longSide, ngtb. rewrite nlit_R. cbn [nltb ndiv R_num n0]. rewrite Rltb_true. split.
      - intros [H1 H2]. split; auto. intros e He. apply HC in He. destruct (Hmx e He) as [H3 _]. rewrite Hbd in H2 by apply H1. simpl IZR in H2. lra.
      - intros [H1 H2]. split; auto. rewrite Hbd by apply H1. apply HC in H1. destruct (Hmx i H1) as [_ (j & Hj & Ej)]. apply HC in Hj. specialize (H2 j Hj). rewrite Ej. simpl IZR. lra. }
    set (low := fun i => (fold_right Nat.add 0%nat (map (fun M => nth i (shp M) 0%nat) Ms) <?
       Nat.div (fold_right Nat.add 0%nat (map (fun i => fold_right Nat.add 0%nat (map (fun M => nth i (shp M) 0%nat) Ms)) (seq 0 n))) (n + 1))%nat).
    assert (Hlow : forall i, low i = true <-> lowDegree n (sizeSum Ms) (sizeTotal n Ms) i).
    { intros i. unfold low, lowDegree. change (fold_right Nat.add 0%nat (map (fun M => nth i (shp M) 0%nat) Ms)) with (sizeSum Ms i).
      change (fold_right Nat.add 0%nat (map (fun i => fold_right Nat.add 0%nat (map (fun M => nth i (shp M) 0%nat) Ms)) (seq 0 n))) with (sizeTotal n Ms).
      rewrite Nat.ltb_lt. generalize (sizeSum Ms i) (sizeTotal n Ms). intros a t. split; intros H.
      - assert (X := Nat.mul_div_le t (n + 1) ltac:(lia)). nia.
      - assert (X : (a + 1 <= t / (n + 1))%nat) by (apply Nat.div_le_lower_bound; lia). lia. }
    assert (Hlow' : forall i, low i = false <-> ~ lowDegree n (sizeSum Ms) (sizeTotal n Ms) i) by (intros i; rewrite <- Hlow; destruct (low i); split; congruence).
    destruct (Nat.ltb_spec 1 (length B)) as [L|L].
    - change (In d (fold_left (fun ds i => if (1 <? length ds)%nat && low i then delVal ds i else ds) B B) <-> longSide n lo hi d /\ (~ lowDegree n (sizeSum Ms) (sizeTotal n Ms) d \/
      ((forall e, longSide n lo hi e -> lowDegree n (sizeSum Ms) (sizeTotal n Ms) e) /\ forall e, longSide n lo hi e -> (e <= d)%nat))).
      rewrite prune_all by (try apply HB; intros E; rewrite E in L; cbn in L; lia). rewrite InB, Hlow'. split; intros [H1 H2]; (split; [auto|]); (destruct H2 as [H2|[H2 H3]]; [auto|right]).
      + split; intros e He; [apply Hlow, H2|apply H3]; apply InB; auto.
      + split; intros e He; [apply Hlow, H2|apply H3]; apply InB; auto.
    - rewrite InB. split; [|tauto]. intros H. split; auto.
      assert (U : forall e, longSide n lo hi e -> e = d).
      { intros e He. apply InB in He, H. destruct B as [|b [|? ?]]; [destruct He| |cbn in L; lia]. destruct He as [<-|[]], H as [<-|[]]. reflexivity. }
      destruct (low d) eqn:E; [right|left; apply Hlow'; auto]. split; intros e He; rewrite (U e He); [apply Hlow; auto|lia].
  Qed.
End Proof.

(** Every row returned by getSubdivisionDims, one for each polynomial, holds precisely the dimensions of the rule above, ordered by
    the number of coefficients the polynomial has in them, the largest first. *)
Theorem C17_which_dimensions_are_split (n : nat) (X : ext R) (Ms : list (tensor R)) (ti : tint R) (level : nat) :
  argsort_ok (xargsort X) -> (0 < n)%nat -> length Ms = n -> length (ivl ti) = n ->
  let lo := fun i => fst (nth i (ivl ti) (0, 0)) in let hi := fun i => snd (nth i (ivl ti) (0, 0)) in
  forall k, (k < n)%nat -> let row := nth k (getSubdivisionDims X Ms ti level) [] in let M := nth k Ms (mkT [] []) in
  (forall d, In d row <-> chosen n lo hi (sizeSum Ms) (sizeTotal n Ms) level d) /\
  NoDup row /\
  (forall i j, (i < j < length row)%nat -> (nth (nth j row 0%nat) (shp M) 0 <= nth (nth i row 0%nat) (shp M) 0)%nat).
Proof.
  intros Has Hn HM Hl lo hi k Hk row M. unfold row, getSubdivisionDims. rewrite (nth_map_lt _ _ _ (mkT [] [])) by lia. fold M.
  set (dims := subdivisionDims Ms ti level). assert (P := orderFor_perm X Has dims M). destruct (subdims_ok n Ms ti level HM) as [D1 D2]. fold dims in D1, D2.
  split; [|split].
  - intros d. transitivity (In d dims); [split; apply Permutation_in; [|apply Permutation_sym]; auto|].
    unfold dims, subdivisionDims. rewrite HM. unfold chosen. destruct (Nat.ltb_spec 5 level).
    + rewrite (notClose_rule n Ms ti Hn HM Hl d). fold lo hi. split; [left; auto|]. intros [[_ ?]|[? _]]; [auto|lia].
    + rewrite (large_rule n Ms ti Hn HM Hl); [|apply notClose_ok|intros i; apply (notClose_rule n Ms ti Hn HM Hl i)]. fold lo hi. split; [right; auto|]. intros [[? _]|[_ ?]]; [lia|auto].
  - apply (Permutation_NoDup (Permutation_sym P)), sorted_lt_NoDup, D1.
  - intros i j Hij. unfold orderFor in *. set (l := map (fun d => nth d (shp M) 0%nat) dims) in *. destruct (Has l) as [HP HS].
    set (s := xargsort X l) in *. rewrite map_length, rev_length in Hij. assert (Ls : length s = length dims) by (rewrite (Permutation_length HP), seq_length; unfold l; apply map_length).
    assert (E : forall i, (i < length s)%nat -> nth (nth i (map (fun k => nth k dims 0%nat) (rev s)) 0%nat) (shp M) 0%nat = nth (length s - 1 - i)%nat (map (fun k => nth k l 0%nat) s) 0%nat).
    { intros a Ha. rewrite (nth_map_lt _ _ _ 0%nat) by (rewrite rev_length; auto). rewrite rev_nth by auto. replace (length s - S a)%nat with (length s - 1 - a)%nat by lia.
      rewrite (nth_map_lt _ _ _ 0%nat) by lia. set (b := nth (length s - 1 - a) s 0%nat).
      assert (Hb : (b < length dims)%nat). { assert (I : In b s) by (apply nth_In; lia). apply (Permutation_in _ HP), in_seq in I. unfold l in I. rewrite map_length in I. lia. }
      unfold l. rewrite (nth_map_lt _ _ _ 0%nat) by auto. reflexivity. }
    rewrite !E by lia.
    assert (SS : forall (q : list nat), StronglySorted Peano.le q -> forall a b, (a <= b < length q)%nat -> (nth a q 0 <= nth b q 0)%nat).
    { induction 1 as [|x q Hq IH Hx]; intros a b Hab; [cbn in Hab; lia|]. destruct a, b; try lia; cbn; [|apply IH; cbn in Hab; lia].
      rewrite Forall_forall in Hx. apply Hx, nth_In. cbn in Hab. lia. }
    apply SS; auto. rewrite map_length. lia.
Qed.
Print Assumptions C17_which_dimensions_are_split.

(** on [-1,1]^2 with two polynomials of 4 by 2 coefficients both sides are long, none is of low degree (4 and 8 against floor(12/3) = 4):
    both are chosen *)
Example C17_rule_case : let lo := fun _ : nat => -1 in let hi := fun _ : nat => 1 in let Ms := repeat (mkT [4; 2]%nat (repeat 1 8)) 2 in
  chosen 2 lo hi (sizeSum Ms) (sizeTotal 2 Ms) 0 0 /\ chosen 2 lo hi (sizeSum Ms) (sizeTotal 2 Ms) 0 1 /\ sizeTotal 2 Ms = 12%nat.
Proof.
  cbv zeta. assert (C : forall d, (d < 2)%nat -> considered 2 (fun _ => -1) (fun _ => 1) d).
  { intros d Hd. split; [auto|left]. unfold closedSide. rewrite Rabs_R1, Rabs_left by lra. lra. }
  assert (L : forall d, (d < 2)%nat -> longSide 2 (fun _ => -1) (fun _ => 1) d) by (intros d Hd; split; [auto|intros; lra]).
  split; [|split; [|reflexivity]]; right; (split; [lia|split; [apply L; lia|left]]); unfold lowDegree, sizeSum, sizeTotal; cbn; lia.
Qed.
