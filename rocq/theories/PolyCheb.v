(** * Power to Chebyshev conversion is exact over the reals *)
From Coq Require Import Reals List Lia Lra Arith Bool.
From Verif Require Import Num RSum Cheb Tensor PolySpec TransformModel TransformNDProofs PolyModel PolyEval PolyArith.
Import ListNotations.
Local Open Scope R_scope.

(** ** The next row of the conversion table *)
Lemma fold_upd_evens (v : nat -> R) s c : forall B, (forall k, (k < c)%nat -> (s + 2 * k < length B)%nat) ->
  length (fold_left (fun B k => upd B (s + 2 * k)%nat (v k)) (seq 0 c) B) = length B /\
  forall j, nth j (fold_left (fun B k => upd B (s + 2 * k)%nat (v k)) (seq 0 c) B) 0 =
    if (Nat.leb s j && Nat.ltb j (s + 2 * c) && Nat.even (j - s))%bool then v ((j - s) / 2)%nat else nth j B 0.
Proof.
  induction c as [|c IH]; intros B HB.
  - cbn [seq fold_left]. split; auto. intros j. destruct (Nat.leb_spec s j); cbn [andb]; auto. destruct (Nat.ltb_spec j (s + 2 * 0)); cbn [andb]; auto. lia.
  - rewrite seq_S, fold_left_app. cbn [fold_left]. rewrite Nat.add_0_l. destruct (IH B) as [L N]; [intros; apply HB; lia|]. split; [rewrite upd_length; auto|].
    intros j. rewrite nth_upd by (rewrite L; apply HB; lia). destruct (Nat.eqb_spec j (s + 2 * c)) as [->|E].
    + destruct (Nat.leb_spec s (s + 2 * c)); [|lia]. destruct (Nat.ltb_spec (s + 2 * c) (s + 2 * S c)); [|lia]. cbn [andb].
      replace (s + 2 * c - s)%nat with (2 * c)%nat by lia. rewrite Nat.even_mul. cbn [Nat.even orb]. f_equal. rewrite Nat.mul_comm, Nat.div_mul; lia.
    + rewrite N. destruct (Nat.leb_spec s j); cbn [andb]; auto.
      destruct (Nat.ltb_spec j (s + 2 * c)), (Nat.ltb_spec j (s + 2 * S c)); cbn [andb]; auto; try lia.
      assert (j - s = 1 + 2 * c)%nat as -> by lia. rewrite Nat.even_add, Nat.even_mul. reflexivity.
Qed.
Lemma evens_length a b : length (evens a b) = ((b - a + 1) / 2)%nat.
Proof. unfold evens. rewrite map_length, seq_length. reflexivity. Qed.
Lemma combine_map2 {A B C} (f : A -> B) (h : A -> C) l : combine (map f l) (map h l) = map (fun a => (f a, h a)) l.
Proof. induction l; cbn; congruence. Qed.

Definition parityOK (As : list R) : Prop := forall i, (i < length As)%nat -> Nat.odd (length As - 1 - i) = true -> nth i As 0 = 0.

Lemma nth_out (l : list R) i : (length l <= i)%nat -> nth i l 0 = 0.
Proof. apply nth_overflow. Qed.
Lemma nth_repeat0 n i : nth i (repeat 0 n) 0 = 0.
Proof. revert i; induction n; intros [|i]; cbn; auto. Qed.
Lemma getNewAs_nth (As : list R) : (1 <= length As)%nat -> parityOK As ->
  length (@getNewAs R R_num As) = S (length As) /\
  forall j, (j <= length As)%nat -> nth j (@getNewAs R R_num As) 0 = shift2x (fun i => nth i As 0) j / 2.
Proof.
  intros H1 HP. unfold getNewAs. unfold parityOK in HP. remember (length As) as n eqn:Hn.
  destruct n as [|[|n']] eqn:En; [lia| |].
  - (* length 1 *)
    cbn. split; auto. unfold g. intros [|[|j]] Hj; cbn; [| |lia]; rewrite ?(nth_out As 1), ?(nth_out As 2) by lia; rnum; lra.
  - cbv zeta. rewrite <- En in HP, Hn |- *. assert (HA : forall i, Nat.odd (n - 1 - i) = true -> nth i As 0 = 0).
    { intros i Hi. destruct (Nat.lt_ge_cases i n); [apply HP; auto|apply nth_out; lia]. }
    rewrite !n2_R. change (@n0 R R_num) with 0. change (@ndiv R R_num) with Rdiv. change (@nadd R R_num) with Rplus. change (@g R R_num) with (fun l i => nth i l 0). cbv beta.
    set (B0 := if Nat.eqb (n mod 2) 0 then upd (repeat 0 (n + 1)) 0 (nth 1 As 0 / 2) else repeat 0 (n + 1)).
    assert (L0 : length B0 = (n + 1)%nat) by (unfold B0; destruct (Nat.eqb _ _); rewrite ?upd_length, repeat_length; auto).
    assert (N0 : forall j, nth j B0 0 = if (Nat.eqb j 0 && Nat.eqb (n mod 2) 0)%bool then nth 1 As 0 / 2 else 0).
    { intros j. unfold B0. destruct (Nat.eqb (n mod 2) 0).
      - rewrite nth_upd by (rewrite repeat_length; lia). destruct (Nat.eqb j 0); cbn [andb]; auto. apply nth_repeat0.
      - rewrite andb_false_r. apply nth_repeat0. }
    clearbody B0.
    set (B1 := upd B0 n (nth (n - 1) As 0 / 2)).
    assert (L1 : length B1 = (n + 1)%nat) by (unfold B1; rewrite upd_length; auto).
    assert (N1 : forall j, nth j B1 0 = if Nat.eqb j n then nth (n - 1) As 0 / 2 else nth j B0 0) by (intros; unfold B1; apply nth_upd; lia).
    clearbody B1.
    assert (Peven : Nat.eqb (n mod 2) 0 = Nat.even n).
    { destruct (Nat.even n) eqn:Ev; [apply Nat.eqb_eq; apply Nat.even_spec in Ev; destruct Ev as [q ->]; rewrite Nat.mul_comm, Nat.mod_mul; lia|].
      apply Nat.eqb_neq. intros K. assert (Nat.odd n = true) as Od by (rewrite <- Nat.negb_even, Ev; auto). apply Nat.odd_spec in Od. destruct Od as [q Hq].
      rewrite Hq, Nat.add_comm, Nat.mul_comm, Nat.mod_add in K by lia. cbn in K. lia. }
    destruct (Nat.eqb_spec n 2) as [E2|E2].
    { (* length 2 *)
      split; [rewrite upd_length; lia|]. intros j Hj. rewrite nth_upd by lia. rewrite N1, N0, Peven, E2.
      destruct j as [|[|[|j]]]; cbn [Nat.eqb andb Nat.even]; cbn [shift2x]; rewrite ?(nth_out As 2), ?(nth_out As 3) by lia; cbn [Nat.sub]; try lra. lia. }
    set (B2 := if Nat.eqb (n mod 2) 1 then upd B1 1 (nth 0 As 0 + nth 2 As 0 / 2) else B1).
    assert (P1 : Nat.eqb (n mod 2) 1 = Nat.odd n).
    { rewrite <- Nat.negb_even, <- Peven. pose proof (Nat.mod_upper_bound n 2 ltac:(lia)). destruct (n mod 2) as [|[|?]]; cbn; auto; lia. }
    assert (L2 : length B2 = (n + 1)%nat) by (unfold B2; destruct (Nat.eqb _ 1); rewrite ?upd_length; auto).
    assert (N2 : forall j, nth j B2 0 = if (Nat.eqb j 1 && Nat.odd n)%bool then nth 0 As 0 + nth 2 As 0 / 2 else nth j B1 0).
    { intros j. unfold B2. rewrite P1. destruct (Nat.odd n); [|rewrite andb_false_r; auto]. rewrite andb_true_r. apply nth_upd; lia. }
    clearbody B2.
    (* entries outside the middle *)
    assert (Spec : forall B, length B = S n ->
       (forall j, nth j B 0 = if (Nat.leb 2 j && Nat.ltb j (n - 1) && Nat.even (j + n))%bool then (nth (j - 1) As 0 + nth (j + 1) As 0) / 2 else nth j B2 0) ->
       forall j, (j <= n)%nat -> nth j B 0 = shift2x (fun i => nth i As 0) j / 2).
    { intros B LB NB j Hj. rewrite NB. destruct j as [|[|j]].
      - cbn [Nat.leb andb shift2x]. rewrite N2. cbn [Nat.eqb andb]. rewrite N1. destruct (Nat.eqb_spec 0 n); [lia|]. rewrite N0. cbn [Nat.eqb andb]. rewrite Peven.
        destruct (Nat.even n) eqn:Ev; auto. rewrite (HA 1%nat); [lra|]. replace (n - 1 - 1)%nat with (n - 2)%nat by lia.
        rewrite <- Nat.negb_even, Nat.even_sub by lia. cbn. rewrite Ev. reflexivity.
      - cbn [Nat.leb andb shift2x]. rewrite N2. cbn [Nat.eqb andb]. destruct (Nat.odd n) eqn:Od; [lra|]. rewrite N1. destruct (Nat.eqb_spec 1 n); [lia|]. rewrite N0. cbn [Nat.eqb andb].
        assert (Ev : Nat.even n = true) by (rewrite <- Nat.negb_odd, Od; auto).
        rewrite (HA 0%nat), (HA 2%nat); [lra| |]; rewrite <- Nat.negb_even.
        + replace (n - 1 - 2)%nat with (n - 3)%nat by lia. destruct (Nat.eq_dec n 3) as [e3|]; [rewrite e3 in Ev; discriminate|]. rewrite Nat.even_sub by lia. rewrite Ev. reflexivity.
        + rewrite Nat.sub_0_r, Nat.even_sub by lia. rewrite Ev. reflexivity.
      - cbn [Nat.leb andb shift2x]. replace (S (S j) - 1)%nat with (S j) by lia. replace (S (S j) + 1)%nat with (S (S (S j))) by lia.
        destruct (Nat.ltb_spec (S (S j)) (n - 1)) as [Lt|Ge]; cbn [andb].
        + destruct (Nat.even (S (S j) + n)) eqn:Ev; auto.
          rewrite N2. cbn [Nat.eqb andb]. rewrite N1. destruct (Nat.eqb_spec (S (S j)) n); [lia|]. rewrite N0. cbn [Nat.eqb andb].
          assert (Od : forall q, (q = S j \/ q = S (S (S j))) -> nth q As 0 = 0).
          { intros q Hq. apply HA. rewrite <- Nat.negb_even, !Nat.even_sub by lia. rewrite Nat.even_add in Ev. destruct Hq as [->| ->];
            change (Nat.even (S (S (S j)))) with (Nat.even (S j)); change (Nat.even (S (S j))) with (Nat.even j) in Ev; change (Nat.even 1) with false; rewrite (Nat.even_succ j), <- (Nat.negb_even j);
            destruct (Nat.even j), (Nat.even n); cbn in *; congruence. }
          rewrite !Od by auto. lra.
        + rewrite N2. cbn [Nat.eqb andb]. rewrite N1. destruct (Nat.eqb_spec (S (S j)) n) as [E|E].
          * replace (n - 1)%nat with (S j) by lia. rewrite (nth_out As (S (S (S j)))) by lia. lra.
          * rewrite N0. cbn [Nat.eqb andb]. assert (S (S j) = n - 1)%nat by lia.
            rewrite (nth_out As (S (S (S j)))) by lia. rewrite (HA (S j)); [lra|]. replace (n - 1 - S j)%nat with 1%nat by lia. reflexivity. }
    destruct (Nat.ltb_spec 3 n) as [L3|L3].
    + set (p := (n mod 2)%nat).
      set (c := ((n - 2 - p) / 2)%nat).
      assert (Ep : p = if Nat.even n then 0%nat else 1%nat).
      { unfold p. rewrite <- Peven. pose proof (Nat.mod_upper_bound n 2 ltac:(lia)). destruct (n mod 2) as [|[|?]]; cbn; auto; lia. }
      assert (EV : combine (evens (2 + p) (n - 1)) (map (fun v => (nth (fst v) As 0 + nth (snd v) As 0) / 2) (combine (evens (1 + p) (n - 2)) (evens (3 + p) n)))
                 = map (fun k => ((2 + p + 2 * k)%nat, (nth (1 + p + 2 * k) As 0 + nth (3 + p + 2 * k) As 0) / 2)) (seq 0 c)).
      { unfold evens. assert (p <= 1)%nat by (rewrite Ep; destruct (Nat.even n); lia).
        replace ((n - 1 - (2 + p) + 1) / 2)%nat with c by (unfold c; f_equal; lia).
        replace ((n - 2 - (1 + p) + 1) / 2)%nat with c by (unfold c; f_equal; lia).
        replace ((n - (3 + p) + 1) / 2)%nat with c by (unfold c; f_equal; lia).
        rewrite combine_map2, map_map, combine_map2. reflexivity. }
      rewrite EV. clear EV.
      assert (EF : forall B l, fold_left (fun B v => upd B (fst v) (snd v)) (map (fun k => ((2 + p + 2 * k)%nat, (nth (1 + p + 2 * k) As 0 + nth (3 + p + 2 * k) As 0) / 2)) l) B
                 = fold_left (fun B k => upd B ((2 + p) + 2 * k)%nat ((nth (1 + p + 2 * k) As 0 + nth (3 + p + 2 * k) As 0) / 2)) l B).
      { intros B l. revert B. induction l; intros; cbn; auto. }
      rewrite EF.
      assert (Hc : (n - 2 - p = 2 * c)%nat).
      { unfold c. rewrite Ep. destruct (Nat.even n) eqn:Ev.
        - apply Nat.even_spec in Ev. destruct Ev as [q ->]. replace (2 * q - 2 - 0)%nat with ((q - 1) * 2)%nat by lia. rewrite Nat.div_mul; lia.
        - assert (Od : Nat.odd n = true) by (rewrite <- Nat.negb_even, Ev; auto). apply Nat.odd_spec in Od. destruct Od as [q ->].
          replace (2 * q + 1 - 2 - 1)%nat with ((q - 1) * 2)%nat by lia. rewrite Nat.div_mul; lia. }
      destruct (fold_upd_evens (fun k => (nth (1 + p + 2 * k) As 0 + nth (3 + p + 2 * k) As 0) / 2) (2 + p) c B2) as [LF NF]; [intros; lia|].
      split; [lia|]. apply Spec; [lia|]. intros j. rewrite NF.
      assert (Epp : (p <= 1)%nat) by (rewrite Ep; destruct (Nat.even n); lia).
      destruct (Nat.leb_spec (2 + p) j) as [A|A].
      * assert (Bj : Nat.leb 2 j = true) by (apply Nat.leb_le; lia). rewrite Bj. cbn [andb].
        destruct (Nat.ltb_spec j (2 + p + 2 * c)), (Nat.ltb_spec j (n - 1)); cbn [andb]; try lia; auto.
        -- assert (Epar : Nat.even (j - (2 + p)) = Nat.even (j + n)).
           { rewrite Nat.even_sub, !Nat.even_add by lia. rewrite Ep. destruct (Nat.even n), (Nat.even j); reflexivity. }
           rewrite Epar. destruct (Nat.even (j + n)) eqn:Ev; auto.
           apply Nat.even_spec in Epar. destruct Epar as [q Hq]. rewrite Hq. rewrite (Nat.mul_comm 2 q), Nat.div_mul by lia.
           do 3 f_equal; lia.
        -- assert (Ej : j = (n - 1)%nat) by lia. assert (Epar : Nat.even (j - (2 + p)) = false); [|rewrite Epar; reflexivity].
           rewrite Ej, !Nat.even_sub by lia. rewrite Nat.even_add, Ep. destruct (Nat.even n); reflexivity.
      * cbn [andb]. destruct (Nat.leb_spec 2 j); cbn [andb]; auto. assert (p = 1%nat /\ j = 2%nat) as [Ep1 ->] by lia.
        assert (Ev : Nat.even n = false) by (destruct (Nat.even n); auto; lia).
        rewrite Nat.even_add, Ev. cbn. rewrite andb_false_r. reflexivity.
    + assert (n = 3)%nat by lia. split; [lia|]. apply Spec; [lia|]. intros j.
      destruct (Nat.leb_spec 2 j), (Nat.ltb_spec j (n - 1)); cbn [andb]; auto; lia.
Qed.

(** the row of x^n: its value and the zeros it contains *)
Definition rowOf (n : nat) (As : list R) : Prop := length As = S n /\ parityOK As /\ forall x, eval1 chebT As x = x ^ n.
Lemma eval1_extend phi c x m : (length c <= m)%nat -> eval1 phi c x = sumn m (fun i => nth i c 0 * phi i x).
Proof. intros H. unfold eval1. symmetry. apply sumn_extend; auto. intros i Hi. rewrite nth_overflow by lia. ring. Qed.
Lemma getNewAs_row n As : rowOf n As -> rowOf (S n) (@getNewAs R R_num As).
Proof.
  intros (L & P & E). destruct (getNewAs_nth As ltac:(lia) P) as [L' N]. repeat split.
  - lia.
  - intros i Hi Ho. rewrite N by lia. rewrite L', L in Ho. replace (S (S n) - 1 - i)%nat with (S n - i)%nat in Ho by lia.
    assert (Z : forall q, (q < S n)%nat -> Nat.odd (n - q) = true -> nth q As 0 = 0).
    { intros q Hq Hodd. apply P; [lia|]. rewrite L. replace (S n - 1 - q)%nat with (n - q)%nat by lia. auto. }
    destruct i as [|[|i]]; cbn [shift2x].
    + destruct n; [rewrite nth_out by lia; lra|]. rewrite (Z 1%nat); [lra|lia|]. replace (S n - 1)%nat with n by lia. exact Ho.
    + replace (S n - 1)%nat with n in Ho by lia. rewrite (Z O); [|lia|rewrite Nat.sub_0_r; exact Ho].
      destruct (Nat.lt_ge_cases 2 (S n)); [|rewrite (nth_out As 2) by lia; lra]. rewrite (Z 2%nat); [lra|lia|].
      rewrite <- Nat.negb_even, Nat.even_sub, <- (Nat.negb_odd n), Ho by lia. reflexivity.
    + assert (HQ : forall q, q = S i \/ q = S (S (S i)) -> nth q As 0 = 0).
      { intros q Hq. destruct (Nat.lt_ge_cases q (S n)); [|apply nth_out; lia]. apply Z; auto.
        destruct Hq as [-> | ->].
        - replace (n - S i)%nat with (S n - S (S i))%nat by lia. exact Ho.
        - replace (S n - S (S i))%nat with (S (S (n - S (S (S i))))) in Ho by lia. exact Ho. }
      rewrite !HQ by auto. lra.
  - intros x. rewrite (eval1_extend _ _ _ (S (S n))) by lia.
    rewrite (sumn_ext _ _ (fun i => / 2 * (shift2x (fun i => nth i As 0) i * chebT i x))) by (intros; rewrite N by lia; lra).
    rewrite sumn_scal, sum_shift2x, !(nth_out As) by lia. rewrite <- (eval1_extend chebT As x (S (S n))) by lia. rewrite E. cbn [pow]. lra.
Qed.
Lemma row0 : rowOf 0 (@getNewAs R R_num []).
Proof.
  repeat split; auto.
  - intros i Hi Ho. cbn in Hi. assert (i = 0%nat) by lia. subst. cbn in Ho. discriminate.
  - intros x. unfold eval1. cbn. lra.
Qed.

(** ** One axis *)
Lemma nth_map_seq (f : nat -> R) n k : (k < n)%nat -> nth k (map f (seq 0 n)) 0 = f k.
Proof. intros H. rewrite (nth_indep _ 0 (f O)) by (rewrite map_length, seq_length; auto). rewrite map_nth, seq_nth; auto. Qed.
Definition rowBefore (n : nat) (As : list R) : Prop := match n with O => As = [] | S m => rowOf m As end.
Lemma toCheb1D_loop N : forall post pre As out, (length pre + length post = N)%nat -> rowBefore (length pre) As -> length out = N ->
  (forall x, eval1 chebT out x = eval1 pw pre x) ->
  let r := snd (fold_left (fun st c =>
           let As := @getNewAs R R_num (fst st) in
           (As, map (fun k => if Nat.ltb k (length As) then g (snd st) k + g As k * c else g (snd st) k) (seq 0 N))) post (As, out)) in
  length r = N /\ forall x, eval1 chebT r x = eval1 pw (pre ++ post) x.
Proof.
  induction post as [|c post IH]; intros pre As out HN HA HL HE.
  - cbn. rewrite app_nil_r. auto.
  - cbn [fold_left]. cbn [fst snd]. cbv zeta.
    assert (Row : rowOf (length pre) (@getNewAs R R_num As)).
    { destruct pre; cbn in HA |- *; [subst; apply row0|apply getNewAs_row; exact HA]. }
    replace (pre ++ c :: post) with ((pre ++ [c]) ++ post) by (rewrite <- app_assoc; reflexivity).
    apply IH.
    + rewrite app_length. cbn in HN |- *. lia.
    + rewrite app_length. cbn. rewrite Nat.add_1_r. exact Row.
    + rewrite map_length, seq_length. auto.
    + intros x. destruct Row as (RL & _ & RE). cbn [length] in HN.
      unfold eval1 at 1. rewrite map_length, seq_length.
      rewrite (sumn_ext _ _ (fun k => nth k out 0 * chebT k x + c * (nth k (@getNewAs R R_num As) 0 * chebT k x))).
      * rewrite sumn_plus, sumn_scal. rewrite <- (eval1_extend chebT (getNewAs As)) by lia. rewrite RE.
        rewrite <- HL at 1. change (sumn (length out) (fun i => nth i out 0 * chebT i x)) with (eval1 chebT out x). rewrite HE.
        unfold eval1. rewrite app_length. cbn [length]. rewrite Nat.add_1_r. cbn [sumn]. rewrite app_nth2, Nat.sub_diag by lia. cbn [nth].
        rewrite (sumn_ext (length pre) (fun i => nth i (pre ++ [c]) 0 * pw i x) (fun i => nth i pre 0 * pw i x)) by (intros; rewrite app_nth1 by auto; reflexivity).
        unfold pw at 3. lra.
      * intros k Hk. rewrite nth_map_seq by auto. unfold g. rnum. destruct (Nat.ltb_spec k (length (@getNewAs R R_num As))); [ring|].
        rewrite (nth_overflow (getNewAs As)) by auto. ring.
Qed.
Lemma eval1_zeros phi n x : eval1 phi (repeat 0 n) x = 0.
Proof. unfold eval1. apply sumn_zero. intros. rewrite nth_repeat0. ring. Qed.
Lemma toCheb1D_ok c : length (@toCheb1D R R_num c) = length c /\ forall x, eval1 chebT (@toCheb1D R R_num c) x = eval1 pw c x.
Proof.
  apply (toCheb1D_loop (length c) c [] [] (repeat 0 (length c))); auto.
  - cbn. auto.
  - apply repeat_length.
  - intros x. rewrite eval1_zeros. reflexivity.
Qed.
Lemma toCheb1D_uniform : uniform (@toCheb1D R R_num).
Proof. intros c1 c2 H. rewrite !(proj1 (toCheb1D_ok _)). auto. Qed.

(** ** Mixed bases: a basis function per axis *)
Fixpoint basisL (phis : list (nat -> R -> R)) (idx : list nat) (x : list R) : R :=
  match phis, idx, x with
  | phi :: phis', i :: idx', v :: x' => phi i v * basisL phis' idx' x'
  | _, _, _ => 1
  end.
Definition evalL (phis : list (nat -> R -> R)) (t : tensor R) (x : list R) : R := sumidx (shp t) (fun idx => tget t idx * basisL phis idx x).
Definition phi1 : nat -> R -> R := fun _ _ => 1.
Lemma basisL_axis phis : forall idx x d, (d < length phis)%nat -> length idx = length phis -> length x = length phis ->
  basisL phis idx x = nth d phis phi1 (nth d idx 0%nat) (nth d x 0) * basisL (upd phis d phi1) idx x.
Proof.
  induction phis as [|phi phis IH]; intros [|i idx] [|v x] [|d] Hd L1 L2; cbn in *; try lia; try discriminate.
  - unfold phi1. ring.
  - rewrite (IH idx x d) by lia. ring.
Qed.
Lemma basisL_one phis : forall idx x d k, nth d phis phi1 = phi1 -> basisL phis (upd idx d k) x = basisL phis idx x.
Proof.
  induction phis as [|phi phis IH]; intros [|i idx] [|v x] [|d] k E; cbn in *; auto.
  - rewrite E. reflexivity.
  - rewrite IH; auto.
Qed.
Lemma evalL_axis phis (t : tensor R) x d : (d < ndim t)%nat -> length phis = ndim t -> length x = ndim t ->
  evalL phis t x = sumidx (upd (shp t) d 1%nat) (fun r => eval1 (nth d phis phi1) (@fibre R R_num t d r) (nth d x 0) * basisL (upd phis d phi1) r x).
Proof.
  intros Hd Lp Lx. unfold evalL. rewrite (sumidx_axis _ d) by auto. apply sumidx_ext. intros r Hr.
  apply inrange_length in Hr. rewrite upd_length in Hr. unfold ndim in *.
  unfold eval1. rewrite fibre_length, <- sumn_scal_r. apply sumn_ext. intros k Hk.
  change 0 with (@n0 R R_num) at 1. rewrite fibre_nth by auto.
  rewrite (basisL_axis phis _ x d) by (rewrite ?upd_length; lia). rewrite nth_upd_eq by lia.
  rewrite basisL_one by (rewrite nth_upd_eq by lia; reflexivity). rnum. ring.
Qed.
Lemma upd_upd' {A} (l : list A) i u v : upd (upd l i u) i v = upd l i v. Proof. apply upd_upd. Qed.

(** converting one axis changes the basis of that axis from powers to Chebyshev polynomials *)
Lemma apply_axis_basis F phi psi phis d (t : tensor R) x : uniform F -> wf t -> (d < ndim t)%nat -> length phis = ndim t -> length x = ndim t ->
  (forall c, length (F c) = length c /\ forall v, eval1 psi (F c) v = eval1 phi c v) ->
  wf (apply_axis F d t) /\ shp (apply_axis F d t) = shp t /\ evalL (upd phis d psi) (apply_axis F d t) x = evalL (upd phis d phi) t x.
Proof.
  intros HU W Hd Lp Lx HF.
  assert (Sh : shp (apply_axis F d t) = shp t).
  { unfold apply_axis. rewrite shp_tbuild. rewrite (proj1 (HF _)), fibre_length. apply upd_nth. }
  assert (Wf : wf (apply_axis F d t)).
  { apply wf_tbuild. rewrite (proj1 (HF _)), fibre_length, upd_nth. apply W. }
  split; [exact Wf|]. split; [exact Sh|].
  rewrite (evalL_axis (upd phis d psi) _ x d), (evalL_axis (upd phis d phi) t x d); unfold ndim in *; rewrite ?Sh, ?upd_length; auto.
  rewrite !upd_upd', !nth_upd_eq by lia. apply sumidx_ext. intros r Hr. rewrite fibre_apply_axis by auto. rewrite (proj2 (HF _)). reflexivity.
Qed.

(** ** All axes *)
Lemma toChebND_axis (t : tensor R) d : (d < ndim t)%nat -> @toChebND R R_num t d = apply_axis (@toCheb1D R R_num) d t.
Proof. intros Hd. unfold toChebND. apply (transform_axis (@toCheb1D R R_num) d t); auto. apply toCheb1D_uniform. Qed.
Lemma basisL_repeat phi n : forall idx x, length idx = n -> basisL (repeat phi n) idx x = basis phi idx x.
Proof.
  induction n; intros [|i idx] x L; try discriminate; auto. cbn [repeat]. destruct x as [|v x]; [reflexivity|].
  cbn [basis basisL]. rewrite IHn by (cbn in L; lia). reflexivity.
Qed.
Lemma evalL_repeat phi (t : tensor R) x : evalL (repeat phi (ndim t)) t x = evalT phi t x.
Proof. unfold evalL, evalT. apply sumidx_ext. intros idx Hi. apply inrange_length in Hi. rewrite basisL_repeat; auto. Qed.
Lemma upd_app_mid {A} (l1 l2 : list A) a b : upd (l1 ++ a :: l2) (length l1) b = l1 ++ b :: l2.
Proof. induction l1; cbn; congruence. Qed.
Lemma upd_repeat_mid {A} (c a b : A) k l : upd (repeat c k ++ a :: l) k b = repeat c k ++ b :: l.
Proof. induction k; cbn; congruence. Qed.
Lemma toCheb_loop m : forall k (t : tensor R) x, wf t -> (k + m = ndim t)%nat -> length x = ndim t ->
  let r := fold_left (@toChebND R R_num) (seq k m) t in
  wf r /\ shp r = shp t /\ evalL (repeat chebT (k + m)) r x = evalL (repeat chebT k ++ repeat pw m) t x.
Proof.
  induction m as [|m IH]; intros k t x W K Lx; cbv zeta.
  - cbn. rewrite app_nil_r, Nat.add_0_r. auto.
  - cbn [seq fold_left]. rewrite toChebND_axis by lia.
    destruct (apply_axis_basis (@toCheb1D R R_num) pw chebT (repeat chebT k ++ chebT :: repeat pw m) k t x toCheb1D_uniform W ltac:(lia)) as (W' & S' & E'); auto.
    { rewrite app_length. cbn [length]. rewrite !repeat_length. lia. }
    { apply toCheb1D_ok. }
    rewrite !upd_repeat_mid in E'.
    destruct (IH (S k) (apply_axis (@toCheb1D R R_num) k t) x) as (A & B & C); auto.
    { unfold ndim in *. rewrite S'. lia. }
    { unfold ndim in *. rewrite S'. lia. }
    split; [exact A|]. split; [rewrite B; exact S'|].
    replace (k + S m)%nat with (S k + m)%nat by lia. rewrite C.
    replace (repeat chebT (S k) ++ repeat pw m) with (repeat chebT k ++ chebT :: repeat pw m); [exact E'|].
    clear. induction k; [reflexivity|]; cbn [repeat app] in *; rewrite IHk; reflexivity.
Qed.
Lemma toCheb_ok (t : tensor R) x : wf t -> length x = ndim t ->
  wf (@toCheb R R_num t) /\ shp (@toCheb R R_num t) = shp t /\ evalT chebT (@toCheb R R_num t) x = evalT pw t x.
Proof.
  intros W Lx. destruct (toCheb_loop (ndim t) 0 t x W eq_refl Lx) as (A & B & C).
  split; [exact A|]. split; [exact B|]. cbn [repeat app] in C. rewrite Nat.add_0_l in C.
  assert (E : ndim (@toCheb R R_num t) = ndim t) by (unfold ndim, toCheb; rewrite B; reflexivity).
  rewrite <- (evalL_repeat pw), <- (evalL_repeat chebT), E. exact C.
Qed.
