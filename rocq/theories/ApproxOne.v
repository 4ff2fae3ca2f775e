(** * One function of one variable given as a finite Chebyshev series: what chebApproximate computes (over R) *)
From Coq Require Import Reals List Lia Lra Arith ZArith Bool.
From Verif Require Import Num Tensor RSum Cheb PolySpec LinearModel SolverModel CombinedModel CombinedSpec ApproxModel ApproxDct ApproxInterp ApproxError ApproxDegree.
Import ListNotations.
Local Open Scope R_scope.

(** the series sum_i c_i T_{l_i}, given by the pairs (l_i, c_i) *)
Definition seriesAt (terms : list (nat * R)) (y : R) : R := Rsum (map (fun t => snd t * chebT (fst t) y) terms).
(** its coefficient k as seen from the grid of degree g *)
Definition seen (terms : list (nat * R)) (g k : nat) : R := Rsum (map (fun t => snd t * (if Nat.eqb k (alias g (fst t)) then 1 else 0)) terms).

Lemma Rsum_cons x l : Rsum (x :: l) = x + Rsum l. Proof. reflexivity. Qed.
Lemma sumn_Rsum {A} n (l : list A) (F : A -> nat -> R) : sumn n (fun j => Rsum (map (fun x => F x j) l)) = Rsum (map (fun x => sumn n (F x)) l).
Proof.
  induction l as [|x l IH]; [unfold Rsum; cbn; apply sumn_0|]. cbn [map]. rewrite Rsum_cons, <- IH, <- sumn_plus.
  apply sumn_ext. intros. reflexivity.
Qed.
Section One.
  Variables (f : fobj R) (a b : R) (terms : list (nat * R)).
  Hypothesis Hf : forall y, -1 <= y <= 1 -> callAt f (boxPoint [a] [b] [y]) = seriesAt terms y.

  Lemma cosR_range m n : -1 <= cosR m n <= 1. Proof. unfold cosR. apply COS_bound. Qed.
  Lemma cosR_last g : (1 <= g)%nat -> cosR g g = -1.
  Proof. intros Hg. unfold cosR. rewrite <- cos_PI. f_equal. field. apply not_0_INR. lia. Qed.
  Lemma one_get g k : (1 <= g)%nat -> (k <= g)%nat -> tget (fst (fst (intervalApproximate cosR f [g] [a] [b]))) [k] = seen terms g k.
  Proof.
    intros Hg Hk. pose proof (interval_coeffs f [g] [a] [b]) as H. destruct (intervalApproximate cosR f [g] [a] [b]) as [[c s] d].
    destruct H as (_ & _ & _ & H). cbn [fst]. rewrite H by (constructor; [simpl; lia|constructor]).
    assert (E : fixDegs [g] = [g]) by (unfold fixDegs; cbn [map]; destruct (Nat.eqb_spec g 0); [lia|reflexivity]). rewrite E.
    cbn [allOps]. unfold seen.
    rewrite (sumn_ext _ _ (fun j => Rsum (map (fun t => snd t * (imat g k j * chebT (fst t) (cosR j g))) terms))).
    - rewrite (sumn_Rsum (S g) terms (fun t j => snd t * (imat g k j * chebT (fst t) (cosR j g)))). apply Rsum_map_ext. intros t _.
      rewrite sumn_scal, imat_alias by auto. reflexivity.
    - intros j Hj. rewrite gridPoint_box. change (nodes [g] [j]) with [cosR j g]. rewrite Hf by apply cosR_range.
      unfold seriesAt. rewrite <- Rsum_map_scal. apply Rsum_map_ext. intros t _. ring.
  Qed.
  Lemma one_shp g : shp (fst (fst (intervalApproximate cosR f [g] [a] [b]))) = [S g]. Proof. reflexivity. Qed.
  Lemma one_tensor g : (1 <= g)%nat -> fst (fst (intervalApproximate cosR f [g] [a] [b])) = mkT [S g] (map (seen terms g) (seq 0 (S g))).
  Proof.
    intros Hg. unfold intervalApproximate. cbn [fst]. unfold tbuild at 1. cbn [map]. f_equal.
    assert (I : forall n, indices [n] = map (fun k => [k]) (seq 0 n)).
    { intros n. unfold indices. cbn. induction (seq 0 n); cbn; congruence. }
    rewrite I, map_map. apply map_ext_in. intros k Hk. apply in_seq in Hk.
    rewrite <- (one_get g k) by lia. unfold intervalApproximate. cbn [fst]. rewrite tget_tbuild; [reflexivity|]. constructor; [lia|constructor].
  Qed.
  Lemma one_chunk g : (1 <= g)%nat -> coeffChunk 0 (fst (fst (intervalApproximate cosR f [g] [a] [b]))) = map (fun k => Rabs (seen terms g k)) (seq 0 (S g)).
  Proof.
    intros Hg. unfold coeffChunk. rewrite one_shp. cbn [nth upd]. apply map_ext_in. intros k Hk. apply in_seq in Hk.
    change (indices [1%nat]) with [[0%nat]]. cbn [map upd]. rewrite one_get by lia. change (prodn [1%nat]) with 1%nat.
    rewrite nsum_R, nofnat_R. rewrite Rsum_cons. unfold Rsum. cbn [fold_right]. rnum. simpl (INR 1). field.
  Qed.
  Lemma one_degs g : (1 <= g)%nat -> snd (intervalApproximate cosR f [g] [a] [b]) = [g].
  Proof. intros Hg. unfold intervalApproximate. cbn [snd]. unfold fixDegs. cbn [map]. destruct (Nat.eqb_spec g 0); [lia|reflexivity]. Qed.
  (** the sup norm over the grid is at least |f(b)| and |f(a)| and at most any bound of |f| *)
  Lemma one_sup g s U : (1 <= g)%nat -> (s <= Rabs (seriesAt terms 1) \/ s <= Rabs (seriesAt terms (-1))) -> (forall y, -1 <= y <= 1 -> Rabs (seriesAt terms y) <= U) ->
    s <= snd (fst (intervalApproximate cosR f [g] [a] [b])) <= U.
  Proof.
    intros Hg Hs HU. unfold intervalApproximate. cbn [fst snd].
    assert (E : fixDegs [g] = [g]) by (unfold fixDegs; cbn [map]; destruct (Nat.eqb_spec g 0); [lia|reflexivity]). rewrite E.
    unfold gridValues. cbn [dat tbuild map].
    assert (V : forall j, callAt f (gridPoint cosR [g] [a] [b] [j]) = seriesAt terms (cosR j g)).
    { intros j. rewrite gridPoint_box. change (nodes [g] [j]) with [cosR j g]. apply Hf. apply cosR_range. }
    split.
    - destruct Hs as [Hs|Hs]; (eapply Rle_trans; [exact Hs|]); apply maxAbs_ge; apply in_map_iff.
      + exists [0%nat]. split; [rewrite V, cosR_0; reflexivity|]. apply in_indices. constructor; [lia|constructor].
      + exists [g]. split; [rewrite V, cosR_last by auto; reflexivity|]. apply in_indices. constructor; [lia|constructor].
    - destruct (Rle_dec (maxAbs (map (fun idx => callAt f (gridPoint cosR [g] [a] [b] idx)) (indices [S g]))) U) as [L|L]; auto. exfalso.
      assert (N : indices [S g] <> []) by (apply indices_nonempty; repeat constructor; lia).
      assert (forall v, In v (map (fun idx => callAt f (gridPoint cosR [g] [a] [b] idx)) (indices [S g])) -> Rabs v <= U).
      { intros v Hv. apply in_map_iff in Hv. destruct Hv as (idx & <- & Hi). apply in_indices in Hi.
        inversion Hi as [|k ? r ? Hk Hr]; subst. inversion Hr; subst. rewrite V. apply HU, cosR_range. }
      apply L. unfold maxAbs in *. rnum. destruct (map _ (indices [S g])) as [|x l] eqn:M; [apply map_eq_nil in M; contradiction|]. cbn [map].
      destruct (nmaxl_in (map Rabs l) (Rabs x)) as [Q|Q].
      + change (@nmaxl R R_num (Rabs x) (map Rabs l) <= U). rewrite Q. apply H. left; auto.
      + apply in_map_iff in Q. destruct Q as (v & Q & Hv). change (@nmaxl R R_num (Rabs x) (map Rabs l) <= U). rewrite <- Q. apply H. right; auto.
  Qed.
  (** the degree search ends in its first round *)
  Lemma one_loop fuel rel s U : 0 < rel -> 0 < s -> (s <= Rabs (seriesAt terms 1) \/ s <= Rabs (seriesAt terms (-1))) -> (forall y, -1 <= y <= 1 -> Rabs (seriesAt terms y) <= U) ->
    (forall k, (4 <= k <= 8)%nat -> Rabs (seen terms 8 k) < s * rel) ->
    (forall k, (k <= 17)%nat -> Rabs (seen terms 17 k - (if (k <=? 8)%nat then seen terms 8 k else 0)) < s * rel) ->
    exists tol, s * rel <= tol <= U * rel /\
      guessLoop cosR rootR (S fuel) f [a] [b] rel 0 0 [5%nat] 8 = Some (getFinalDegree rootR (map (fun k => Rabs (seen terms 17 k)) (seq 0 18)) tol).
  Proof.
    intros Hrel Hs0 Hs HU H8 H17. cbn [guessLoop upd].
    pose proof (one_chunk 8 ltac:(lia)) as C8. pose proof (one_degs 8 ltac:(lia)) as D8. pose proof (one_sup 8 s U ltac:(lia) Hs HU) as S8.
    pose proof (one_get 8) as G8. pose proof (one_shp 8) as Sh8.
    destruct (intervalApproximate cosR f [8%nat] [a] [b]) as [[c s1] d1]. cbn [fst snd] in C8, D8, S8, G8, Sh8. subst d1.
    rewrite C8.
    match goal with |- context [startedConverging ?u ?v] => assert (E1 : startedConverging u v = true) end.
    { apply started_iff. rewrite map_length, seq_length. intros i Hi.
      rewrite (nth_indep _ 0 ((fun k => Rabs (seen terms 8 k)) 0%nat)) by (rewrite map_length, seq_length; lia).
      rewrite (map_nth (fun k => Rabs (seen terms 8 k))), seq_nth by lia. rewrite Nat.add_0_l.
      eapply Rlt_le_trans; [apply H8; lia|]. rnum. nra. }
    rewrite E1. cbn [negb upd]. change (2 * 8 + 1)%nat with 17%nat.
    pose proof (one_chunk 17 ltac:(lia)) as C17. pose proof (one_sup 17 s U ltac:(lia) Hs HU) as S17.
    pose proof (one_get 17) as G17. pose proof (one_shp 17) as Sh17.
    destruct (intervalApproximate cosR f [17%nat] [a] [b]) as [[c2 s2] d2]. cbn [fst snd] in C17, S17, G17, Sh17.
    set (tol := nadd 0 (nmul (nmax s1 s2) rel)).
    assert (HT : s * rel <= tol <= U * rel).
    { unfold tol. rewrite nmax_Rmax. rnum. unfold Rmax. destruct (Rle_dec s1 s2); nra. }
    assert (E2 : hasConverged c c2 tol = true).
    { apply converged_iff; [rewrite Sh17; repeat constructor; lia|]. intros idx Hi. rewrite Sh17 in Hi.
      inversion Hi as [|k ? r ? Hk Hr]; subst. inversion Hr; subst.
      rewrite G17 by lia. unfold coefOr0. rewrite Sh8. cbn [PolyModel.inrangeb].
      eapply Rlt_le_trans; [|apply HT]. specialize (H17 k ltac:(lia)). rewrite andb_true_r.
      destruct (Nat.ltb_spec k 9); destruct (Nat.leb_spec k 8); try lia; [rewrite G8 by lia|]; auto. }
    rewrite E2. cbn [negb]. rewrite C17. exists tol. split; auto.
  Qed.
End One.

(** ** getFinalDegree on a list whose tail is negligible *)
Lemma final_exact coeff tol d ms : coeff <> [] -> (1 <= d < length coeff)%nat ->
  (forall i, (Nat.div (3 * (length coeff - 1)) 4 <= i < length coeff)%nat -> nth i coeff 0 <= / 4503599627370496) ->
  (exists i, (1 <= i < length coeff)%nat /\ tol <= nth i coeff 0) ->
  (d = 1%nat \/ / 2251799813685248 < nth d coeff 0) -> (forall i, (d < i < length coeff)%nat -> nth i coeff 0 <= / 2251799813685248) ->
  (ms < length coeff)%nat -> (forall i, (i < length coeff)%nat -> nth i coeff 0 <= nth ms coeff 0) -> (forall i, (i < ms)%nat -> nth i coeff 0 < nth ms coeff 0) ->
  getFinalDegree rootR coeff tol = (d, / 2251799813685248, rootR (nth ms coeff 0 * 2251799813685248) (Z.of_nat d - Z.of_nat ms + 1)).
Proof.
  intros Hne Hd Htail Htol Hbig Habove Hms Hmax Hfirst.
  assert (E1 : snd (fst (getFinalDegree rootR coeff tol)) = / 2251799813685248).
  { destruct (eps_attained coeff tol Hne) as [E|(i & Hi & E)]; rewrite E; [field|].
    pose proof (final_eps coeff tol) as F. rewrite E in F. specialize (Htail i Hi).
    pose proof (Rmax_l (/ 4503599627370496) (maxl (skipn (3 * (length coeff - 1) / 4) coeff))). replace (/ 2251799813685248) with (2 * / 4503599627370496) by field. lra. }
  assert (E2 : fst (fst (getFinalDegree rootR coeff tol)) = d).
  { pose proof (deg_zero coeff tol Hne) as Z. pose proof (deg_above coeff tol) as A. pose proof (deg_big coeff tol) as B. pose proof (deg_lt coeff tol Hne) as L.
    rewrite E1 in A, B. set (deg := fst (fst (getFinalDegree rootR coeff tol))) in *.
    assert (deg <> 0%nat). { intros Q. pose proof (proj1 Z Q) as Q'. destruct Htol as (i & Hi & Ht). specialize (Q' i Hi). lra. }
    destruct (Nat.lt_trichotomy deg d) as [H1|[H1|H1]]; auto; exfalso.
    - destruct Hbig as [->|Hb]; [lia|]. specialize (A d H ltac:(lia)). lra.
    - specialize (B ltac:(lia)). specialize (Habove deg ltac:(lia)). lra. }
  assert (E3 : argmax coeff = ms).
  { destruct (argmax_spec coeff Hne) as (P & M & F). destruct (Nat.lt_trichotomy (argmax coeff) ms) as [Q|[Q|Q]]; auto; exfalso.
    - specialize (M ms Hms). specialize (Hfirst _ Q). lra.
    - specialize (F ms Q). specialize (Hmax (argmax coeff) P). lra. }
  assert (R1 : snd (getFinalDegree rootR coeff tol) = rootR (nth (argmax coeff) coeff 0 / snd (fst (getFinalDegree rootR coeff tol))) (Z.of_nat (fst (fst (getFinalDegree rootR coeff tol))) - Z.of_nat (argmax coeff) + 1)) by reflexivity.
  rewrite E1, E2, E3 in R1. destruct (getFinalDegree rootR coeff tol) as [[dd ee] rr]. cbn [fst snd] in *. rewrite E1, E2, R1. f_equal. f_equal. field.
Qed.

(** ** a whole call on [a,b], in one variable *)
Lemma one_degrees_gen fuel h a b terms rel s U d ms : 
  (forall y, -1 <= y <= 1 -> h (boxPoint [a] [b] [y]) = seriesAt terms y) ->
  0 < rel -> 0 < s -> (s <= Rabs (seriesAt terms 1) \/ s <= Rabs (seriesAt terms (-1))) -> (forall y, -1 <= y <= 1 -> Rabs (seriesAt terms y) <= U) ->
  (forall k, (4 <= k <= 8)%nat -> Rabs (seen terms 8 k) < s * rel) ->
  (forall k, (k <= 17)%nat -> Rabs (seen terms 17 k - (if (k <=? 8)%nat then seen terms 8 k else 0)) < s * rel) ->
  checkConstantInDimension (Plain h) [a] [b] 0 rel 0 = false ->
  (1 <= d <= 17)%nat -> (ms <= 17)%nat ->
  (forall k, (12 <= k <= 17)%nat -> Rabs (seen terms 17 k) <= / 4503599627370496) ->
  (exists k, (1 <= k <= 17)%nat /\ U * rel <= Rabs (seen terms 17 k)) ->
  (d = 1%nat \/ / 2251799813685248 < Rabs (seen terms 17 d)) -> (forall k, (d < k <= 17)%nat -> Rabs (seen terms 17 k) <= / 2251799813685248) ->
  (forall k, (k <= 17)%nat -> Rabs (seen terms 17 k) <= Rabs (seen terms 17 ms)) -> (forall k, (k < ms)%nat -> Rabs (seen terms 17 k) < Rabs (seen terms 17 ms)) ->
  forall r, rootR (Rabs (seen terms 17 ms) * 2251799813685248) (Z.of_nat d - Z.of_nat ms + 1) = Some r -> r <> 1 ->
  getChebyshevDegrees cosR rootR (S fuel) (Plain h) [a] [b] rel 0 = Some ([d], [/ 2251799813685248], [Some r]).
Proof.
  intros Hf Hrel Hs0 Hs HU H8 H17 HC Hd Hms Htail Htol Hbig Habove Hmax Hfirst r Hr Hr1.
  destruct (one_loop (Plain h) a b terms Hf fuel rel s U Hrel Hs0 Hs HU H8 H17) as (tol & HT & E).
  assert (NTH : forall k, (k <= 17)%nat -> nth k (map (fun k => Rabs (seen terms 17 k)) (seq 0 18)) 0 = Rabs (seen terms 17 k)).
  { intros k Hk. rewrite (nth_indep _ 0 ((fun k => Rabs (seen terms 17 k)) 0%nat)) by (rewrite map_length, seq_length; lia).
    rewrite (map_nth (fun k => Rabs (seen terms 17 k))), seq_nth by lia. reflexivity. }
  rewrite (final_exact _ tol d ms) in E.
  2:{ discriminate. }
  all: rewrite ?map_length, ?seq_length.
  2:{ lia. }
  2:{ intros i Hi. change (3 * (18 - 1) / 4)%nat with 12%nat in Hi. rewrite NTH by lia. apply Htail. lia. }
  2:{ destruct Htol as (k & Hk & Ht). exists k. split; [lia|]. rewrite NTH by lia. lra. }
  2:{ rewrite NTH by lia. auto. }
  2:{ intros i Hi. rewrite NTH by lia. apply Habove. lia. }
  2:{ lia. }
  2:{ intros i Hi. rewrite !NTH by lia. apply Hmax; auto. lia. }
  2:{ intros i Hi. rewrite !NTH by lia. apply Hfirst; auto. }
  rewrite NTH in E by lia. rewrite Hr in E.
  unfold getChebyshevDegrees. cbn [length seq map]. rnum. rewrite HC. cbn [degreeLoop nth].
  change (startDegs [None]) with [5%nat]. rnum. rewrite E. cbn [upd map]. reflexivity.
Qed.
Lemma one_call_gen (acc : (list R -> R) -> nat -> bool) fuel h a b terms rel s U d ms : a <= b -> acc h 1%nat = true ->
  (forall y, -1 <= y <= 1 -> h (boxPoint [a] [b] [y]) = seriesAt terms y) ->
  0 < rel -> 0 < s -> (s <= Rabs (seriesAt terms 1) \/ s <= Rabs (seriesAt terms (-1))) -> (forall y, -1 <= y <= 1 -> Rabs (seriesAt terms y) <= U) ->
  (forall k, (4 <= k <= 8)%nat -> Rabs (seen terms 8 k) < s * rel) ->
  (forall k, (k <= 17)%nat -> Rabs (seen terms 17 k - (if (k <=? 8)%nat then seen terms 8 k else 0)) < s * rel) ->
  checkConstantInDimension (Plain h) [a] [b] 0 rel 0 = false ->
  (1 <= d <= 17)%nat -> (ms <= 17)%nat ->
  (forall k, (12 <= k <= 17)%nat -> Rabs (seen terms 17 k) <= / 4503599627370496) ->
  (exists k, (1 <= k <= 17)%nat /\ U * rel <= Rabs (seen terms 17 k)) ->
  (d = 1%nat \/ / 2251799813685248 < Rabs (seen terms 17 d)) -> (forall k, (d < k <= 17)%nat -> Rabs (seen terms 17 k) <= / 2251799813685248) ->
  (forall k, (k <= 17)%nat -> Rabs (seen terms 17 k) <= Rabs (seen terms 17 ms)) -> (forall k, (k < ms)%nat -> Rabs (seen terms 17 k) < Rabs (seen terms 17 ms)) ->
  forall r, rootR (Rabs (seen terms 17 ms) * 2251799813685248) (Z.of_nat d - Z.of_nat ms + 1) = Some r -> r <> 1 ->
  chebApproximate cosR rootR acc (S fuel) (Plain h) [a] [b] rel = AOk (mkT [S d] (map (seen terms d) (seq 0 (S d))), / 2251799813685248 / (r - 1)).
Proof.
  intros Hab Hacc Hf Hrel Hs0 Hs HU H8 H17 HC Hd Hms Htail Htol Hbig Habove Hmax Hfirst r Hr Hr1.
  pose proof (one_degrees_gen fuel h a b terms rel s U d ms Hf Hrel Hs0 Hs HU H8 H17 HC Hd Hms Htail Htol Hbig Habove Hmax Hfirst r Hr Hr1) as E.
  unfold chebApproximate. cbn [length Nat.eqb negb combine existsb fst snd]. rnum.
  assert (Q : Rltb b a = false) by (apply Rltb_false; lra).
  rewrite Q. cbn [orb arityOK]. rewrite Hacc. cbn [negb].
  change (@n0 R R_num) with 0. rewrite E. clear E.
  pose proof (one_tensor (Plain h) a b terms Hf d ltac:(lia)) as T. pose proof (one_degs (Plain h) a b d ltac:(lia)) as D.
  destruct (intervalApproximate cosR (Plain h) [d] [a] [b]) as [[c s'] d']. cbn [fst snd] in T, D. subst d' c.
  rewrite getApproxError_R; [|reflexivity|reflexivity|].
  - cbv beta iota. match goal with |- _ = AOk (_, ?v) => enough (EE : errorFormula [d] [/ 2251799813685248] [Some r] = v) by (rewrite EE; reflexivity) end.
    unfold errorFormula. cbn [length boolLists map app filter existsb orb eprod emax efac]. unfold Rsum. cbn [map fold_right].
    cbn [efac eprod emax]. rewrite Rmax_left by (left; apply Rinv_0_lt_compat; lra). field. lra.
  - repeat constructor. congruence.
Qed.

(** the same with |f(b)| as lower bound of the norm and a single largest coefficient *)
Lemma one_degrees fuel h a b terms rel s U d ms : 
  (forall y, -1 <= y <= 1 -> h (boxPoint [a] [b] [y]) = seriesAt terms y) ->
  0 < rel -> 0 < s -> s <= Rabs (seriesAt terms 1) -> (forall y, -1 <= y <= 1 -> Rabs (seriesAt terms y) <= U) ->
  (forall k, (4 <= k <= 8)%nat -> Rabs (seen terms 8 k) < s * rel) ->
  (forall k, (k <= 17)%nat -> Rabs (seen terms 17 k - (if (k <=? 8)%nat then seen terms 8 k else 0)) < s * rel) ->
  checkConstantInDimension (Plain h) [a] [b] 0 rel 0 = false ->
  (1 <= d <= 17)%nat -> (ms <= 17)%nat ->
  (forall k, (12 <= k <= 17)%nat -> Rabs (seen terms 17 k) <= / 4503599627370496) ->
  (exists k, (1 <= k <= 17)%nat /\ U * rel <= Rabs (seen terms 17 k)) ->
  (d = 1%nat \/ / 2251799813685248 < Rabs (seen terms 17 d)) -> (forall k, (d < k <= 17)%nat -> Rabs (seen terms 17 k) <= / 2251799813685248) ->
  (forall k, (k <= 17)%nat -> k <> ms -> Rabs (seen terms 17 k) < Rabs (seen terms 17 ms)) ->
  forall r, rootR (Rabs (seen terms 17 ms) * 2251799813685248) (Z.of_nat d - Z.of_nat ms + 1) = Some r -> r <> 1 ->
  getChebyshevDegrees cosR rootR (S fuel) (Plain h) [a] [b] rel 0 = Some ([d], [/ 2251799813685248], [Some r]).
Proof.
  intros Hf Hrel Hs0 Hs HU H8 H17 HC Hd Hms Htail Htol Hbig Habove Hmax r Hr Hr1.
  apply (one_degrees_gen fuel h a b terms rel s U d ms); auto; intros k Hk; [destruct (Nat.eq_dec k ms) as [->|Hne]; [lra|left; auto]|apply Hmax; lia].
Qed.
Lemma one_call (acc : (list R -> R) -> nat -> bool) fuel h a b terms rel s U d ms : a <= b -> acc h 1%nat = true ->
  (forall y, -1 <= y <= 1 -> h (boxPoint [a] [b] [y]) = seriesAt terms y) ->
  0 < rel -> 0 < s -> s <= Rabs (seriesAt terms 1) -> (forall y, -1 <= y <= 1 -> Rabs (seriesAt terms y) <= U) ->
  (forall k, (4 <= k <= 8)%nat -> Rabs (seen terms 8 k) < s * rel) ->
  (forall k, (k <= 17)%nat -> Rabs (seen terms 17 k - (if (k <=? 8)%nat then seen terms 8 k else 0)) < s * rel) ->
  checkConstantInDimension (Plain h) [a] [b] 0 rel 0 = false ->
  (1 <= d <= 17)%nat -> (ms <= 17)%nat ->
  (forall k, (12 <= k <= 17)%nat -> Rabs (seen terms 17 k) <= / 4503599627370496) ->
  (exists k, (1 <= k <= 17)%nat /\ U * rel <= Rabs (seen terms 17 k)) ->
  (d = 1%nat \/ / 2251799813685248 < Rabs (seen terms 17 d)) -> (forall k, (d < k <= 17)%nat -> Rabs (seen terms 17 k) <= / 2251799813685248) ->
  (forall k, (k <= 17)%nat -> k <> ms -> Rabs (seen terms 17 k) < Rabs (seen terms 17 ms)) ->
  forall r, rootR (Rabs (seen terms 17 ms) * 2251799813685248) (Z.of_nat d - Z.of_nat ms + 1) = Some r -> r <> 1 ->
  chebApproximate cosR rootR acc (S fuel) (Plain h) [a] [b] rel = AOk (mkT [S d] (map (seen terms d) (seq 0 (S d))), / 2251799813685248 / (r - 1)).
Proof.
  intros Hab Hacc Hf Hrel Hs0 Hs HU H8 H17 HC Hd Hms Htail Htol Hbig Habove Hmax r Hr Hr1.
  apply (one_call_gen acc fuel h a b terms rel s U d ms); auto; intros k Hk; [destruct (Nat.eq_dec k ms) as [->|Hne]; [lra|left; auto]|apply Hmax; lia].
Qed.
