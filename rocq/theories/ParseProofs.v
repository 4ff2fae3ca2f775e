(** * Specification and lemmas for makePolyCoeffMatrix (C90) *)
From Coq Require Import Ascii String.
From Coq Require Import List Arith Bool ZArith Lia.
From Verif Require Import Num Tensor ParseModel.
Import ListNotations.
Local Open Scope list_scope.

(** ** Specification: the documented syntax *)
(** the number written by a string of decimal digits *)
Definition digitVal (c : ascii) : nat := nat_of_ascii c - 48.
Definition isDigit (c : ascii) : Prop := 48 <= nat_of_ascii c <= 57.
Definition numeral (s : str) : Prop := s <> [] /\ Forall isDigit s.
Definition numVal (s : str) : nat := fold_left (fun acc c => 10 * acc + digitVal c) s 0.
(** the coefficient of a monomial: left out, a minus sign alone, or a number *)
Inductive coefText := NoCoef | MinusSign | Literal (s : str).
(** 3x0^2*x1 : the factors are pairs of the number of the variable and the power, which may be left out *)
Record term := Term { tcoef : coefText; tvars : list (str * option str) }.
Definition factorText (f : str * option str) : str := "x"%char :: fst f ++ match snd f with None => [] | Some p => "^"%char :: p end.
Fixpoint join (sep : ascii) (l : list str) : str := match l with [] => [] | [a] => a | a :: l' => a ++ sep :: join sep l' end.
Definition termText (t : term) : str := match tcoef t with NoCoef => [] | MinusSign => ["-"%char] | Literal s => s end ++ join "*" (map factorText (tvars t)).
Definition polyText (ts : list term) : str := join "+" (map termText ts).
Definition powerVal (p : option str) : nat := match p with None => 1 | Some s => numVal s end.
(** the power of variable k in a term; of a variable written twice the last power counts *)
Definition expOf (t : term) (k : nat) : nat := fold_left (fun acc f => if numVal (fst f) =? k then powerVal (snd f) else acc) (tvars t) 0.
(** one more than the largest number of a variable, and at least 1 *)
Definition termVars (t : term) : nat := fold_left (fun acc f => Nat.max acc (numVal (fst f) + 1)) (tvars t) 1.
Definition polyVars (ts : list term) : nat := fold_left Nat.max (map termVars ts) 0.
Definition written {T} (pyFloat : str -> option T) (t : term) : Prop :=
  Forall (fun f => numeral (fst f) /\ match snd f with None => True | Some p => numeral p end) (tvars t) /\
  match tcoef t with Literal s => s <> [] /\ s <> ["-"%char] /\ ~ In "x"%char s /\ ~ In "+"%char s /\ pyFloat s <> None | _ => True end.
Definition coefVal {T} {NT : Num T} (pyFloat : str -> option T) (t : term) : T :=
  match tcoef t with NoCoef => n1 | MinusSign => nopp n1 | Literal s => match pyFloat s with Some v => v | None => n0 end end.

(** ** Strings *)
Lemma split_none sep a : ~ In sep a -> split sep a = [a].
Proof.
  induction a as [|c a IH]; intros H; [reflexivity|]. cbn [split]. destruct (Ascii.eqb_spec c sep) as [->|N]; [exfalso; apply H; left; auto|].
  rewrite IH; auto. intros X. apply H. right; auto.
Qed.
Lemma split_one sep a b : ~ In sep a -> split sep (a ++ sep :: b) = a :: split sep b.
Proof.
  induction a as [|c a IH]; intros H; cbn [split app]; [rewrite Ascii.eqb_refl; auto|]. destruct (Ascii.eqb_spec c sep) as [->|N]; [exfalso; apply H; left; auto|].
  rewrite IH; auto. intros X. apply H. right; auto.
Qed.
Lemma split_join sep l : l <> [] -> Forall (fun a => ~ In sep a) l -> split sep (join sep l) = l.
Proof.
  induction l as [|a l IH]; intros H F; [congruence|]. inversion F; subst. destruct l as [|b l]; [apply split_none; auto|].
  cbn [join]. rewrite split_one by auto. f_equal. apply IH; auto. discriminate.
Qed.
Lemma join_in sep l c : In c (join sep l) -> c = sep \/ exists a, In a l /\ In c a.
Proof.
  induction l as [|a l IH]; intros H; [destruct H|]. destruct l as [|b l]; [right; exists a; split; auto; left; auto|].
  cbn [join] in H. apply in_app_or in H. destruct H as [H|[H|H]]; [right; exists a; split; auto; left; auto|auto|].
  destruct (IH H) as [E|(a' & A & B)]; auto. right. exists a'. split; auto. right; auto.
Qed.
Lemma first_x_ok c r : ~ In "x"%char c -> (r = [] \/ exists r', r = "x"%char :: r') -> first_x (c ++ r) = length c.
Proof.
  induction c as [|a c IH]; intros H D; cbn [app first_x length].
  - destruct D as [->|[r' ->]]; reflexivity.
  - destruct (Ascii.eqb_spec a "x") as [->|N]; [exfalso; apply H; left; auto|]. rewrite IH; auto. intros X. apply H. right; auto.
Qed.
(** ** Numbers *)
Lemma digit_ok c : isDigit c -> digit c = Some (Z.of_nat (digitVal c)).
Proof. intros [A B]. unfold digit, digitVal. destruct (Nat.leb_spec 48 (nat_of_ascii c)); [|lia]. destruct (Nat.leb_spec (nat_of_ascii c) 57); [reflexivity|lia]. Qed.
Lemma digit_not_blank c : isDigit c -> isBlank c = false.
Proof. intros [A B]. unfold isBlank. repeat match goal with |- context [?a =? ?b] => destruct (Nat.eqb_spec a b); try lia | |- context [?a <=? ?b] => destruct (Nat.leb_spec a b); try lia end; reflexivity. Qed.
Lemma digit_neq c d : isDigit c -> nat_of_ascii d < 48 \/ 57 < nat_of_ascii d -> c <> d.
Proof. intros [A B] H ->. lia. Qed.
Lemma lstrip_digits s : Forall isDigit s -> lstrip s = s.
Proof. intros F. destruct F as [|c s H F]; [reflexivity|]. cbn [lstrip]. rewrite digit_not_blank; auto. Qed.
Lemma strip_digits s : Forall isDigit s -> strip s = s.
Proof. intros F. unfold strip. rewrite (lstrip_digits s) by auto. rewrite lstrip_digits by (apply Forall_rev; auto). apply rev_involutive. Qed.
Lemma intDigits_ok s : Forall isDigit s -> forall acc, intDigits (Z.of_nat acc) s = Some (Z.of_nat (fold_left (fun a c => 10 * a + digitVal c) s acc)).
Proof.
  induction 1 as [|c s H F IH]; intros acc; [reflexivity|]. cbn [intDigits fold_left]. rewrite digit_ok by auto. rewrite <- IH. f_equal. lia.
Qed.
Lemma pyInt_ok s : numeral s -> pyInt s = Some (Z.of_nat (numVal s)).
Proof.
  intros [N F]. unfold pyInt. rewrite strip_digits by auto. destruct F as [|c s H F]; [congruence|].
  destruct (Ascii.eqb_spec c "-") as [E|_]; [exfalso; revert E; apply digit_neq; auto; cbn; lia|].
  destruct (Ascii.eqb_spec c "+") as [E|_]; [exfalso; revert E; apply digit_neq; auto; cbn; lia|].
  cbn [intUnsigned]. rewrite digit_ok by auto. rewrite intDigits_ok by auto. unfold numVal. cbn [fold_left]. do 3 f_equal.
Qed.
Lemma digits_free s d : Forall isDigit s -> nat_of_ascii d < 48 \/ 57 < nat_of_ascii d -> ~ In d s.
Proof. intros F H X. rewrite Forall_forall in F. specialize (F d X). red in F. lia. Qed.

(** ** Exponents *)
Definition spotOf (n : nat) (e : nat -> nat) : list Z := map (fun k => Z.of_nat (e k)) (seq 0 n).
Lemma spot_length n e : length (spotOf n e) = n.
Proof. unfold spotOf. rewrite map_length, seq_length. auto. Qed.
Lemma spot_nth n e k d : k < n -> nth k (spotOf n e) d = Z.of_nat (e k).
Proof. intros H. unfold spotOf. rewrite (nth_indep _ d (Z.of_nat (e 0))) by (rewrite map_length, seq_length; auto). rewrite (map_nth (fun k => Z.of_nat (e k))), seq_nth by auto. auto. Qed.
Lemma spot_pad n m e : n <= m -> (forall k, n <= k -> e k = 0) -> padTo (spotOf n e) m = spotOf m e.
Proof.
  intros H Z. apply (nth_ext _ _ 0%Z 0%Z); unfold padTo; rewrite app_length, repeat_length, !spot_length; [lia|]. intros k Hk.
  destruct (Nat.lt_ge_cases k n).
  - rewrite app_nth1 by (rewrite spot_length; auto). rewrite !spot_nth by lia. auto.
  - rewrite app_nth2 by (rewrite spot_length; auto). rewrite spot_nth by lia. rewrite Z by auto.
    destruct (Nat.lt_ge_cases (k - length (spotOf n e)) (m - n)); [rewrite nth_repeat; reflexivity|rewrite nth_overflow by (rewrite repeat_length; auto); reflexivity].
Qed.
Lemma spot_upd n e v p : v < n -> upd (spotOf n e) v (Z.of_nat p) = spotOf n (fun k => if v =? k then p else e k).
Proof.
  intros H. apply (nth_ext _ _ 0%Z 0%Z); rewrite upd_length, !spot_length; auto. intros k Hk. rewrite spot_nth by auto. rewrite nth_upd by (rewrite spot_length; auto).
  destruct (Nat.eqb_spec v k); repeat match goal with |- context [?a =? ?b] => destruct (Nat.eqb_spec a b); try lia end; auto. rewrite spot_nth by auto. auto.
Qed.
Lemma subscript_ok k n : k < n -> subscript (Z.of_nat k) n = Some k.
Proof.
  intros H. unfold subscript. destruct (Z.ltb_spec (Z.of_nat k) 0); [lia|]. destruct (Z.leb_spec 0 (Z.of_nat k)); [|lia]. destruct (Z.ltb_spec (Z.of_nat k) (Z.of_nat n)); [|lia].
  cbn [andb]. rewrite Nat2Z.id. auto.
Qed.
Lemma factor_ok f n e : numeral (fst f) -> match snd f with None => True | Some p => numeral p end -> 1 <= n -> (forall k, n <= k -> e k = 0) ->
  factor (factorText f) (spotOf n e) = POk (spotOf (Nat.max n (numVal (fst f) + 1)) (fun k => if numVal (fst f) =? k then powerVal (snd f) else e k)).
Proof.
  destruct f as [v p]. cbn [fst snd]. intros Hv Hp H1 Z. unfold factor, factorText. cbn [fst snd].
  assert (FX : forall l : str, Forall isDigit l -> ~ In "^"%char ("x"%char :: l)).
  { intros l F [E|X]; [discriminate|]. revert X. apply digits_free; auto. cbn. lia. }
  assert (ST : (match split "^" ("x"%char :: v ++ match p with None => [] | Some q => "^"%char :: q end) with _ :: q :: _ => ofInt (pyInt q) | _ => POk 1%Z end = POk (Z.of_nat (powerVal p)))
     /\ nth 0 (split "^" ("x"%char :: v ++ match p with None => [] | Some q => "^"%char :: q end)) [] = "x"%char :: v).
  { destruct p as [q|].
    - rewrite app_comm_cons, split_one by (apply FX, Hv). rewrite split_none by (apply digits_free; [apply Hp|cbn; lia]). cbn [nth powerVal]. rewrite pyInt_ok by auto. auto.
    - rewrite app_nil_r, split_none by (apply FX, Hv). auto. }
  destruct ST as [-> ->]. cbn [pbind]. rewrite pyInt_ok by auto. cbn [ofInt pbind].
  destruct (Z.eqb_spec (Z.of_nat (numVal v)) (-1)); [lia|]. rewrite spot_length.
  assert (EP : (if (Z.of_nat n <=? Z.of_nat (numVal v))%Z then padTo (spotOf n e) (Z.to_nat (Z.of_nat (numVal v)) + 1) else spotOf n e) = spotOf (Nat.max n (numVal v + 1)) e).
  { destruct (Z.leb_spec (Z.of_nat n) (Z.of_nat (numVal v))).
    - rewrite Nat2Z.id. rewrite spot_pad by (auto; lia). f_equal. lia.
    - f_equal. lia. }
  rewrite EP. unfold setItem. rewrite spot_length, subscript_ok by lia. rewrite spot_upd by lia. reflexivity.
Qed.
Lemma factors_ok fs : Forall (fun f => numeral (fst f) /\ match snd f with None => True | Some p => numeral p end) fs -> forall n e, 1 <= n -> (forall k, n <= k -> e k = 0) ->
  fold_left (fun acc mon => pbind acc (factor mon)) (map factorText fs) (POk (spotOf n e)) =
  POk (spotOf (fold_left (fun acc f => Nat.max acc (numVal (fst f) + 1)) fs n) (fun k => fold_left (fun acc f => if numVal (fst f) =? k then powerVal (snd f) else acc) fs (e k))) /\
  forall k, fold_left (fun acc f => Nat.max acc (numVal (fst f) + 1)) fs n <= k -> fold_left (fun acc f => if numVal (fst f) =? k then powerVal (snd f) else acc) fs (e k) = 0.
Proof.
  induction 1 as [|f fs [Hv Hp] F IH]; intros n e H1 Z; cbn [map fold_left]; [split; auto|]. cbn [pbind]. rewrite factor_ok by auto.
  apply (IH (Nat.max n (numVal (fst f) + 1)) (fun k => if numVal (fst f) =? k then powerVal (snd f) else e k)); [lia|].
  intros k Hk. destruct (Nat.eqb_spec (numVal (fst f)) k); [lia|]. apply Z. lia.
Qed.
Lemma exp_zero t k : termVars t <= k -> expOf t k = 0.
Proof.
  unfold termVars, expOf. assert (G : forall fs n a, fold_left (fun acc f => Nat.max acc (numVal (fst f) + 1)) fs n <= k -> n <= k -> a = 0 -> fold_left (fun acc (f : str * option str) => if numVal (fst f) =? k then powerVal (snd f) else acc) fs a = 0).
  { induction fs as [|f fs IH]; intros n a H Hn Ha; cbn [fold_left] in *; auto.
    assert (M : forall (l : list (str * option str)) m, m <= fold_left (fun acc f => Nat.max acc (numVal (fst f) + 1)) l m) by (induction l as [|g l IHl]; intros m; cbn [fold_left]; [lia|]; specialize (IHl (Nat.max m (numVal (fst g) + 1))); lia).
    pose proof (M fs (Nat.max n (numVal (fst f) + 1))). apply (IH (Nat.max n (numVal (fst f) + 1))); auto; [lia|]. destruct (Nat.eqb_spec (numVal (fst f)) k); [lia|auto]. }
  intros H. apply (G (tvars t) 1); auto.
  assert (M : forall (l : list (str * option str)) m, m <= fold_left (fun acc f => Nat.max acc (numVal (fst f) + 1)) l m) by (induction l as [|g l IHl]; intros m; cbn [fold_left]; [lia|]; specialize (IHl (Nat.max m (numVal (fst g) + 1))); lia).
  specialize (M (tvars t) 1). lia.
Qed.

Section P.
  Context {T : Type} {NT : Num T}.
  Variable pyFloat : str -> option T.
  Lemma monomial_ok t : written pyFloat t -> monomial pyFloat (termText t) = POk (spotOf (termVars t) (expOf t), coefVal pyFloat t).
  Proof.
    intros [HF HC]. unfold monomial, termText.
    set (c := match tcoef t with NoCoef => [] | MinusSign => ["-"%char] | Literal s => s end).
    set (r := join "*" (map factorText (tvars t))).
    assert (CX : ~ In "x"%char c) by (unfold c; destruct (tcoef t); [intros []|intros [E|[]]; discriminate|apply HC]).
    assert (RX : r = [] \/ exists r', r = "x"%char :: r').
    { unfold r. destruct (tvars t) as [|f [|g l]]; [left; reflexivity|right; eexists; reflexivity|right; eexists; reflexivity]. }
    rewrite first_x_ok by auto. rewrite firstn_app, firstn_all, Nat.sub_diag, firstn_O, app_nil_r. rewrite skipn_app, skipn_all, Nat.sub_diag. cbn [skipn app].
    assert (EC : coefficientOf pyFloat c = POk (coefVal pyFloat t)).
    { unfold c, coefficientOf, coefVal. destruct (tcoef t) as [| |s]; [reflexivity|reflexivity|]. destruct HC as (N1 & N2 & _ & _ & N3). destruct s as [|a s]; [congruence|].
      destruct list_eq_dec as [E|_]; [congruence|]. destruct (pyFloat (a :: s)); [reflexivity|congruence]. }
    rewrite EC. cbn [pbind].
    assert (ES : fold_left (fun acc mon => pbind acc (factor mon)) (split "*" r) (POk [0%Z]) = POk (spotOf (termVars t) (expOf t))).
    { change [0%Z] with (spotOf 1 (fun _ => 0)). unfold r, termVars, expOf. destruct (tvars t) as [|f fs] eqn:ET; [reflexivity|].
      rewrite split_join; [apply (factors_ok (f :: fs)); auto|discriminate|].
      rewrite Forall_map. eapply Forall_impl; [|exact HF]. intros [v p] [Hv Hp] X. unfold factorText in X. cbn [fst snd] in *. destruct X as [X|X]; [discriminate|].
      apply in_app_or in X. destruct X as [X|X]; [revert X; apply digits_free; [apply Hv|cbn; lia]|]. destruct p as [q|]; [|destruct X]. destruct X as [X|X]; [discriminate|]. revert X. apply digits_free; [apply Hp|cbn; lia]. }
    rewrite ES. reflexivity.
  Qed.
  Lemma text_split ts : ts <> [] -> Forall (written pyFloat) ts -> split "+" (polyText ts) = map termText ts.
  Proof.
    intros N F. unfold polyText. apply split_join; [destruct ts; [congruence|discriminate]|]. rewrite Forall_map. eapply Forall_impl; [|exact F].
    intros t [HF HC] X. unfold termText in X. apply in_app_or in X. destruct X as [X|X].
    - destruct (tcoef t); [destruct X|destruct X as [X|[]]; discriminate|]. apply HC in X. auto.
    - apply join_in in X. destruct X as [X|(a & A & X)]; [discriminate|]. apply in_map_iff in A. destruct A as ([v p] & <- & A). rewrite Forall_forall in HF. destruct (HF _ A) as [Hv Hp]. unfold factorText in X. cbn [fst snd] in *.
      destruct X as [X|X]; [discriminate|]. apply in_app_or in X. destruct X as [X|X]; [revert X; apply digits_free; [apply Hv|cbn; lia]|]. destruct p as [q|]; [|destruct X]. destruct X as [X|X]; [discriminate|]. revert X. apply digits_free; [apply Hp|cbn; lia].
  Qed.
  Lemma pall_ok {A B} (f : A -> pres B) g l : (forall a, In a l -> f a = POk (g a)) -> pall f l = POk (map g l).
  Proof. induction l as [|a l IH]; intros H; [reflexivity|]. cbn [pall]. rewrite H by (left; auto). rewrite IH by (intros; apply H; right; auto). reflexivity. Qed.
  Lemma parse_ok ts : ts <> [] -> Forall (written pyFloat) ts -> pall (monomial pyFloat) (split "+" (polyText ts)) = POk (map (fun t => (spotOf (termVars t) (expOf t), coefVal pyFloat t)) ts).
  Proof.
    intros N F. rewrite text_split by auto. rewrite Forall_forall in F. clear N. induction ts as [|t ts IH]; [reflexivity|]. cbn [map pall]. rewrite monomial_ok by (apply F; left; auto). cbn [pbind]. rewrite IH by (intros; apply F; right; auto). reflexivity.
  Qed.
  (** the shape: one more than the largest power of each variable, the last variable first *)
  Definition maxExp (ts : list term) (k : nat) : nat := fold_right Nat.max 0 (map (fun t => expOf t k) ts).
  Definition shapeOf (ts : list term) : list nat := rev (map (fun k => S (maxExp ts k)) (seq 0 (polyVars ts))).
  Lemma vars_le ts t : In t ts -> termVars t <= polyVars ts.
  Proof.
    unfold polyVars. assert (M : forall l m, m <= fold_left Nat.max l m) by (induction l as [|b l IH]; intros m; cbn [fold_left]; [lia|]; specialize (IH (Nat.max m b)); lia).
    assert (G : forall l m, In (termVars t) l -> termVars t <= fold_left Nat.max l m).
    { induction l as [|b l IH]; intros m []; cbn [fold_left]; [subst b; specialize (M l (Nat.max m (termVars t))); lia|auto]. }
    intros H. apply G. apply in_map; auto.
  Qed.
  Lemma maxExp_ge ts t k : In t ts -> expOf t k <= maxExp ts k.
  Proof. unfold maxExp. induction ts as [|a ts IH]; intros []; cbn [map fold_right]; [subst; lia|]. specialize (IH H). lia. Qed.
  Lemma zmax_spot ts n k a : k < n -> fold_right Z.max (Z.of_nat a) (map (fun p : list Z * T => nth k (fst p) 0%Z) (map (fun t => (spotOf n (expOf t), coefVal pyFloat t)) ts)) = Z.of_nat (Nat.max a (maxExp ts k)).
  Proof. intros H. unfold maxExp. induction ts as [|t ts IH]; cbn [map fold_right fst]; [f_equal; lia|]. rewrite spot_nth by auto. rewrite IH. lia. Qed.
  Lemma place_map (l : list nat) e m : (forall k, In k l -> e k <= m k) ->
    place (map (fun k => Z.of_nat (e k)) l) (map (fun k => S (m k)) l) = Some (map e l).
  Proof.
    induction l as [|k l IH]; intros H; [reflexivity|]. cbn [map place]. rewrite subscript_ok by (specialize (H k (or_introl eq_refl)); lia). rewrite IH by (intros; apply H; right; auto). reflexivity.
  Qed.
  Definition indexOf (n : nat) (t : term) : list nat := rev (map (expOf t) (seq 0 n)).
  Definition put (n : nat) (m : tensor T) (t : term) : tensor T := mkT (shp m) (upd (dat m) (ravel_index (shp m) (indexOf n t)) (coefVal pyFloat t)).
  Lemma make_ok ts : ts <> [] -> Forall (written pyFloat) ts ->
    makePolyCoeffMatrix pyFloat (polyText ts) = POk (fold_left (put (polyVars ts)) ts (tbuild (shapeOf ts) (fun _ => n0))).
  Proof.
    intros N F. unfold makePolyCoeffMatrix. rewrite parse_ok by auto. cbn [pbind].
    assert (EL : fold_left Nat.max (map (fun p : list Z * T => length (fst p)) (map (fun t => (spotOf (termVars t) (expOf t), coefVal pyFloat t)) ts)) 0 = polyVars ts).
    { unfold polyVars. f_equal. rewrite map_map. apply map_ext. intros t. cbn [fst]. apply spot_length. }
    rewrite EL. set (n := polyVars ts).
    assert (EM : map (fun p : list Z * T => (padTo (fst p) n, snd p)) (map (fun t => (spotOf (termVars t) (expOf t), coefVal pyFloat t)) ts) = map (fun t => (spotOf n (expOf t), coefVal pyFloat t)) ts).
    { rewrite map_map. apply map_ext_in. intros t Ht. cbn [fst snd]. rewrite spot_pad; auto; [apply vars_le; auto|intros; apply exp_zero; auto]. }
    rewrite EM. set (ms := map (fun t => (spotOf n (expOf t), coefVal pyFloat t)) ts).
    assert (ES : map (fun k => (fold_right Z.max (nth k (fst (nth 0 ms ([], n0))) 0%Z) (map (fun p => nth k (fst p) 0%Z) ms) + 1)%Z) (seq 0 n) = map (fun k => Z.of_nat (S (maxExp ts k))) (seq 0 n)).
    { apply map_ext_in. intros k Hk. apply in_seq in Hk. destruct ts as [|t0 ts]; [congruence|]. unfold ms at 1. cbn [map nth fst]. rewrite spot_nth by lia.
      unfold ms. rewrite zmax_spot by lia. pose proof (maxExp_ge (t0 :: ts) t0 k (or_introl eq_refl)). lia. }
    rewrite ES.
    assert (EX : existsb (fun z => (z <? 0)%Z) (map (fun k => Z.of_nat (S (maxExp ts k))) (seq 0 n)) = false).
    { clear. induction (seq 0 n) as [|k l IH]; [reflexivity|]. cbn [map existsb]. rewrite IH. destruct (Z.ltb_spec (Z.of_nat (S (maxExp ts k))) 0); [lia|reflexivity]. }
    rewrite EX. replace (rev (map Z.to_nat (map (fun k => Z.of_nat (S (maxExp ts k))) (seq 0 n)))) with (shapeOf ts) by (unfold shapeOf; f_equal; rewrite map_map; apply map_ext; intros; rewrite Nat2Z.id; reflexivity).
    assert (G : forall l m, incl l ts -> shp m = shapeOf ts -> fold_left store (map (fun t => (spotOf n (expOf t), coefVal pyFloat t)) l) (POk m) = POk (fold_left (put n) l m)).
    { induction l as [|t l IH]; intros m Hl Hm; [reflexivity|]. cbn [map fold_left]. unfold store at 2. cbn [pbind fst snd]. rewrite Hm.
      unfold shapeOf at 1. fold n. unfold spotOf. rewrite <- !map_rev. rewrite (place_map (rev (seq 0 n)) (expOf t) (maxExp ts)) by (intros; apply maxExp_ge, Hl; left; auto).
      rewrite map_rev. fold (indexOf n t). rewrite <- Hm. rewrite <- (IH (put n m t)); [reflexivity|intros x Hx; apply Hl; right; auto|exact Hm]. }
    unfold ms. apply G; [apply incl_refl|reflexivity].
  Qed.
  Lemma index_inrange ts t : In t ts -> inrange (shapeOf ts) (indexOf (polyVars ts) t).
  Proof.
    intros H. unfold shapeOf, indexOf, inrange. rewrite <- !map_rev. induction (rev (seq 0 (polyVars ts))) as [|k l IH]; cbn [map]; constructor; auto. pose proof (maxExp_ge ts t k H). lia.
  Qed.
  Lemma ravel_inj s i j : inrange s i -> inrange s j -> ravel_index s i = ravel_index s j -> i = j.
  Proof. intros Hi Hj E. rewrite <- (nth_indices s i [] Hi), <- (nth_indices s j [] Hj), E. reflexivity. Qed.
  Lemma put_get n m t idx : length (dat m) = prodn (shp m) -> inrange (shp m) (indexOf n t) -> inrange (shp m) idx ->
    tget (put n m t) idx = if list_eq_dec Nat.eq_dec idx (indexOf n t) then coefVal pyFloat t else tget m idx.
  Proof.
    intros W Ht Hi. unfold tget, put. cbn [shp dat]. destruct list_eq_dec as [->|Ne].
    - apply nth_upd_eq. rewrite W. apply ravel_lt. auto.
    - apply nth_upd_neq. intros E. apply Ne. symmetry. revert E. apply ravel_inj; auto.
  Qed.
End P.
