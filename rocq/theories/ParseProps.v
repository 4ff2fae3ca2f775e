(** * Properties of makePolyCoeffMatrix (C90) *)
From Coq Require Import Ascii String.
From Coq Require Import Reals List Arith Bool ZArith Lia Lra.
From Verif Require Import Num RSum Tensor PolySpec ParseModel ParseProofs.
Import ListNotations.
Local Open Scope list_scope.
Local Open Scope R_scope.

(** the coefficient of the last of the terms with these powers, 0 if there is none *)
Definition lastCoef {T} {NT : Num T} (pyFloat : str -> option T) (ts : list term) (powers : list nat) : T :=
  fold_left (fun acc t => if list_eq_dec Nat.eq_dec (map (expOf t) (seq 0 (length powers))) powers then coefVal pyFloat t else acc) ts n0.

(** C90: every string of the documented syntax is accepted.  The array has an axis for every variable, the last variable first, just long
    enough for the largest power, and holds the coefficients at the reversed powers. *)
Theorem C90_entries : forall {T} {NT : Num T} (pyFloat : str -> option T) ts, ts <> [] -> Forall (written pyFloat) ts ->
  exists m, makePolyCoeffMatrix pyFloat (polyText ts) = POk m /\ wf m /\ ndim m = polyVars ts /\
    (forall k, (k < polyVars ts)%nat -> nth k (rev (shp m)) 0%nat = S (maxExp ts k)) /\
    (forall powers, inrange (rev (shp m)) powers -> tget m (rev powers) = lastCoef pyFloat ts powers).
Proof.
  intros T NT pyFloat ts N F. eexists. split; [apply make_ok; auto|].
  set (z := tbuild (shapeOf ts) (fun _ => n0)). set (n := polyVars ts).
  assert (G : forall l m, incl l ts -> shp m = shapeOf ts -> length (dat m) = prodn (shp m) ->
     shp (fold_left (put pyFloat n) l m) = shapeOf ts /\ length (dat (fold_left (put pyFloat n) l m)) = prodn (shapeOf ts) /\
     forall idx, inrange (shapeOf ts) idx -> tget (fold_left (put pyFloat n) l m) idx = fold_left (fun acc t => if list_eq_dec Nat.eq_dec idx (indexOf n t) then coefVal pyFloat t else acc) l (tget m idx)).
  { induction l as [|t l IH]; intros m Hl Hs Hd; cbn [fold_left]; [split; auto; split; [congruence|auto]|].
    destruct (IH (put pyFloat n m t)) as (A & B & C); [intros x Hx; apply Hl; right; auto|exact Hs|unfold put; cbn [shp dat]; rewrite upd_length; auto|].
    split; auto. split; auto. intros idx Hi. rewrite C by auto. f_equal. apply put_get; auto; rewrite Hs; auto. apply index_inrange. apply Hl. left; auto. }
  destruct (G ts z (incl_refl ts) eq_refl ltac:(apply length_tbuild)) as (A & B & C).
  assert (LS : length (shapeOf ts) = n) by (unfold shapeOf; rewrite rev_length, map_length, seq_length; auto).
  split; [split; [rewrite A; auto|]|].
  { rewrite A. unfold shapeOf. apply Forall_rev. rewrite Forall_map. rewrite Forall_forall. intros; lia. }
  split; [unfold ndim; rewrite A; auto|]. split.
  - intros k Hk. rewrite A. unfold shapeOf. rewrite rev_involutive. rewrite (nth_indep _ 0%nat (S (maxExp ts 0))) by (rewrite map_length, seq_length; auto). rewrite (map_nth (fun k => S (maxExp ts k))), seq_nth by auto. auto.
  - intros powers Hp. rewrite A in Hp.
    assert (LP : length powers = n) by (apply inrange_length in Hp; rewrite rev_length in Hp; congruence).
    assert (HR : inrange (shapeOf ts) (rev powers)).
    { unfold inrange in *. assert (RV : forall (a b : list nat), Forall2 lt a b -> Forall2 lt (rev a) (rev b)) by (induction 1; cbn [rev]; [constructor|apply Forall2_app; auto]). apply RV in Hp. rewrite rev_involutive in Hp. auto. }
    rewrite C by auto. unfold z. rewrite tget_tbuild by auto. unfold lastCoef. rewrite LP. clearbody n. clear. generalize (@n0 T NT). induction ts as [|t ts IH]; intros a; [reflexivity|]. cbn [fold_left].
    assert (E : (if list_eq_dec Nat.eq_dec (rev powers) (indexOf n t) then coefVal pyFloat t else a) = (if list_eq_dec Nat.eq_dec (map (expOf t) (seq 0 n)) powers then coefVal pyFloat t else a)).
    { unfold indexOf. destruct list_eq_dec as [E|Ne]; destruct list_eq_dec as [E'|Ne']; auto; exfalso.
      - apply Ne'. apply (f_equal (@rev nat)) in E. rewrite !rev_involutive in E. auto.
      - apply Ne. congruence. }
    rewrite E. apply IH.
Qed.
Print Assumptions C90_entries.

(** the value of the written polynomial *)
Definition termValue (pyFloat : str -> option R) (t : term) (x : list R) : R :=
  coefVal pyFloat t * fold_right Rmult 1 (map (fun f => nth (numVal (fst f)) x 0 ^ powerVal (snd f)) (tvars t)).
Definition textValue (pyFloat : str -> option R) (ts : list term) (x : list R) : R := Rsum (map (fun t => termValue pyFloat t x) ts).
Definition eachVariableOnce (t : term) : Prop := NoDup (map (fun f => numVal (fst f)) (tvars t)).
Definition differentPowers (a b : term) : Prop := exists k, expOf a k <> expOf b k.

Lemma basis_app phi : forall i1 x1 i2 x2, length i1 = length x1 -> basis phi (i1 ++ i2) (x1 ++ x2) = basis phi i1 x1 * basis phi i2 x2.
Proof. induction i1 as [|i i1 IH]; intros [|v x1] i2 x2 L; try discriminate; cbn [app basis]; [ring|]. rewrite IH by (cbn in L; lia). ring. Qed.
Lemma basis_rev phi i : forall x, length i = length x -> basis phi (rev i) (rev x) = basis phi i x.
Proof.
  induction i as [|a i IH]; intros [|v x] L; try discriminate; [reflexivity|]. cbn [rev]. cbn in L. rewrite basis_app by (rewrite !rev_length; lia). rewrite IH by lia. cbn [basis]. ring.
Qed.
Definition prodTo (n : nat) (x : list R) (e : nat -> nat) : R := fold_right Rmult 1 (map (fun k => nth k x 0 ^ e k) (seq 0 n)).
Lemma basis_prod e : forall x a, basis (fun i v => v ^ i) (map e (seq a (length x))) x = fold_right Rmult 1 (map (fun k => nth (k - a) x 0 ^ e k) (seq a (length x))).
Proof.
  induction x as [|v x IH]; intros a; [reflexivity|]. cbn [length seq map basis fold_right]. rewrite Nat.sub_diag. cbn [nth]. f_equal. rewrite IH. f_equal. apply map_ext_in. intros k Hk. apply in_seq in Hk.
  replace (k - a)%nat with (S (k - S a)) by lia. reflexivity.
Qed.
Lemma prod_change n x e v p : (v < n)%nat -> e v = 0%nat -> prodTo n x (fun k => if (v =? k)%nat then p else e k) = prodTo n x e * nth v x 0 ^ p.
Proof.
  intros Hv He. unfold prodTo. assert (G : forall l, NoDup l -> fold_right Rmult 1 (map (fun k => nth k x 0 ^ (if (v =? k)%nat then p else e k)) l) = fold_right Rmult 1 (map (fun k => nth k x 0 ^ e k) l) * (if in_dec Nat.eq_dec v l then nth v x 0 ^ p else 1)).
  { induction l as [|k l IH]; intros ND; [destruct in_dec as [[]|_]; cbn [map fold_right]; ring|]. inversion ND; subst. cbn [map fold_right]. rewrite IH by auto. destruct (Nat.eqb_spec v k) as [->|Ne].
    - rewrite He. cbn [pow]. destruct (in_dec Nat.eq_dec k l); [contradiction|]. destruct (in_dec Nat.eq_dec k (k :: l)) as [_|X]; [ring|exfalso; apply X; left; auto].
    - destruct (in_dec Nat.eq_dec v l) as [I|I]; destruct (in_dec Nat.eq_dec v (k :: l)) as [I'|I']; try ring; exfalso; [apply I'; right; auto|destruct I' as [E|E]; congruence]. }
  rewrite G by apply seq_NoDup. destruct in_dec as [_|X]; [reflexivity|exfalso; apply X, in_seq; lia].
Qed.
Lemma exp_fold_other fs : forall a k, ~ In k (map (fun f : str * option str => numVal (fst f)) fs) -> fold_left (fun acc f => if (numVal (fst f) =? k)%nat then powerVal (snd f) else acc) fs a = a.
Proof.
  induction fs as [|f fs IH]; intros a k H; [reflexivity|]. cbn [fold_left map] in *. destruct (Nat.eqb_spec (numVal (fst f)) k) as [E|_]; [exfalso; apply H; left; auto|]. apply IH. intros X. apply H. right; auto.
Qed.
Lemma term_prod t n x : eachVariableOnce t -> (termVars t <= n)%nat -> fold_right Rmult 1 (map (fun f => nth (numVal (fst f)) x 0 ^ powerVal (snd f)) (tvars t)) = prodTo n x (expOf t).
Proof.
  unfold eachVariableOnce, termVars, expOf. intros ND HL.
  assert (B : forall f, In f (tvars t) -> (numVal (fst f) < n)%nat).
  { assert (M : forall (l : list (str * option str)) m, (m <= fold_left (fun acc f => Nat.max acc (numVal (fst f) + 1)) l m)%nat) by (induction l as [|h l IHl]; intros m0; cbn [fold_left]; [lia|]; specialize (IHl (Nat.max m0 (numVal (fst h) + 1)%nat)); lia).
    assert (K : forall (l : list (str * option str)) m, (fold_left (fun acc f => Nat.max acc (numVal (fst f) + 1)) l m <= n)%nat -> forall f, In f l -> (numVal (fst f) < n)%nat).
    { induction l as [|g l IH]; intros m H f Hf; [destruct Hf|]. cbn [fold_left] in H. destruct Hf as [<-|Hf]; [|apply (IH _ H); auto]. specialize (M l (Nat.max m (numVal (fst g) + 1)%nat)). lia. }
    apply (K _ 1%nat HL). }
  clear HL. assert (G : forall fs e, NoDup (map (fun f : str * option str => numVal (fst f)) fs) -> (forall f, In f fs -> (numVal (fst f) < n)%nat /\ e (numVal (fst f)) = 0%nat) ->
    prodTo n x (fun k => fold_left (fun acc f => if (numVal (fst f) =? k)%nat then powerVal (snd f) else acc) fs (e k)) = prodTo n x e * fold_right Rmult 1 (map (fun f => nth (numVal (fst f)) x 0 ^ powerVal (snd f)) fs)).
  { induction fs as [|f fs IH]; intros e N H; cbn [map fold_right fold_left]; [rewrite Rmult_1_r; reflexivity|]. cbn [map] in N. inversion N; subst.
    rewrite (IH (fun k => if (numVal (fst f) =? k)%nat then powerVal (snd f) else e k)); auto.
    - rewrite prod_change by (apply H; left; auto). ring.
    - intros g Hg. split; [apply H; right; auto|]. destruct (Nat.eqb_spec (numVal (fst f)) (numVal (fst g))) as [E|_]; [|apply H; right; auto]. exfalso. match goal with X : ~ In _ _ |- _ => apply X; rewrite E; apply in_map_iff; eauto end. }
  rewrite (G (tvars t) (fun _ => 0%nat)); auto. replace (prodTo n x (fun _ => 0%nat)) with 1; [ring|]. unfold prodTo. clear. induction (seq 0 n) as [|k l IH]; cbn [map fold_right]; [reflexivity|]. rewrite <- IH. cbn [pow]. ring.
Qed.
Lemma sumidx_point s : forall F idx, inrange s idx -> (forall i, inrange s i -> i <> idx -> F i = 0) -> sumidx s F = F idx.
Proof.
  induction s as [|n s IH]; intros F idx Hi H; inversion Hi as [|k ? idx' ? Hk Hr]; subst; [reflexivity|]. cbn [sumidx]. rewrite (sumn_single n k); auto.
  - apply (IH (fun r => F (k :: r)) idx' Hr). intros i Hin Ne. apply H; [constructor; auto|congruence].
  - intros j Hj Ne. rewrite (sumidx_ext s _ (fun _ => 0)); [apply sumidx_0|]. intros i Hin. apply H; [constructor; auto|congruence].
Qed.

(** If no variable is repeated in a term and no two terms have the same powers, the array is the polynomial the string says, in the
    variables in reverse order. *)
Theorem C90_value_in_reversed_variables : forall (pyFloat : str -> option R) ts m, ts <> [] -> Forall (written pyFloat) ts ->
  Forall eachVariableOnce ts -> ForallOrdPairs differentPowers ts -> makePolyCoeffMatrix pyFloat (polyText ts) = POk m ->
  forall x, length x = polyVars ts -> power_eval m (rev x) = textValue pyFloat ts x.
Proof.
  intros pyFloat ts m N F V D HM x Lx. destruct (C90_entries pyFloat ts N F) as (m' & E & W & ND & SH & TG). assert (m' = m) by congruence. subst m'. clear E HM.
  set (n := polyVars ts) in *. set (s := shp m) in *.
  assert (RV : forall (a b : list nat), Forall2 lt a b -> Forall2 lt (rev a) (rev b)) by (induction 1; cbn [rev]; [constructor|apply Forall2_app; auto]).
  assert (Ls : length s = n) by exact ND.
  (* the entries are a sum of one contribution per term *)
  assert (SUM : forall idx, inrange s idx -> tget m idx = Rsum (map (fun t => if list_eq_dec Nat.eq_dec (map (expOf t) (seq 0 n)) (rev idx) then coefVal pyFloat t else 0) ts)).
  { intros idx Hi. rewrite <- (rev_involutive idx) at 1. rewrite TG by (apply RV; auto). unfold lastCoef. replace (length (rev idx)) with n by (rewrite rev_length; apply inrange_length in Hi; congruence).
    assert (B : forall t, In t ts -> (termVars t <= n)%nat) by (intros; apply vars_le; auto). clearbody n. clear -D B. change (@Num.n0 R R_num) with 0.
    assert (G : forall a, (a <> 0 -> forall t, In t ts -> map (expOf t) (seq 0 n) <> rev idx) -> fold_left (fun acc t => if list_eq_dec Nat.eq_dec (map (expOf t) (seq 0 n)) (rev idx) then coefVal pyFloat t else acc) ts a = a + Rsum (map (fun t => if list_eq_dec Nat.eq_dec (map (expOf t) (seq 0 n)) (rev idx) then coefVal pyFloat t else 0) ts)).
    { induction D as [|t ts Dt D IH]; intros a Ha; cbn [fold_left map]; unfold Rsum in *; cbn [fold_right]; [ring|]. destruct list_eq_dec as [Et|Nt].
      - assert (a = 0) as -> by (destruct (Req_dec a 0); auto; exfalso; apply (Ha H t); [left; auto|auto]). rewrite IH; [ring|intros; apply B; right; auto|].
        intros _ u Hu Eu. rewrite Forall_forall in Dt. destruct (Dt u Hu) as [k Hk]. apply Hk. destruct (Nat.lt_ge_cases k n) as [Hkn|Hkn].
        + pose proof (f_equal (fun l => nth k l 0%nat) (eq_trans Et (eq_sym Eu))) as X. cbn beta in X. rewrite (nth_indep _ 0%nat (expOf t 0)), (nth_indep _ 0%nat (expOf u 0)) in X by (rewrite map_length, seq_length; auto). rewrite !map_nth, seq_nth in X by auto. exact X.
        + rewrite !exp_zero; auto; [specialize (B u (or_intror Hu)); lia|specialize (B t (or_introl eq_refl)); lia].
      - rewrite IH; [ring|intros; apply B; right; auto|]. intros H u Hu. apply Ha; auto. right; auto. }
    rewrite G; [ring|]. intros H; congruence. }
  rewrite power_eval_sumidx. fold s. rewrite (sumidx_ext s _ (fun idx => Rsum (map (fun t => (if list_eq_dec Nat.eq_dec (map (expOf t) (seq 0 n)) (rev idx) then coefVal pyFloat t else 0) * basis (fun i v => v ^ i) idx (rev x)) ts))).
  2:{ intros idx Hi. rewrite SUM by auto. clearbody n. clear. induction ts as [|t ts IH]; unfold Rsum in *; cbn [map fold_right]; [ring|]. rewrite <- IH. ring. }
  assert (SW : forall (G : term -> list nat -> R) l, sumidx s (fun idx => Rsum (map (fun t => G t idx) l)) = Rsum (map (fun t => sumidx s (G t)) l)).
  { intros G l. induction l as [|t l IH]; unfold Rsum in *; cbn [map fold_right]; [apply sumidx_0|]. rewrite sumidx_plus, IH. reflexivity. }
  rewrite SW. unfold textValue. f_equal. apply map_ext_in. intros t Ht.
  assert (HI : inrange s (rev (map (expOf t) (seq 0 n)))).
  { assert (ES : s = shapeOf ts).
    { rewrite <- (rev_involutive s). unfold shapeOf. f_equal. apply (nth_ext _ _ 0%nat 0%nat); [rewrite rev_length, map_length, seq_length; auto|]. intros k Hk. rewrite rev_length in Hk. assert (Hk2 : (k < n)%nat) by lia. rewrite SH by exact Hk2. rewrite (nth_indep _ 0%nat (S (maxExp ts 0))) by (rewrite map_length, seq_length; exact Hk2). rewrite (map_nth (fun k => S (maxExp ts k))), seq_nth by exact Hk2. auto. }
    rewrite ES. apply index_inrange. auto. }
  rewrite (sumidx_point s _ (rev (map (expOf t) (seq 0 n))) HI).
  - rewrite rev_involutive. destruct list_eq_dec as [_|X]; [|congruence]. unfold termValue. f_equal. rewrite basis_rev by (rewrite map_length, seq_length; auto). rewrite <- Lx. rewrite basis_prod.
    rewrite (term_prod t (length x) x); [|rewrite Forall_forall in V; auto|rewrite Lx; apply vars_le; auto]. unfold prodTo. f_equal. apply map_ext. intros k. rewrite Nat.sub_0_r. reflexivity.
  - intros i Hin Ne. destruct list_eq_dec as [E|_]; [exfalso; apply Ne; rewrite E, rev_involutive; auto|ring].
Qed.
Print Assumptions C90_value_in_reversed_variables.

(** ** Cases *)
(** what float does for the literals of the examples *)
Definition someFloat (s : str) : option R :=
  if list_eq_dec ascii_dec s (chars "3") then Some 3 else if list_eq_dec ascii_dec s (chars "-14.73") then Some (- 1473 / 100) else if list_eq_dec ascii_dec s (chars "2.1") then Some (21 / 10) else if list_eq_dec ascii_dec s (chars "2") then Some 2 else None.
Definition v_ (s : string) := (chars s, @None str).
Definition vp (s p : string) := (chars s, Some (chars p)).
Lemma numeral_dec s : negb (Nat.eqb (List.length s) 0) && forallb (fun c => (48 <=? nat_of_ascii c)%nat && (nat_of_ascii c <=? 57)%nat) s = true -> numeral s.
Proof.
  intros H. apply andb_true_iff in H. destruct H as [A B]. split; [destruct s; [discriminate|discriminate]|]. rewrite forallb_forall in B. apply Forall_forall. intros c Hc. specialize (B c Hc). apply andb_true_iff in B. destruct B as [B1 B2]. apply Nat.leb_le in B1, B2. split; auto.
Qed.
(** the string of the docstring: 3x0^2+2.1x1^2*x2+-14.73x0*x2^3 *)
Definition docTerms := [Term (Literal (chars "3")) [vp "0" "2"]; Term (Literal (chars "2.1")) [vp "1" "2"; v_ "2"]; Term (Literal (chars "-14.73")) [v_ "0"; vp "2" "3"]].
Example C90_docstring : polyText docTerms = chars "3x0^2+2.1x1^2*x2+-14.73x0*x2^3" /\ polyVars docTerms = 3%nat /\
  Forall (written someFloat) docTerms /\ Forall eachVariableOnce docTerms /\ ForallOrdPairs differentPowers docTerms /\
  forall a b c, textValue someFloat docTerms [a; b; c] = 3 * a ^ 2 + 21 / 10 * b ^ 2 * c - 1473 / 100 * a * c ^ 3.
Proof.
  split; [reflexivity|]. split; [reflexivity|]. split; [|split; [|split]].
  - repeat constructor; cbn; try (apply numeral_dec; reflexivity); try discriminate; try (intuition discriminate).
  - repeat constructor; cbn; intuition discriminate.
  - apply FOP_cons; [apply Forall_cons; [exists 1%nat; intros E; discriminate E|apply Forall_cons; [exists 2%nat; intros E; discriminate E|apply Forall_nil]]|].
    apply FOP_cons; [apply Forall_cons; [exists 0%nat; intros E; discriminate E|apply Forall_nil]|apply FOP_cons; [apply Forall_nil|apply FOP_nil]].
  - intros a b c. unfold textValue, termValue, docTerms, Rsum. cbv -[Rplus Rmult Rdiv Ropp Rinv IZR pow Rminus]. field.
Qed.
(** The axes are in the opposite order to the one in which polynomial objects take their variables: x0+2x1 is read as 2x0+x1. *)
Theorem C90_value_refuted : forall pyFloat, pyFloat (chars "2") = Some 2 ->
  exists m, makePolyCoeffMatrix pyFloat (chars "x0+2x1") = POk m /\ forall a b, power_eval m [a; b] = 2 * a + b.
Proof.
  intros pyFloat H. set (ts := [Term NoCoef [v_ "0"]; Term (Literal (chars "2")) [v_ "1"]]). change (chars "x0+2x1") with (polyText ts).
  assert (F : Forall (written pyFloat) ts).
  { repeat constructor; cbn; try (apply numeral_dec; reflexivity); try discriminate; try (intuition discriminate). change ["2"%char] with (chars "2"). rewrite H. discriminate. }
  destruct (C90_entries pyFloat ts ltac:(discriminate) F) as (m & E & _). exists m. split; [exact E|]. intros a b. change [a; b] with (rev [b; a]).
  rewrite (C90_value_in_reversed_variables pyFloat ts m); auto; [|discriminate| |].
  - unfold textValue, termValue, ts, Rsum, coefVal. cbn [map tcoef tvars fold_right]. rewrite H. cbv -[Rplus Rmult Rdiv Ropp Rinv IZR pow Rminus]. ring.
  - repeat constructor; cbn; intuition discriminate.
  - apply FOP_cons; [apply Forall_cons; [exists 0%nat; intros X; discriminate X|apply Forall_nil]|apply FOP_cons; [apply Forall_nil|apply FOP_nil]].
Qed.
Print Assumptions C90_value_refuted.
(** Like terms are not collected: of terms with the same powers the last one stays. *)
Theorem C90_like_terms_refuted : forall (pyFloat : str -> option R),
  exists m, makePolyCoeffMatrix pyFloat (chars "x0+x0") = POk m /\ forall a, power_eval m [a] = a.
Proof. intros pyFloat. exists (mkT [2%nat] [0; 1]). split; [cbv -[IZR]; reflexivity|]. intros a. unfold power_eval, Rsum. cbn. ring. Qed.
Print Assumptions C90_like_terms_refuted.
(** Nor are the powers of a repeated variable: x0*x0 is x0. *)
Theorem C90_repeated_variable_refuted : forall (pyFloat : str -> option R),
  exists m, makePolyCoeffMatrix pyFloat (chars "x0*x0") = POk m /\ forall a, power_eval m [a] = a.
Proof. intros pyFloat. exists (mkT [2%nat] [0; 1]). split; [cbv -[IZR]; reflexivity|]. intros a. unfold power_eval, Rsum. cbn. ring. Qed.
Print Assumptions C90_repeated_variable_refuted.
(** A negative power is not refused: it counts from the end of the axis, so 5 x0^-1 next to x0^2 replaces it. *)
Theorem C90_negative_power_refuted : forall (pyFloat : str -> option R), pyFloat (chars "5") = Some 5 ->
  exists m, makePolyCoeffMatrix pyFloat (chars "x0^2+5x0^-1") = POk m /\ forall a, power_eval m [a] = 5 * a ^ 2.
Proof.
  intros pyFloat H. exists (mkT [3%nat] [0; 0; 5]). split; [|intros a; unfold power_eval, Rsum; cbn; ring].
  unfold makePolyCoeffMatrix, monomial, coefficientOf. cbn -[IZR]. change ["5"%char] with (chars "5"). rewrite H. reflexivity.
Qed.
Print Assumptions C90_negative_power_refuted.
Example C90_negative_power_case : exists pyFloat : str -> option R, pyFloat (chars "5") = Some 5. Proof. exists (fun _ => Some 5). reflexivity. Qed.
