(** * Transfer between arithmetics.

    A map [h] that preserves the operations of [Num] commutes with every function of
    the model.  The embedding of the rationals in the reals is one, so a run computed
    over exact rationals (by evaluation) is a run over the reals. *)
From Coq Require Import ZArith QArith Qabs Qreals Reals List Bool Lia Lra Arith.
From Flocq Require Import Core.
From Verif Require Import Num Tensor PolySpec TransformModel.
Import ListNotations.

Class NumHom {A B} (NA : Num A) (NB : Num B) (h : A -> B) := {
  h_0 : h n0 = n0; h_1 : h n1 = n1;
  h_add : forall x y, h (nadd x y) = nadd (h x) (h y);
  h_sub : forall x y, h (nsub x y) = nsub (h x) (h y);
  h_mul : forall x y, h (nmul x y) = nmul (h x) (h y);
  h_div : forall x y, h (ndiv x y) = ndiv (h x) (h y);
  h_opp : forall x, h (nopp x) = nopp (h x);
  h_abs : forall x, h (nabs x) = nabs (h x);
  h_ltb : forall x y, nltb x y = nltb (h x) (h y);
  h_leb : forall x y, nleb x y = nleb (h x) (h y);
  h_eqb : forall x y, neqb x y = neqb (h x) (h y);
  h_lit : forall m d, h (nlit m d) = nlit m d;
  h_pow2fl : forall x, nltb n0 x = true -> h (npow2fl x) = npow2fl (h x)
}.

(** ** Rationals into reals *)
Lemma Q2R_red x : Q2R (Qred x) = Q2R x.
Proof. apply Qeq_eqR. apply Qred_correct. Qed.
Lemma Q2R_ltb x y : negb (Qle_bool y x) = Rltb (Q2R x) (Q2R y).
Proof.
  destruct (Qle_bool y x) eqn:E; simpl; symmetry.
  - apply Rltb_false. apply Qle_Rle. apply Qle_bool_iff; auto.
  - apply Rltb_true. apply Qlt_Rlt. apply Qnot_le_lt. intros H. apply Qle_bool_iff in H. congruence.
Qed.
Lemma Q2R_leb x y : Qle_bool x y = Rleb (Q2R x) (Q2R y).
Proof.
  destruct (Qle_bool x y) eqn:E; simpl; symmetry.
  - apply Rleb_true. apply Qle_Rle. apply Qle_bool_iff; auto.
  - apply Rleb_false. apply Qlt_Rlt. apply Qnot_le_lt. intros H. apply Qle_bool_iff in H. congruence.
Qed.
Lemma Q2R_eqb x y : Qeq_bool x y = Reqb (Q2R x) (Q2R y).
Proof.
  destruct (Qeq_bool x y) eqn:E; simpl; symmetry.
  - apply Reqb_true. apply Qeq_eqR. apply Qeq_bool_iff; auto.
  - apply Reqb_false. intros H. apply eqR_Qeq in H. apply Qeq_bool_iff in H. congruence.
Qed.
Lemma Q2R_dv x y : Q2R (x / y) = (Q2R x / Q2R y)%R.
Proof.
  unfold Qdiv, Rdiv. rewrite Q2R_mult, RMicromega.Q2R_inv_ext. destruct (Qeq_bool y 0) eqn:E; auto.
  apply Qeq_bool_iff, Qeq_eqR in E. rewrite E, RMicromega.Q2R_0, Rinv_0. reflexivity.
Qed.
Lemma Q2R_ab x : Q2R (Qabs x) = Rabs (Q2R x).
Proof.
  apply Qabs_case; intros H; apply Qle_Rle in H; rewrite ?Q2R_opp, RMicromega.Q2R_0 in *.
  - rewrite Rabs_pos_eq; auto.
  - rewrite Rabs_left1; auto.
Qed.

(** powers of two as rationals *)
Definition qp (k : Z) : Q := if (0 <=? k)%Z then (2 ^ k)%Z # 1 else 1 # (Z.to_pos (2 ^ (- k))).
Lemma Q2R_qp k : Q2R (qp k) = bpow radix2 k.
Proof.
  unfold qp. destruct (Z.leb_spec 0 k).
  - unfold Q2R; simpl Qnum; simpl Qden. rewrite Rinv_1, Rmult_1_r. rewrite <- IZR_Zpower by auto. reflexivity.
  - unfold Q2R; simpl Qnum; simpl Qden. rewrite Z2Pos.id by (apply Z.pow_pos_nonneg; lia).
    rewrite Rmult_1_l. change 2%Z with (radix_val radix2). rewrite IZR_Zpower by lia.
    rewrite <- bpow_opp. f_equal. lia.
Qed.
Lemma Rpow2fl_unique x k : (bpow radix2 k <= x < bpow radix2 (k + 1))%R -> Rpow2fl x = bpow radix2 k.
Proof.
  intros H. unfold Rpow2fl. f_equal. rewrite (mag_unique_pos radix2 x (k + 1)).
  - lia.
  - replace (k + 1 - 1)%Z with k by lia. auto.
Qed.
Lemma Q2R_pow2fl x : negb (Qle_bool x (0 # 1)) = true -> Q2R (Qpow2fl x) = Rpow2fl (Q2R x).
Proof.
  intros H. destruct x as [n d]. assert (EU : Qpow2fl (n # d) = if Qle_bool (qp (Z.log2 n - Z.log2 (Zpos d))) (n # d)
      then qp (Z.log2 n - Z.log2 (Zpos d)) else qp (Z.log2 n - Z.log2 (Zpos d) - 1)) by reflexivity.
  rewrite EU. clear EU.
  assert (Hn : (0 < n)%Z).
  { apply negb_true_iff in H. destruct (Z_lt_le_dec 0 n) as [Hl|Hl]; auto.
    assert (Qle_bool (n # d) (0 # 1) = true) by (apply Qle_bool_iff; unfold Qle; simpl; lia). congruence. }
  set (a := Z.log2 n). set (b := Z.log2 (Zpos d)).
  pose proof (Z.log2_spec n Hn) as Ha. pose proof (Z.log2_spec (Zpos d) (Pos2Z.is_pos d)) as Hb. fold a in Ha. fold b in Hb.
  pose proof (Z.log2_nonneg n). pose proof (Z.log2_nonneg (Zpos d)). fold a in H0. fold b in H1.
  assert (Ra : (bpow radix2 a <= IZR n < bpow radix2 (a + 1))%R).
  { rewrite <- !IZR_Zpower by lia. change (radix_val radix2) with 2%Z. split; [apply IZR_le | apply IZR_lt]; lia. }
  assert (Rb : (bpow radix2 b <= IZR (Zpos d) < bpow radix2 (b + 1))%R).
  { rewrite <- !IZR_Zpower by lia. change (radix_val radix2) with 2%Z. split; [apply IZR_le | apply IZR_lt]; lia. }
  assert (Hd : (0 < IZR (Zpos d))%R) by (apply IZR_lt; lia).
  pose proof (bpow_gt_0 radix2 a). pose proof (bpow_gt_0 radix2 b).
  assert (Hx : Q2R (n # d) = (IZR n / IZR (Zpos d))%R) by reflexivity.
  assert (Hup : (IZR n / IZR (Zpos d) < bpow radix2 (a - b + 1))%R).
  { apply Rlt_le_trans with (bpow radix2 (a + 1) / IZR (Zpos d))%R.
    - apply Rmult_lt_compat_r; [apply Rinv_0_lt_compat; auto | lra].
    - replace (a - b + 1)%Z with ((a + 1) + - b)%Z by lia. rewrite (bpow_plus radix2 (a + 1) (- b)), bpow_opp.
      apply Rmult_le_compat_l; [left; apply bpow_gt_0|]. apply Rinv_le; lra. }
  assert (Hlo : (bpow radix2 (a - b - 1) <= IZR n / IZR (Zpos d))%R).
  { replace (a - b - 1)%Z with (a + - (b + 1))%Z by lia. rewrite bpow_plus, bpow_opp.
    apply Rmult_le_compat; try lra.
    - left; apply Rinv_0_lt_compat; apply bpow_gt_0.
    - apply Rinv_le; lra. }
  destruct (Qle_bool (qp (a - b)) (n # d)) eqn:E.
  - apply Qle_bool_iff, Qle_Rle in E. rewrite Q2R_qp in E |- *. symmetry. apply Rpow2fl_unique.
    rewrite Hx in E |- *. split; auto.
  - assert (E' : (Q2R (n # d) < Q2R (qp (a - b)))%R).
    { apply Qlt_Rlt. apply Qnot_le_lt. intros X. apply Qle_bool_iff in X. congruence. }
    rewrite Q2R_qp in E' |- *. symmetry. apply Rpow2fl_unique.
    replace (a - b - 1 + 1)%Z with (a - b)%Z by lia. rewrite Hx in E' |- *. split; auto.
Qed.

#[export] Instance Q2R_hom : NumHom Q_num R_num Q2R.
Proof.
  constructor; unfold Q_num; cbn [n0 n1 nadd nsub nmul ndiv nopp nabs nltb nleb neqb nlit npow2fl]; rnum; intros; rewrite ?Q2R_red.
  - apply RMicromega.Q2R_0.
  - apply RMicromega.Q2R_1.
  - apply Q2R_plus.
  - apply Q2R_minus.
  - apply Q2R_mult.
  - apply Q2R_dv.
  - apply Q2R_opp.
  - apply Q2R_ab.
  - apply Q2R_ltb.
  - apply Q2R_leb.
  - apply Q2R_eqb.
  - reflexivity.
  - apply Q2R_pow2fl; auto.
Qed.

(** ** Generic lemmas *)
Section H.
  Context {A B} {NA : Num A} {NB : Num B} {h : A -> B} {H : NumHom NA NB h}.

  Lemma h_gtb x y : ngtb x y = ngtb (h x) (h y).
  Proof. unfold ngtb. apply (h_ltb (h:=h)). Qed.
  Lemma h_geb x y : ngeb x y = ngeb (h x) (h y).
  Proof. unfold ngeb. apply (h_leb (h:=h)). Qed.
  Lemma h_2 : h n2 = n2.
  Proof. apply (h_lit (h:=h)). Qed.
  Lemma h_max x y : h (nmax x y) = nmax (h x) (h y).
  Proof. unfold nmax. rewrite (h_ltb (h:=h)). destruct (nltb (h x) (h y)); auto. Qed.
  Lemma h_min x y : h (nmin x y) = nmin (h x) (h y).
  Proof. unfold nmin. rewrite (h_ltb (h:=h)). destruct (nltb (h y) (h x)); auto. Qed.
  Lemma h_nofnat k : h (nofnat k) = nofnat k.
  Proof. apply (h_lit (h:=h)). Qed.
  Lemma h_fold_add l a : h (fold_left nadd l a) = fold_left nadd (map h l) (h a).
  Proof. revert a; induction l; intros; simpl; auto. rewrite IHl, (h_add (h:=h)); auto. Qed.
  Lemma h_sum l : h (nsum l) = nsum (map h l).
  Proof. unfold nsum. rewrite h_fold_add, (h_0 (h:=h)). reflexivity. Qed.
  Lemma h_sumabs l : h (nsumabs l) = nsumabs (map h l).
  Proof. unfold nsumabs. rewrite h_sum, !map_map. f_equal. apply map_ext. intros; apply (h_abs (h:=h)). Qed.
  Lemma h_pow x k : h (npow x k) = npow (h x) k.
  Proof. induction k; simpl; [apply h_1 | rewrite (h_mul (h:=h)), IHk; auto]. Qed.
  Lemma h_prod l a : h (fold_left nmul l a) = fold_left nmul (map h l) (h a).
  Proof. revert a; induction l; intros; simpl; auto. rewrite IHl, (h_mul (h:=h)); auto. Qed.
  Lemma h_g l i : h (g l i) = g (map h l) i.
  Proof. unfold g. rewrite <- (h_0 (h:=h)), map_nth. reflexivity. Qed.
  Lemma h_upd l i v : map h (upd l i v) = upd (map h l) i (h v).
  Proof. revert i; induction l; intros [|i]; simpl; auto. rewrite IHl; auto. Qed.
  Lemma h_repeat0 n : map h (repeat n0 n) = repeat n0 n.
  Proof. induction n; simpl; auto. rewrite (h_0 (h:=h)), IHn. auto. Qed.

  Definition tmap (t : tensor A) : tensor B := mkT (shp t) (map h (dat t)).
  Lemma h_tget t idx : h (tget t idx) = tget (tmap t) idx.
  Proof. unfold tget. simpl. rewrite <- (h_0 (h:=h)), map_nth. reflexivity. Qed.
  Lemma h_tbuild s f : tmap (tbuild s f) = tbuild s (fun i => h (f i)).
  Proof. unfold tbuild, tmap. simpl. f_equal. apply map_map. Qed.
  Lemma tbuild_ext {C} s (f f' : list nat -> C) : (forall i, f i = f' i) -> tbuild s f = tbuild s f'.
  Proof. intros E. unfold tbuild. f_equal. apply map_ext; auto. Qed.
  Lemma h_tsumabs t : h (tsumabs t) = tsumabs (tmap t).
  Proof. unfold tsumabs. apply h_sumabs. Qed.
  Lemma h_tconst t : h (tconst t) = tconst (tmap t).
  Proof. unfold tconst. simpl. rewrite <- (h_0 (h:=h)), map_nth. reflexivity. Qed.
  Lemma h_fibre t d r : map h (fibre t d r) = fibre (tmap t) d r.
  Proof. unfold fibre. rewrite map_map. apply map_ext. intros; apply h_tget. Qed.
  Lemma ndim_tmap t : ndim (tmap t) = ndim t.
  Proof. reflexivity. Qed.
End H.
Arguments tmap {A B} h t.

(** push [h] to the leaves; goals [h (expression) = expression (h leaves)] *)
Ltac homs h := repeat (rewrite ?(h_add (h:=h)), ?(h_sub (h:=h)), ?(h_mul (h:=h)), ?(h_div (h:=h)), ?(h_opp (h:=h)),
   ?(h_abs (h:=h)), ?(h_2 (h:=h)), ?(h_lit (h:=h)), ?(h_g (h:=h)), ?(h_0 (h:=h)), ?(h_1 (h:=h)),
   ?(h_max (h:=h)), ?(h_min (h:=h)), ?(h_nofnat (h:=h)), ?(h_sum (h:=h)), ?(h_sumabs (h:=h))).

Section HT.
  Context {A B} {NA : Num A} {NB : Num B} {h : A -> B} {H : NumHom NA NB h}.
  Let hp (p : list A * list A) := (map h (fst p), map h (snd p)).

  Lemma h_put c i v p : hp (put c i v p) = put (h c) i (h v) (hp p).
  Proof. unfold hp, put; simpl. rewrite !(h_upd (h:=h)). homs h. reflexivity. Qed.
  Definition hst (s : @tst A) : @tst B := mkTst (map h (t1 s)) (map h (t2 s)) (map h (t3 s)) (map h (tc s)) (mr s).
  Lemma h_foldput c (v : nat -> A) (v' : nat -> B) l : (forall i, h (v i) = v' i) -> forall p,
    hp (fold_left (fun p i => put c i (v i) p) l p) = fold_left (fun p i => put (h c) i (v' i) p) l (hp p).
  Proof. intros E. induction l; intros p; simpl; auto. rewrite IHl, h_put, E. reflexivity. Qed.
  Lemma h_ifput (b : bool) c i v p : hp (if b then put c i v p else p) = if b then put (h c) i (h v) (hp p) else hp p.
  Proof. destruct b; auto. apply h_put. Qed.

  Lemma h_tstep alpha beta s c : hst (tstep alpha beta s c) = tstep (h alpha) (h beta) (hst s) (h c).
  Proof.
    destruct s as [a1 a2 a3 t0 m]. unfold hst, tstep; cbn [t1 t2 t3 tc mr].
    set (k := ngtb _ _). set (k' := ngtb _ _).
    assert (E : k = k').
    { unfold k, k'. rewrite (h_gtb (h:=h)). homs h. reflexivity. }
    rewrite <- E. clearbody k. clear E k'.
    match goal with |- mkTst _ (map h (fst ?p)) _ (map h (snd ?p)) _ = mkTst _ (fst ?q) _ (snd ?q) _ => 
       assert (E : hp p = q); [| rewrite <- E; reflexivity] end.
    rewrite h_ifput, h_put.
    rewrite (h_foldput _ _ (fun i => (- g (map h a1) i + h alpha * (g (map h a2) (i - 1) + g (map h a2) (i + 1)) + n2 * h beta * g (map h a2) i)%num))
      by (intros; homs h; reflexivity).
    rewrite h_ifput, h_put. unfold hp at 1; cbn [fst snd]. homs h.
    destruct (Nat.eqb (m - 1) 1); homs h; reflexivity.
  Qed.
  Lemma h_trun alpha beta l : forall s,
    hst (fold_left (tstep alpha beta) l s) = fold_left (tstep (h alpha) (h beta)) (map h l) (hst s).
  Proof. induction l; intros s; simpl; auto. rewrite IHl, h_tstep. reflexivity. Qed.

  Lemma h_transform1D c alpha beta : map h (transform1D c alpha beta) = transform1D (map h c) (h alpha) (h beta).
  Proof.
    unfold transform1D. rewrite map_length.
    match goal with |- map h (firstn (mr ?s) (tc ?s)) = firstn (mr ?s') (tc ?s') =>
      assert (E : hst s = s'); [| rewrite <- E; cbn [hst mr tc]; rewrite firstn_map; reflexivity] end.
    rewrite h_trun. f_equal.
    - rewrite <- skipn_map. reflexivity.
    - unfold hst; cbn [t1 t2 t3 tc mr]. f_equal; repeat (rewrite ?(h_upd (h:=h)), ?(h_repeat0 (h:=h)); homs h); reflexivity.
  Qed.
End HT.
