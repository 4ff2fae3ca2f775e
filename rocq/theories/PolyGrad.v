(** * Gradients of polynomial objects are the partial derivatives *)
From Coq Require Import Reals List Lia Lra Arith Bool.
From Verif Require Import Num RSum Cheb Tensor PolySpec TransformModel TransformNDProofs PolyModel PolyEval PolyArith PolyCheb.
Import ListNotations.
Local Open Scope R_scope.

(** ** Basis functions *)
Lemma dlim_ext f h x l : (forall v, f v = h v) -> derivable_pt_lim f x l -> derivable_pt_lim h x l.
Proof. intros E D eps He. destruct (D eps He) as [d Hd]. exists d. intros k Hk Hk2. rewrite <- !E. apply Hd; auto. Qed.
Lemma dlim_sumn n (f : nat -> R -> R) (d : nat -> R) x : (forall i, (i < n)%nat -> derivable_pt_lim (f i) x (d i)) ->
  derivable_pt_lim (fun v => sumn n (fun i => f i v)) x (sumn n d).
Proof.
  induction n; intros H; cbn [sumn]; [apply derivable_pt_lim_const|].
  apply (derivable_pt_lim_plus (fun v => sumn n (fun i => f i v)) (f n)); auto.
Qed.
Lemma dlim_scal c f x l : derivable_pt_lim f x l -> derivable_pt_lim (fun v => c * f v) x (c * l).
Proof. apply derivable_pt_lim_scal. Qed.

Lemma chebT_V n x : chebT (S n) x = x * chebV (S n) x - chebV n x.
Proof. pose proof (chebV_T (S n) x) as A. rewrite chebV_SS in A. lra. Qed.
Lemma chebT_deriv n x : derivable_pt_lim (chebT n) x (INR n * chebV n x).
Proof.
  induction n as [| |n IH0 IH1] using nat_ind2.
  - cbn [INR]. rewrite Rmult_0_l. apply (dlim_ext (fun _ => 1)); [intros; rewrite chebT_0; auto|]. apply derivable_pt_lim_const.
  - cbn [INR]. rewrite chebV_1, Rmult_1_l. apply (dlim_ext (fun v => v)); [intros; rewrite chebT_1; auto|]. apply derivable_pt_lim_id.
  - apply (dlim_ext (fun v => 2 * v * chebT (S n) v - chebT n v)); [intros; rewrite chebT_SS; auto|].
    assert (A : derivable_pt_lim (fun v => 2 * v) x (2 * 1)) by (apply dlim_scal, derivable_pt_lim_id).
    pose proof (derivable_pt_lim_mult _ _ _ _ _ A IH1) as B. pose proof (derivable_pt_lim_minus _ _ _ _ _ B IH0) as C.
    unfold mult_fct, minus_fct in C. replace (INR (S (S n)) * chebV (S (S n)) x) with (2 * 1 * chebT (S n) x + 2 * x * (INR (S n) * chebV (S n) x) - INR n * chebV n x); [exact C|].
    rewrite chebV_SS, chebT_V, !S_INR. ring.
Qed.
(** 2 T_j + V_{j-1} = V_{j+1}: the rule behind chebder *)
Lemma chebV_step n x : chebV (S (S n)) x = 2 * chebT (S n) x + chebV n x.
Proof. rewrite chebT_V, chebV_SS. ring. Qed.

(** ** One axis *)
Definition isDer (phi : nat -> R -> R) (der : list R -> list R) : Prop :=
  forall c x, c <> [] -> derivable_pt_lim (fun v => eval1 phi c v) x (eval1 phi (der c) x).

Lemma polyder_isDer : isDer pw (@polyder R R_num).
Proof.
  intros c x Hc. destruct c as [|a [|b c]]; [congruence| |].
  - cbn [polyder]. unfold eval1. cbn [length sumn nth]. unfold pw. cbn [pow]. rnum.
    apply (dlim_ext (fun _ => a)); [intros; ring|]. replace (0 + a * 0 * 1) with 0 by ring. apply derivable_pt_lim_const.
  - cbn [polyder]. set (r := b :: c). unfold eval1 at 2. rewrite map_length, seq_length.
    apply (dlim_ext (fun v => a + sumn (length r) (fun i => nth i r 0 * v ^ (S i)))).
    { intros v. rewrite eval1_cons. unfold pw at 1. cbn [pow]. rewrite Rmult_1_r. f_equal. }
    replace (sumn (length r) _) with (0 + sumn (length r) (fun i => nth i r 0 * (INR (S i) * x ^ i))).
    + apply (derivable_pt_lim_plus (fun _ => a)); [apply derivable_pt_lim_const|].
      apply (dlim_sumn (length r) (fun i v => nth i r 0 * v ^ S i)). intros i Hi.
      apply (dlim_scal (nth i r 0) (fun v => v ^ S i)). apply (derivable_pt_lim_pow x (S i)).
    + rewrite Rplus_0_l. apply sumn_ext. intros i Hi. rewrite nth_map_seq by auto. rewrite nofnat_R. unfold g, pw. rewrite Nat.add_1_r. rnum. ring.
Qed.

Lemma sumn_upd N l i v (f : nat -> R) : (i < N)%nat -> (i < length l)%nat ->
  sumn N (fun k => nth k (upd l i v) 0 * f k) = sumn N (fun k => nth k l 0 * f k) + (v - nth i l 0) * f i.
Proof.
  intros Hi Hl. rewrite (sumn_ext N _ (fun k => nth k l 0 * f k + (if Nat.eqb k i then (v - nth i l 0) * f i else 0))).
  - rewrite sumn_plus. f_equal. rewrite (sumn_single N i); auto.
    + rewrite Nat.eqb_refl. auto.
    + intros k _ Hk. apply Nat.eqb_neq in Hk. rewrite Hk. auto.
  - intros k Hk. rewrite nth_upd by auto. destruct (Nat.eqb_spec k i); [subst; ring|ring].
Qed.
Definition dsum (c : list R) (m : nat) (x : R) : R := sumn m (fun i => nth i c 0 * (INR i * chebV i x)).
Definition chstep (st : list R * list R) (j : nat) : list R * list R :=
  let '(c, der) := st in (upd c (j - 2) (nth (j - 2) c 0 + (INR j * nth j c 0) / INR (j - 2)), upd der (j - 1) (INR (2 * j) * nth j c 0)).
Lemma chebder_loop x N m : forall c der, (m + 3 <= length c)%nat -> (m + 3 <= S N)%nat -> length der = N ->
  (forall k, (k < m + 2)%nat -> nth k der 0 = 0) ->
  let '(c', der') := fold_left chstep (rev (seq 3 m)) (c, der) in
  dsum c' 3 x + eval1 chebT der' x = dsum c (m + 3) x + eval1 chebT der x /\ length c' = length c /\ length der' = N /\ nth 0 der' 0 = 0 /\ nth 1 der' 0 = 0.
Proof.
  induction m as [|m IH]; intros c der Lc LN Ld Hz.
  - cbn [seq rev fold_left]. repeat split; auto; apply Hz; lia.
  - rewrite seq_S, rev_app_distr. cbn [rev app fold_left]. unfold chstep at 2. set (j := (3 + m)%nat).
    pose proof (IH (upd c (j - 2) (nth (j - 2) c 0 + INR j * nth j c 0 / INR (j - 2))) (upd der (j - 1) (INR (2 * j) * nth j c 0))) as IH'.
    rewrite !upd_length in IH'. specialize (IH' ltac:(lia) ltac:(lia) Ld).
    assert (Hz' : forall k, (k < m + 2)%nat -> nth k (upd der (j - 1) (INR (2 * j) * nth j c 0)) 0 = 0).
    { intros k Hk. rewrite nth_upd_neq by (unfold j; lia). apply Hz. lia. }
    specialize (IH' Hz'). destruct (fold_left chstep _ _) as [c' der']. destruct IH' as (E & L1 & L2 & Z0 & Z1).
    repeat split; auto. rewrite E. unfold eval1. rewrite upd_length, Ld. rewrite sumn_upd by (unfold j; lia).
    rewrite (Hz (j - 1)%nat) by (unfold j; lia). unfold dsum. rewrite sumn_upd by (unfold j; lia).
    replace (S m + 3)%nat with (S (m + 3)) by lia. cbn [sumn]. replace (m + 3)%nat with j by (unfold j; lia).
    assert (Nz : INR (j - 2) <> 0) by (apply not_0_INR; unfold j; lia).
    replace (chebV j x) with (2 * chebT (j - 1) x + chebV (j - 2) x).
    + rewrite mult_INR. simpl (INR 2). field. auto.
    + unfold j. replace (3 + m - 1)%nat with (S (S m)) by lia. replace (3 + m - 2)%nat with (S m) by lia. symmetry. apply (chebV_step (S m)).
Qed.
Lemma fold_chstep l : forall st, fold_left (fun st j => let '(c, der) := st in
          (upd c (j - 2) (@nadd R R_num (@g R R_num c (j - 2)) (@ndiv R R_num (@nmul R R_num (@nofnat R R_num j) (@g R R_num c j)) (@nofnat R R_num (j - 2)))),
           upd der (j - 1) (@nmul R R_num (@nofnat R R_num (2 * j)) (@g R R_num c j)))) l st = fold_left chstep l st.
Proof. induction l as [|j l IH]; intros [c der]; cbn [fold_left]; auto. rewrite IH. unfold chstep at 2. rewrite !nofnat_R. reflexivity. Qed.
Lemma chebder_length c : c <> [] -> length (@chebder R R_num c) = Nat.max 1 (length c - 1).
Proof.
  intros H. destruct c as [|a [|b c]]; [congruence|reflexivity|]. unfold chebder. rewrite fold_chstep.
  set (n := (length (a :: b :: c) - 1)%nat). assert (Hn : n = S (length c)) by (unfold n; cbn; lia).
  assert (L : forall l st, length (snd (fold_left chstep l st)) = length (snd st)).
  { induction l as [|j l IH]; intros [u v]; cbn [fold_left]; auto. rewrite IH. cbn. apply upd_length. }
  specialize (L (rev (seq 3 (n - 2))) (a :: b :: c, repeat (@n0 R R_num) n)). destruct (fold_left chstep _ _) as [c' der']. cbn [snd] in L. rewrite repeat_length in L.
  rewrite upd_length. destruct (Nat.ltb 1 n); rewrite ?upd_length, L; lia.
Qed.
Lemma chebder_isDer : isDer chebT (@chebder R R_num).
Proof.
  intros c x Hc.
  assert (D : derivable_pt_lim (fun v => eval1 chebT c v) x (dsum c (length c) x)).
  { apply (dlim_sumn (length c) (fun i v => nth i c 0 * chebT i v)). intros i Hi. apply (dlim_scal (nth i c 0) (chebT i)). apply chebT_deriv. }
  replace (eval1 chebT (chebder c) x) with (dsum c (length c) x); auto.
  destruct c as [|a [|b c]]; [congruence| |].
  - unfold dsum, eval1. cbn. ring.
  - unfold chebder. rewrite fold_chstep. set (c0 := a :: b :: c). set (n := (length c0 - 1)%nat). assert (Hn : n = S (length c)) by (unfold n, c0; cbn; lia).
    change (@n0 R R_num) with 0. destruct (Nat.ltb_spec 1 n) as [L|L].
    + pose proof (chebder_loop x n (n - 2) c0 (repeat 0 n)) as Q. specialize (Q ltac:(unfold c0; cbn [length]; lia) ltac:(lia) (repeat_length _ _)).
      specialize (Q ltac:(intros; apply nth_repeat0)). destruct (fold_left chstep _ _) as [c' der']. destruct Q as (E & L1 & L2 & Z0 & Z1).
      replace (n - 2 + 3)%nat with (length c0) in E by (unfold c0; cbn [length]; lia). rewrite eval1_zeros, Rplus_0_r in E. rewrite <- E.
      unfold eval1. rewrite !upd_length, L2. rewrite sumn_upd by (rewrite ?upd_length; lia). rewrite nth_upd_neq by lia. rewrite sumn_upd by lia.
      rewrite Z0, Z1. unfold dsum. cbn [sumn]. rewrite chebT_0, chebT_1, chebV_SS, chebV_1, chebV_0. unfold g. rewrite nlit_R. rnum. simpl INR. field.
    + assert (length c = 0)%nat by lia. destruct c; [|discriminate]. unfold c0, n. cbn. unfold dsum, eval1, g. cbn. lra.
Qed.
Lemma polyder_length c : c <> [] -> length (@polyder R R_num c) = Nat.max 1 (length c - 1).
Proof.
  intros H. destruct c as [|a [|b c]]; [congruence|reflexivity|]. cbn [polyder]. rewrite map_length, seq_length. cbn [length]. lia.
Qed.

(** ** All axes *)
Lemma basisL_upd_one phis : forall idx x d v, nth d phis phi1 = phi1 -> basisL phis idx (upd x d v) = basisL phis idx x.
Proof.
  induction phis as [|phi phis IH]; intros [|i idx] [|w x] [|d] v E; cbn in *; auto.
  - rewrite E. reflexivity.
  - rewrite IH; auto.
Qed.
Lemma dlim_sumidx s : forall (f : list nat -> R -> R) (d : list nat -> R) x,
  (forall r, inrange s r -> derivable_pt_lim (f r) x (d r)) -> derivable_pt_lim (fun v => sumidx s (fun r => f r v)) x (sumidx s d).
Proof.
  induction s as [|n s IH]; intros f d x H; cbn [sumidx].
  - apply (H []). constructor.
  - apply (dlim_sumn n (fun i v => sumidx s (fun r => f (i :: r) v))). intros i Hi. apply (IH (fun r v => f (i :: r) v)). intros r Hr. apply H. constructor; auto.
Qed.
Lemma nth_repeat_lt {A} (a b : A) m : forall d, (d < m)%nat -> nth d (repeat a m) b = a.
Proof. induction m; intros [|d] Hd; cbn; auto; try lia. apply IHm. lia. Qed.
Section Axis.
  Variables (phi : nat -> R -> R) (der : list R -> list R).
  Hypothesis Hder : isDer phi der.
  Hypothesis Hlen : forall c, c <> [] -> length (der c) = Nat.max 1 (length c - 1).
  (** [der] on non-empty lists only; a uniform version *)
  Lemma alongAxis_wf d (t : tensor R) : wf t -> (d < ndim t)%nat -> wf (@alongAxis R R_num der d t) /\ ndim (@alongAxis R R_num der d t) = ndim t.
  Proof.
    intros W Hd. pose proof (axis_pos t d W Hd) as P. unfold alongAxis, ndim. rewrite shp_tbuild, upd_length. split; auto.
    apply wf_tbuild. apply Forall_upd; [apply W|]. rewrite Hlen; [lia|]. intros K. pose proof (fibre_length t d (repeat 0%nat (ndim t))) as F. unfold ndim in F. rewrite K in F. cbn in F. lia.
  Qed.
  Lemma fibre_alongAxis d (t : tensor R) r : wf t -> (d < ndim t)%nat -> inrange (upd (shp t) d 1%nat) r ->
    fibre (@alongAxis R R_num der d t) d r = der (fibre t d r).
  Proof.
    intros W Hd Hr. pose proof (axis_pos t d W Hd) as P.
    assert (U : forall q, length (der (fibre t d q)) = Nat.max 1 (nth d (shp t) 0%nat - 1)).
    { intros q. rewrite Hlen; rewrite ?fibre_length; auto. intros K. pose proof (fibre_length t d q) as F. rewrite K in F. cbn in F. lia. }
    apply nth_ext with (d := 0) (d' := 0).
    - rewrite fibre_length. unfold alongAxis. rewrite shp_tbuild, nth_upd_eq by auto. rewrite !U. auto.
    - intros k Hk. rewrite fibre_length in Hk. unfold alongAxis in Hk. rewrite shp_tbuild, nth_upd_eq in Hk by auto.
      change 0 with (@n0 R R_num) at 1. rewrite fibre_nth by (unfold alongAxis; rewrite shp_tbuild, nth_upd_eq; auto).
      unfold alongAxis. rewrite tget_tbuild.
      + rewrite fibre_upd. rewrite nth_upd_eq; [reflexivity|]. apply inrange_length in Hr. rewrite upd_length in Hr. unfold ndim in Hd. lia.
      + replace (upd (shp t) d (length (der (fibre t d (repeat 0%nat (ndim t))))))
          with (upd (upd (shp t) d 1%nat) d (length (der (fibre t d (repeat 0%nat (ndim t)))))) by apply upd_upd.
        apply inrange_upd; auto.
  Qed.
  Lemma alongAxis_deriv d (t : tensor R) x : wf t -> (d < ndim t)%nat -> length x = ndim t ->
    derivable_pt_lim (fun v => evalT phi t (upd x d v)) (nth d x 0) (evalT phi (@alongAxis R R_num der d t) x).
  Proof.
    intros W Hd Lx. destruct (alongAxis_wf d t W Hd) as [W' N']. pose proof (axis_pos t d W Hd) as P.
    rewrite <- (evalL_repeat phi (alongAxis der d t)). rewrite (evalL_axis _ _ x d); rewrite ?N', ?repeat_length; auto.
    assert (Sh : upd (shp (@alongAxis R R_num der d t)) d 1%nat = upd (shp t) d 1%nat) by (unfold alongAxis; rewrite shp_tbuild; apply upd_upd). rewrite Sh.
    assert (Np : nth d (repeat phi (ndim t)) phi1 = phi).
    { apply nth_repeat_lt; auto. }
    apply (dlim_ext (fun v => sumidx (upd (shp t) d 1%nat) (fun r => eval1 phi (@fibre R R_num t d r) v * basisL (upd (repeat phi (ndim t)) d phi1) r x))).
    - intros v. rewrite <- (evalL_repeat phi t). rewrite (evalL_axis _ t (upd x d v) d) by (rewrite ?repeat_length, ?upd_length; auto).
      apply sumidx_ext. intros r Hr. rewrite Np, nth_upd_eq by lia. rewrite basisL_upd_one; [reflexivity|]. rewrite nth_upd_eq by (rewrite repeat_length; auto). reflexivity.
    - apply (dlim_sumidx (upd (shp t) d 1%nat) (fun r v => eval1 phi (@fibre R R_num t d r) v * basisL (upd (repeat phi (ndim t)) d phi1) r x)).
      intros r Hr. rewrite Np, fibre_alongAxis by auto. rewrite Rmult_comm.
      apply (dlim_ext (fun v => basisL (upd (repeat phi (ndim t)) d phi1) r x * eval1 phi (fibre t d r) v)); [intros; ring|].
      apply dlim_scal. apply Hder. intros K. pose proof (fibre_length t d r) as F. rewrite K in F. cbn in F. lia.
  Qed.
  Lemma jacobian_deriv ev (t : tensor R) x d : evalsBasis ev phi -> wf t -> length x = ndim t -> (d < ndim t)%nat ->
    derivable_pt_lim (fun v => evalT phi t (upd x d v)) (nth d x 0) (nth d (map (fun D => @evalAt R R_num ev D x) (@jacobian R R_num der t)) 0).
  Proof.
    intros HE W Lx Hd. unfold jacobian. rewrite map_map. rewrite nth_map_seq by auto.
    destruct (alongAxis_wf d t W Hd) as [W' N']. rewrite (evalAt_eval ev phi) by (rewrite ?N'; auto). apply alongAxis_deriv; auto.
  Qed.
End Axis.
