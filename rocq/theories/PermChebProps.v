(** * Property C120: the arrays of all_permutations_cheb multiply a row by a Chebyshev polynomial of one variable *)
From Coq Require Import List Arith Bool Lia Permutation Reals Lra.
From Verif Require Import RSum Cheb Tensor PolySpec MonMultProofs TermModel LinAlgModel LinAlgProofs2 PermModel PermProofs PermProps PerturbModel PerturbProps PermChebModel.
Import ListNotations.

(** ** Specification *)
(** the three arrays, added up, give the row of 2 T_k(x_var) p for every polynomial p of degree at most D - k *)
Definition multipliesBy (dim D var k : nat) (cs : list (list nat)) (t : list nat * list nat * list nat) : Prop :=
  let '(P, P2, P3) := t in length P = length cs /\ length P2 = length cs /\ length P3 = length cs /\
  forall (c : list nat -> R) (x : list R), length x = dim -> (forall v, length v = dim -> D < list_sum v + k -> c v = 0%R) ->
    (2 * chebT k (nth var x 0) * chebRow cs (rowOf c cs) x =
     chebRow cs (permuteRow 0 (rowOf c cs) P) x + chebRow cs (permuteRow 0 (rowOf c cs) P2) x + chebRow cs (permuteRow 0 (rowOf c cs) P3) x)%R.

(** ** Proofs *)
Lemma reindex (U : list (list nat)) (c : list nat -> R) (B : list nat -> R) (f g : list nat -> list nat) (b b' : list nat -> bool) : NoDup U ->
  (forall v, In v U -> b v = true -> c v <> 0%R -> In (f v) U /\ b' (f v) = true /\ g (f v) = v) ->
  (forall r, In r U -> b' r = true -> c (g r) <> 0%R -> In (g r) U /\ b (g r) = true /\ f (g r) = r) ->
  Rsum (map (fun v => if b v then (c v * B (f v))%R else 0%R) U) = Rsum (map (fun r => if b' r then (c (g r) * B r)%R else 0%R) U).
Proof.
  intros ND H1 H2. set (nz := fun y : R => if Req_EM_T y 0 then false else true).
  assert (NZ : forall y, nz y = true <-> y <> 0%R) by (intros y; unfold nz; destruct (Req_EM_T y 0); split; congruence).
  rewrite (Rsum_filter _ (fun v => b v && nz (c v)) U), (Rsum_filter _ (fun r => b' r && nz (c (g r))) U).
  rewrite (Rsum_zero _ (filter (fun v => negb (b v && nz (c v))) U)), (Rsum_zero _ (filter (fun r => negb (b' r && nz (c (g r)))) U)).
  2:{ intros r Hr. apply filter_In in Hr as [_ Q]. destruct (b' r); auto. cbn in Q. destruct (Req_EM_T (c (g r)) 0) as [E|E]; [rewrite E; ring|]. apply NZ in E. rewrite E in Q. discriminate. }
  2:{ intros r Hr. apply filter_In in Hr as [_ Q]. destruct (b r); auto. cbn in Q. destruct (Req_EM_T (c r) 0) as [E|E]; [rewrite E; ring|]. apply NZ in E. rewrite E in Q. discriminate. }
  rewrite !Rplus_0_r. transitivity (Rsum (map (fun r => if b' r then (c (g r) * B r)%R else 0%R) (map f (filter (fun v => b v && nz (c v)) U)))).
  - rewrite map_map. apply Rsum_map_ext. intros v Hv. apply filter_In in Hv as [Iv Q]. apply andb_true_iff in Q as [Q1 Q2]. apply NZ in Q2. destruct (H1 v Iv Q1 Q2) as (_ & -> & ->). rewrite Q1. reflexivity.
  - apply Rsum_perm, Permutation_map, NoDup_Permutation; [|apply NoDup_filter; auto|].
    + assert (G : forall l, incl l (filter (fun v => b v && nz (c v)) U) -> NoDup l -> NoDup (map f l)).
      { induction l as [|v l IH]; intros HI HN; cbn; constructor; inversion HN; subst.
        - intros Q. apply in_map_iff in Q as (v' & E & Iv'). assert (K : forall w, In w (v :: l) -> g (f w) = w).
          { intros w Hw. apply HI, filter_In in Hw as [Iw Q]. apply andb_true_iff in Q as [Q1 Q2]. apply NZ in Q2. apply H1; auto. }
          pose proof (K v (or_introl eq_refl)) as K1. pose proof (K v' (or_intror Iv')) as K2. rewrite E in K2. congruence.
        - apply IH; auto. intros w Hw. apply HI. right. auto. }
      apply G; [apply incl_refl|apply NoDup_filter; auto].
    + intros r. rewrite in_map_iff. split.
      * intros (v & <- & Hv). apply filter_In in Hv as [Iv Q]. apply andb_true_iff in Q as [Q1 Q2]. apply NZ in Q2. destruct (H1 v Iv Q1 Q2) as (A & A2 & A3). apply filter_In. split; auto. rewrite A2, A3. apply andb_true_iff. split; auto. apply NZ. auto.
      * intros Hr. apply filter_In in Hr as [Ir Q]. apply andb_true_iff in Q as [Q1 Q2]. apply NZ in Q2. destruct (H2 r Ir Q1 Q2) as (A & A2 & A3). exists (g r). split; auto. apply filter_In. split; auto. rewrite A2. apply NZ. auto.
Qed.
Lemma addMon_power dim : forall var k v, length v = dim -> var < dim -> addMon' v (powerOf dim var k) = upd v var (nth var v 0 + k).
Proof.
  unfold powerOf. induction dim as [|dim IH]; intros var k v L Hv; [lia|]. destruct v as [|a v]; [discriminate|]. cbn in L. destruct var as [|var]; cbn [repeat upd addMon' nth].
  - f_equal. replace dim with (length v) by lia. apply addMon_zero.
  - f_equal; [lia|]. apply IH; lia.
Qed.
Lemma sum_upd : forall l w j, w < length l -> list_sum (upd l w j) + nth w l 0 = list_sum l + j.
Proof.
  induction l as [|a l IH]; intros w j Hw; cbn in Hw; [lia|]. destruct w; cbn [upd nth]; [cbn; lia|]. specialize (IH w j ltac:(lia)).
  change (list_sum (a :: upd l w j)) with (a + list_sum (upd l w j)). change (list_sum (a :: l)) with (a + list_sum l). lia.
Qed.
Lemma power_length dim var k : length (powerOf dim var k) = dim.
Proof. unfold powerOf. rewrite upd_length, repeat_length. auto. Qed.
Lemma power_sum dim var k : var < dim -> list_sum (powerOf dim var k) = k.
Proof. intros H. unfold powerOf. pose proof (sum_upd (repeat 0 dim) var k ltac:(rewrite repeat_length; auto)) as S. rewrite nth_repeat, sum_zeros in S. lia. Qed.
Lemma power_succ dim var k : var < dim -> addMon' (powerOf dim var k) (unit_mon dim var) = powerOf dim var (S k).
Proof.
  intros H. change (unit_mon dim var) with (powerOf dim var 1). rewrite addMon_power by (auto; apply power_length). unfold powerOf. rewrite nth_upd_eq, upd_upd by (rewrite repeat_length; auto). f_equal. lia.
Qed.

Section Entry.
  Variables (dim D var k : nat).
  Hypothesis Hv : var < dim.
  Hypothesis HD : 1 <= D.
  Notation U := (colsAll dim D).
  Lemma NU : NoDup U. Proof. apply NoDup_colsAll. lia. Qed.
  (** the shifted half *)
  Lemma shifted P (c : list nat -> R) x : goodFor dim D (powerOf dim var k) P -> (forall v, length v = dim -> D < list_sum v + k -> c v = 0%R) ->
    chebRow U (permuteRow 0%R (rowOf c U) P) x = Rsum (map (fun v => c v * basis chebT (upd v var (nth var v 0%nat + k)%nat) x)%R U).
  Proof.
    intros G Hc. set (c' := fun m => if k <=? nth var m 0 then c (upd m var (nth var m 0 - k)) else 0%R).
    rewrite (good_multiplies 0%R dim D (powerOf dim var k) P c c'); [|apply power_length|auto|rewrite power_sum by auto; auto|].
    - rewrite chebRow_map. symmetry.
      transitivity (Rsum (map (fun v => if true then (c v * basis chebT (upd v var (nth var v 0%nat + k)%nat) x)%R else 0%R) U)); [reflexivity|].
      rewrite (reindex U c (fun r => basis chebT r x) (fun v => upd v var (nth var v 0 + k)) (fun m => upd m var (nth var m 0 - k)) (fun _ => true) (fun m => k <=? nth var m 0) NU).
      + apply Rsum_map_ext. intros m _. unfold c'. destruct (k <=? nth var m 0); ring.
      + intros v Iv _ Nz. apply colsAll_In in Iv as [L S]. assert (S' : list_sum v + k <= D) by (destruct (Nat.le_gt_cases (list_sum v + k) D); auto; exfalso; apply Nz, Hc; auto; lia).
        rewrite nth_upd_eq by lia. pose proof (sum_upd v var (nth var v 0 + k) ltac:(lia)). split; [apply colsAll_In; rewrite upd_length; split; auto; lia|]. split; [apply Nat.leb_le; lia|].
        rewrite upd_upd. replace (nth var v 0 + k - k) with (nth var v 0) by lia. apply upd_nth.
      + intros m Im Q _. apply Nat.leb_le in Q. apply colsAll_In in Im as [L S]. pose proof (sum_upd m var (nth var m 0 - k) ltac:(lia)). split; [apply colsAll_In; rewrite upd_length; split; auto; lia|]. split; auto.
        rewrite nth_upd_eq, upd_upd by lia. replace (nth var m 0 - k + k) with (nth var m 0) by lia. apply upd_nth.
    - split.
      + intros v vw L M. apply monProduct_iff in M as [_ ->]. rewrite addMon_power by auto. unfold c'. rewrite nth_upd_eq by lia. replace (k <=? nth var v 0 + k) with true by (symmetry; apply Nat.leb_le; lia).
        rewrite upd_upd. replace (nth var v 0 + k - k) with (nth var v 0) by lia. rewrite upd_nth. auto.
      + intros m L N. unfold c'. destruct (Nat.leb_spec k (nth var m 0)) as [Q|Q]; auto. exfalso. apply (N (upd m var (nth var m 0 - k))); [rewrite upd_length; auto|]. apply monProduct_iff.
        split; [rewrite upd_length, power_length; auto|]. rewrite addMon_power by (auto; rewrite upd_length; auto). rewrite nth_upd_eq, upd_upd by lia. replace (nth var m 0 - k + k) with (nth var m 0) by lia. symmetry. apply upd_nth.
  Qed.
End Entry.

Lemma nth_skip {A} (d : A) : forall t l j, t <= j -> nth (j - t) (skipn t l) d = nth j l d.
Proof. induction t as [|t IH]; intros l j H; [cbn; f_equal; lia|]. destruct l as [|a l]; [cbn; destruct (j - S t); destruct j; auto|]. destruct j as [|j]; [lia|]. cbn [skipn nth Nat.sub]. apply IH. lia. Qed.
Lemma inverse_len P : length (inverse_P P) = length P.
Proof.
  unfold inverse_P. assert (G : forall l a, length (fold_left (fun inv i => upd inv (nth i P 0) i) l a) = length a) by (induction l as [|i l IH]; intros a; cbn; auto; rewrite IH, upd_length; auto).
  rewrite G. apply repeat_length.
Qed.
Definition topOf (dim D : nat) : nat := num_mons D dim + num_mons (D - 1) dim.
Lemma top_spec dim D : 1 <= dim -> 1 <= D -> topOf dim D <= length (colsAll dim D) /\
  (forall j, j < topOf dim D -> D - 1 <= list_sum (nth j (colsAll dim D) [])) /\
  (forall j, topOf dim D <= j < length (colsAll dim D) -> list_sum (nth j (colsAll dim D) []) + 2 <= D) /\ list_sum (nth 0 (colsAll dim D) []) = D.
Proof.
  intros Hd HD. destruct dim as [|k]; [lia|]. destruct D as [|D]; [lia|]. unfold topOf. rewrite <- !cols_length. replace (S D - 1) with D by lia. set (A := cols (S k) (S D)). set (B := cols (S k) D).
  assert (HA : forall j, j < length A -> list_sum (nth j A []) = S D) by (intros j Hj; apply (cols_In (S k)), nth_In; auto).
  assert (HB : forall j, j < length B -> list_sum (nth j B []) = D) by (intros j Hj; apply (cols_In (S k)), nth_In; auto).
  assert (A0 : 0 < length A).
  { destruct A eqn:E; [|cbn; lia]. exfalso. assert (I : In (powerOf (S k) 0 (S D)) A) by (apply cols_In; split; [apply power_length|apply power_sum; lia]). rewrite E in I. destruct I. }
  assert (E : exists C, colsAll (S k) (S D) = A ++ B ++ C /\ forall v, In v C -> list_sum v + 2 <= S D).
  { destruct D as [|D]; [exists []; cbn [colsAll]; split; [rewrite app_nil_r; reflexivity|intros v []]|]. exists (colsAll (S k) D). split; [reflexivity|]. intros v Hin. apply colsAll_In in Hin. lia. }
  destruct E as (C & -> & HC). rewrite !app_length. split; [lia|]. split; [|split].
  - intros j Hj. destruct (Nat.lt_ge_cases j (length A)) as [Q|Q]; [rewrite app_nth1, HA by auto; lia|]. rewrite app_nth2, app_nth1 by lia. rewrite HB by lia. lia.
  - intros j Hj. rewrite app_nth2, app_nth2 by lia. apply HC, nth_In. lia.
  - rewrite app_nth1, HA by auto. lia.
Qed.

Lemma chebRow_perm (U : list (list nat)) (c : list nat -> R) p x (h : list nat -> R) : length p = length U ->
  (forall j, j < length U -> nth (nth j p 0) (rowOf c U) 0%R = h (nth j U [])) -> chebRow U (permuteRow 0%R (rowOf c U) p) x = Rsum (map (fun r => h r * basis chebT r x)%R U).
Proof.
  intros L H. rewrite chebRow_sum by (unfold permuteRow; rewrite map_length; auto). rewrite Rsum_nth, map_length. apply sumn_ext. intros j Hj. rewrite (nthmap _ _ _ []) by auto. rewrite <- H by auto.
  unfold permuteRow. rewrite (nthmap _ _ _ 0) by lia. reflexivity.
Qed.
Lemma product_split dim D var k (c : list nat -> R) x : var < dim -> length x = dim ->
  (2 * chebT k (nth var x 0) * chebRow (colsAll dim D) (rowOf c (colsAll dim D)) x =
   Rsum (map (fun v => c v * basis chebT (upd v var (nth var v 0%nat + k)%nat) x)%R (colsAll dim D)) + Rsum (map (fun v => c v * basis chebT (upd v var (dist (nth var v 0%nat) k)) x)%R (colsAll dim D)))%R.
Proof.
  intros Hv Lx. rewrite chebRow_map, <- Rsum_map_plus, <- Rsum_map_scal. apply Rsum_map_ext. intros v Iv. apply colsAll_In in Iv as [Lv _].
  rewrite <- Rmult_plus_distr_l, <- (basis_product dim var k v x Lv Lx Hv). ring.
Qed.

Lemma entry_ok dim D var P : var < dim -> 1 <= D -> goodFor dim D (unit_mon dim var) P ->
  multipliesBy dim D var 1 (colsAll dim D) (entryOf dim D (rev (colsAll dim D)) var P).
Proof.
  intros Hv HD G. pose proof G as [PP HP]. pose proof (Permutation_length PP) as LP. rewrite seq_length in LP. destruct (top_spec dim D ltac:(lia) HD) as (T0 & T1 & T2 & T3).
  unfold entryOf. cbv zeta. fold (topOf dim D). set (U := colsAll dim D) in *. set (top := topOf dim D) in *. assert (ND : NoDup U) by (apply NoDup_colsAll; lia).
  assert (NP : NoDup P) by (eapply Permutation_NoDup; [apply Permutation_sym; exact PP|apply seq_NoDup]).
  assert (RP : forall c, In c P -> c < length P) by (intros c Hc; apply (Permutation_in _ PP), in_seq in Hc; lia).
  assert (LI : length (repeat 0 top ++ skipn top (inverse_P P)) = length U) by (rewrite app_length, repeat_length, skipn_length, inverse_len; lia).
  split; [auto|]. split; [auto|]. split; [rewrite map_length, seq_length; auto|]. intros c x Lx Hc.
  assert (NR : forall i, i < length U -> nth i (rowOf c U) 0%R = c (nth i U [])) by (intros i Hi; unfold rowOf; apply nthmap; auto).
  assert (Hpos : 0 < length U) by (destruct U; [cbn in T3; lia|cbn; lia]).
  assert (LU : forall j, j < length U -> length (nth j U []) = dim) by (intros j Hj; apply (colsAll_In dim D), nth_In; auto).
  assert (R0 : nth 0 (rowOf c U) 0%R = 0%R) by (rewrite NR by auto; apply Hc; [apply LU; auto|lia]).
  unfold U. rewrite product_split by auto. change (unit_mon dim var) with (powerOf dim var 1) in *. rewrite <- (shifted dim D var 1 Hv HD P c x G Hc). fold U. rewrite Rplus_assoc. f_equal.
  rewrite (chebRow_perm U c (repeat 0 top ++ skipn top (inverse_P P)) x (fun r => c (upd r var (nth var r 0 + 1))) LI).
  2:{ intros j Hj. pose proof (LU j Hj) as Lj. pose proof (sum_upd (nth j U []) var (nth var (nth j U []) 0 + 1) ltac:(lia)) as SU. destruct (Nat.lt_ge_cases j top) as [Q|Q].
      - rewrite app_nth1, nth_repeat, R0 by (rewrite repeat_length; auto). symmetry. apply Hc; [rewrite upd_length; auto|]. specialize (T1 j Q). lia.
      - rewrite app_nth2, repeat_length, nth_skip by (rewrite ?repeat_length; auto). assert (Ij : In j P) by (apply (Permutation_in _ (Permutation_sym PP)), in_seq; lia).
        destruct (In_nth _ _ 0 Ij) as (i & Hi & Ei). assert (EI : nth j (inverse_P P) 0 = i) by (rewrite <- Ei; apply inverse_P_spec; auto). rewrite EI, NR by lia. f_equal.
        destruct (HP i ltac:(lia)) as [(v & Lv & E1 & E2)|[_ Q2]]; rewrite Ei in *.
        + rewrite <- E1, E2. apply addMon_power; auto.
        + exfalso. rewrite power_sum in Q2 by auto. specialize (T2 j ltac:(lia)). lia. }
  rewrite (chebRow_perm U c _ x (fun r => if nth var r 0 =? 1 then c (upd r var 0) else 0%R)).
  2:{ rewrite map_length, seq_length. auto. }
  2:{ intros j Hj. rewrite (nthmap _ _ _ 0) by (rewrite seq_length; lia). rewrite seq_nth by lia. rewrite rev_nth by (rewrite LP; lia). rewrite LP. replace (length U - S (length U - 1 - (0 + j))) with j by lia. cbn [Nat.add].
      destruct (Nat.eqb_spec (nth var (nth j U []) 0) 1) as [Q|Q]; [|exact R0]. assert (Rj : nth j P 0 < length U) by (rewrite <- LP; apply RP, nth_In; lia). rewrite NR by auto. f_equal.
      pose proof (LU j Hj) as Lj. destruct (HP j Hj) as [(v & Lv & E1 & E2)|[Q2 _]].
      - rewrite E2, <- E1, addMon_power, upd_upd by auto. rewrite <- E1, addMon_power, nth_upd_eq in Q by (auto; lia). replace 0 with (nth var v 0) by lia. symmetry. apply upd_nth.
      - exfalso. apply (Q2 (upd (nth j U []) var 0)); [rewrite upd_length; auto|]. rewrite addMon_power by (auto; rewrite upd_length; auto). rewrite nth_upd_eq, upd_upd by lia. rewrite <- Q. apply upd_nth. }
  transitivity (Rsum (map (fun v => if 1 <=? nth var v 0%nat then (c v * basis chebT (upd v var (nth var v 0%nat - 1)%nat) x)%R else 0%R) U) +
                Rsum (map (fun v => if nth var v 0%nat =? 0 then (c v * basis chebT (upd v var 1%nat) x)%R else 0%R) U))%R.
  { rewrite <- Rsum_map_plus. apply Rsum_map_ext. intros v _. unfold dist. destruct (nth var v 0) as [|a]; cbn [Nat.leb Nat.eqb]; [replace (0 - 1 + (1 - 0)) with 1 by lia; ring|replace (S a - 1 + (1 - S a)) with (S a - 1) by lia; ring]. }
  f_equal.
  - rewrite (reindex U c (fun r => basis chebT r x) (fun v => upd v var (nth var v 0 - 1)) (fun r => upd r var (nth var r 0 + 1)) (fun v => 1 <=? nth var v 0) (fun _ => true) ND).
    + reflexivity.
    + intros v Iv Q Nz. apply Nat.leb_le in Q. apply colsAll_In in Iv as [L S]. pose proof (sum_upd v var (nth var v 0 - 1) ltac:(lia)). split; [apply colsAll_In; rewrite upd_length; split; auto; lia|]. split; auto.
      rewrite nth_upd_eq, upd_upd by lia. replace (nth var v 0 - 1 + 1) with (nth var v 0) by lia. apply upd_nth.
    + intros r Ir _ Nz. apply colsAll_In in Ir as [L S]. pose proof (sum_upd r var (nth var r 0 + 1) ltac:(lia)) as SU.
      assert (S' : list_sum r + 1 <= D) by (destruct (Nat.le_gt_cases (list_sum r + 1) D); auto; exfalso; apply Nz, Hc; [rewrite upd_length; auto|lia]).
      split; [apply colsAll_In; rewrite upd_length; split; auto; lia|]. rewrite nth_upd_eq, upd_upd by lia. split; [apply Nat.leb_le; lia|]. replace (nth var r 0 + 1 - 1) with (nth var r 0) by lia. apply upd_nth.
  - rewrite (reindex U c (fun r => basis chebT r x) (fun v => upd v var 1) (fun r => upd r var 0) (fun v => nth var v 0 =? 0) (fun r => nth var r 0 =? 1) ND).
    + apply Rsum_map_ext. intros r _. destruct (nth var r 0 =? 1); ring.
    + intros v Iv Q Nz. apply Nat.eqb_eq in Q. apply colsAll_In in Iv as [L S]. pose proof (sum_upd v var 1 ltac:(lia)).
      assert (S' : list_sum v + 1 <= D) by (destruct (Nat.le_gt_cases (list_sum v + 1) D); auto; exfalso; apply Nz, Hc; auto; lia).
      split; [apply colsAll_In; rewrite upd_length; split; auto; lia|]. rewrite nth_upd_eq, upd_upd by lia. split; auto. rewrite <- Q. apply upd_nth.
    + intros r Ir Q Nz. apply Nat.eqb_eq in Q. apply colsAll_In in Ir as [L S]. pose proof (sum_upd r var 0 ltac:(lia)).
      split; [apply colsAll_In; rewrite upd_length; split; auto; lia|]. rewrite nth_upd_eq, upd_upd by lia. split; auto. rewrite <- Q. apply upd_nth.
Qed.

(** ** The dictionary *)
Definition entryGood (dim D var k : nat) (t : list nat * list nat * list nat) : Prop := multipliesBy dim D var k (colsAll dim D) t /\ goodFor dim D (powerOf dim var k) (fst (fst t)).
Definition dictGood (dim D : nat) (d : cdict) : Prop := forall var k t, var < dim -> 1 <= k -> cget (powerOf dim var k) d = Some t -> entryGood dim D var k t.
Definition has (dim : nat) (d : cdict) (var k : nat) : Prop := exists t, cget (powerOf dim var k) d = Some t.
Lemma power_inj dim v k v' k' : v < dim -> v' < dim -> 1 <= k -> powerOf dim v k = powerOf dim v' k' -> v = v' /\ k = k'.
Proof.
  intros H H' Hk E. assert (N : forall u j i, u < dim -> nth i (powerOf dim u j) 0 = if Nat.eq_dec u i then j else 0).
  { intros u j i Hu. unfold powerOf. destruct (Nat.eq_dec u i) as [<-|Ne]; [rewrite nth_upd_eq by (rewrite repeat_length; auto); auto|]. rewrite nth_upd_neq by auto. apply nth_repeat. }
  pose proof (f_equal (fun l => nth v l 0) E) as Ev. cbn beta in Ev. rewrite !N in Ev by auto. destruct (Nat.eq_dec v v) as [_|]; [|congruence]. destruct (Nat.eq_dec v' v) as [->|]; [auto|lia].
Qed.
Lemma cget_cons key key' t d : cget key ((key', t) :: d) = if sameKey key key' then Some t else cget key d. Proof. reflexivity. Qed.
Lemma add_good dim D d var k t : var < dim -> 1 <= k -> dictGood dim D d -> entryGood dim D var k t -> dictGood dim D ((powerOf dim var k, t) :: d).
Proof.
  intros Hv Hk Hd He v' k' t' Hv' Hk' E. rewrite cget_cons in E. destruct (sameKey (powerOf dim v' k') (powerOf dim var k)) eqn:S; [|apply Hd; auto].
  apply sameKey_iff, power_inj in S; auto. destruct S as [-> ->]. injection E as <-. exact He.
Qed.
Lemma add_has dim d key t v k : has dim d v k -> has dim ((key, t) :: d) v k.
Proof. intros [t' E]. unfold has. rewrite cget_cons. destruct (sameKey _ _); eauto. Qed.
Lemma add_has_new dim d t v k : has dim ((powerOf dim v k, t) :: d) v k.
Proof. unfold has. rewrite cget_cons. replace (sameKey (powerOf dim v k) (powerOf dim v k)) with true by (symmetry; apply sameKey_iff; auto). eauto. Qed.

Lemma start_good dim D : 1 <= D -> forall n s d, s + n <= dim -> dictGood dim D d -> (forall i, i < s -> has dim d i 1) ->
  exists d', startCheb dim D (rev (colsAll dim D)) (seq s n) d = Some d' /\ dictGood dim D d' /\ (forall i, i < s + n -> has dim d' i 1).
Proof.
  intros HD. induction n as [|n IH]; intros s d Hs Hd Hh; [exists d; split; [reflexivity|]; split; auto; intros i Hi; apply Hh; lia|]. cbn [seq startCheb].
  destruct (good_unit dim D s ltac:(lia) HD) as (P & -> & G). change (unit_mon dim s) with (powerOf dim s 1) in *. set (e := entryOf dim D _ s P).
  assert (Ge : entryGood dim D s 1 e) by (split; [apply entry_ok; auto; lia|exact G]).
  destruct (IH (S s) ((powerOf dim s 1, e) :: d) ltac:(lia)) as (d' & E & Gd & Hh').
  - apply add_good; auto; lia.
  - intros i Hi. destruct (Nat.eq_dec i s) as [->|Ne]; [apply add_has_new|apply add_has, Hh; lia].
  - exists d'. split; auto. split; auto. intros i Hi. apply Hh'. lia.
Qed.

Lemma sub_power dim i k : i < dim -> subMon (powerOf dim i (S k)) (powerOf dim i 1) = Some (powerOf dim i k).
Proof. intros Hi. apply subMon_some; rewrite !power_length; auto. split; auto. apply power_succ. auto. Qed.
Lemma next_ok dim D var k ms ms' p2 p3 Q : var < dim -> 1 <= D -> 1 <= k -> mons_ordered dim D = Some ms -> rev ms = colsAll dim D -> mons_ordered dim (D - 1) = Some ms' ->
  cheb_perturbation2 (powerOf dim var k) ms' (monDict ms) var = Some p2 -> cheb_perturbation3 (powerOf dim var k) ms' (monDict ms) var = Some p3 ->
  goodFor dim D (powerOf dim var k) Q -> entryGood dim D var k (Q, p2, p3).
Proof.
  intros Hv HD Hk E1 ER E2 E3 E4 G. split; [|exact G]. destruct (C119_reflection_arrays dim D var k Hv HD Hk) as (ms1 & ms1' & q2 & q3 & F1 & F2 & F3 & F4 & L2 & L3 & F).
  rewrite E1 in F1. injection F1 as <-. rewrite E2 in F2. injection F2 as <-. rewrite E3 in F3. injection F3 as <-. rewrite E4 in F4. injection F4 as <-. rewrite ER in F.
  assert (LM : length ms = length (colsAll dim D)) by (rewrite <- ER, rev_length; auto). pose proof (Permutation_length (proj1 G)) as LQ. rewrite seq_length in LQ.
  split; [auto|]. split; [lia|]. split; [lia|]. intros c x Lx Hc. rewrite (F c x Lx Hc). f_equal. f_equal. rewrite (shifted dim D var k Hv HD Q c x G Hc).
  unfold rowOf, chebRow. f_equal. clear. induction (colsAll dim D) as [|v l IH]; cbn; auto. rewrite IH. reflexivity.
Qed.
Lemma calcs_good dim D i ms ms' : i < dim -> 1 <= D -> mons_ordered dim D = Some ms -> rev ms = colsAll dim D -> mons_ordered dim (D - 1) = Some ms' ->
  forall n s d, 2 <= s -> dictGood dim D d -> has dim d i 1 -> has dim d i (s - 1) ->
  exists d', addCalcs dim ms' (monDict ms) i (map (fun k => powerOf dim i k) (seq s n)) d = Some d' /\ dictGood dim D d' /\
    (forall v k, has dim d v k -> has dim d' v k) /\ (forall k, s <= k < s + n -> has dim d' i k).
Proof.
  intros Hi HD E1 ER E2. induction n as [|n IH]; intros s d Hs Hd H1 Hp; [exists d; split; [reflexivity|]; split; auto; split; auto; intros; lia|]. cbn [seq map addCalcs].
  destruct s as [|s]; [lia|]. replace (S s - 1) with s in Hp by lia. change (unit_mon dim i) with (powerOf dim i 1). rewrite sub_power by auto.
  destruct Hp as [[[Q q2] q3] Eq]. destruct H1 as [[[P r2] r3] Ep]. rewrite Eq, Ep.
  destruct (C119_reflection_arrays dim D i (S s) Hi HD ltac:(lia)) as (ms1 & ms1' & p2 & p3 & F1 & F2 & F3 & F4 & _). rewrite E1 in F1. injection F1 as <-. rewrite E2 in F2. injection F2 as <-. rewrite F3, F4.
  assert (G : goodFor dim D (powerOf dim i (S s)) (takeIdx P Q)).
  { rewrite <- power_succ by auto. apply good_comp; auto; [apply power_length| |]; [exact (proj2 (Hd i 1 _ Hi (le_n 1) Ep))|refine (proj2 (Hd i s _ Hi _ Eq)); lia]. }
  assert (Ge : entryGood dim D i (S s) (takeIdx P Q, p2, p3)) by (eapply next_ok; eauto; lia).
  destruct (IH (S (S s)) ((powerOf dim i (S s), (takeIdx P Q, p2, p3)) :: d) ltac:(lia)) as (d' & E & Gd & K1 & K2).
  - apply add_good; auto; lia.
  - apply add_has. eexists; eauto.
  - replace (S (S s) - 1) with (S s) by lia. apply add_has_new.
  - exists d'. split; auto. split; auto. split; [intros v k Hk; apply K1, add_has; auto|]. intros k Hk. destruct (Nat.eq_dec k (S s)) as [->|Ne]; [apply K1, add_has_new|apply K2; lia].
Qed.
Lemma vars_good dim deg D ms ms' : 1 <= D -> mons_ordered dim D = Some ms -> rev ms = colsAll dim D -> mons_ordered dim (D - 1) = Some ms' ->
  forall is d, (forall i, In i is -> i < dim) -> dictGood dim D d -> (forall i, i < dim -> has dim d i 1) ->
  exists d', addVars dim deg ms' (monDict ms) is d = Some d' /\ dictGood dim D d' /\ (forall v k, has dim d v k -> has dim d' v k) /\ (forall i k, In i is -> 2 <= k <= deg -> has dim d' i k).
Proof.
  intros HD E1 ER E2. induction is as [|i is IH]; intros d Hin Hd H1; [exists d; split; [reflexivity|]; split; auto; split; auto; intros i k []|]. cbn [addVars].
  assert (Hi : i < dim) by (apply Hin; left; auto). destruct (calcs_good dim D i ms ms' Hi HD E1 ER E2 (deg + 1 - 2) 2 d (le_n 2) Hd (H1 i Hi) (H1 i Hi)) as (d1 & E & G1 & K1 & K2).
  unfold mons_1D. change (fun i0 : nat => upd (repeat 0 dim) i i0) with (fun k : nat => powerOf dim i k). rewrite E.
  destruct (IH d1) as (d' & E' & G' & K1' & K2'); auto; [intros; apply Hin; right; auto|]. exists d'. split; auto. split; auto. split; auto.
  intros j k [<-|Hj] Hk; [apply K1', K2; lia|apply K2'; auto].
Qed.

(** ** Theorem C120 *)
(** For every number of variables and every matrix degree >= 1 the call returns, and for every variable and every exponent from 1 to deg (and
    always for 1) the dictionary has an entry whose three arrays multiply by 2 T_k(x_var). *)
Theorem C120_chebyshev_multiplication_arrays :
  forall (deg dim D : nat), 1 <= dim -> 1 <= D ->
    exists dict ms, all_permutations_cheb deg dim D = Some dict /\ mons_ordered dim D = Some ms /\
      forall var k, var < dim -> 1 <= k <= Nat.max 1 deg -> exists t, cget (powerOf dim var k) dict = Some t /\ multipliesBy dim D var k (rev ms) t.
Proof.
  intros deg dim D Hdim HD. assert (C1 := colsAll_ordered dim D Hdim). destruct (C85_mons_ordered dim D Hdim) as (ms & E1 & _). destruct (C85_mons_ordered dim (D - 1) Hdim) as (ms' & E2 & _).
  rewrite E1 in C1. injection C1 as ER. assert (EM : rev (colsAll dim D) = ms) by (rewrite <- ER; apply rev_involutive).
  unfold all_permutations_cheb. rewrite E1, E2. destruct (start_good dim D HD dim 0 [] (le_n dim)) as (d & Es & Gd & Hh); [intros v k t _ _ Q; discriminate|intros; lia|]. rewrite EM in Es. rewrite Es.
  destruct (vars_good dim deg D ms ms' HD E1 ER E2 (seq 0 dim) d) as (d' & Ev & Gd' & K1 & K2); auto; [intros i Hi; apply in_seq in Hi; lia|].
  exists d', ms. split; auto. split; auto. intros var k Hv Hk. assert (Hk' : has dim d' var k).
  { destruct (Nat.eq_dec k 1) as [->|Ne]; [apply K1, Hh; lia|]. apply K2; [apply in_seq; lia|lia]. }
  destruct Hk' as [t Et]. exists t. split; auto. rewrite ER. apply (Gd' var k t); auto. lia.
Qed.
Print Assumptions C120_chebyshev_multiplication_arrays.

(** two variables, matrix degree 2, columns (2,0) (1,1) (0,2) (1,0) (0,1) (0,0): the entries of T_1(y) and of T_2(x), and a polynomial the first
    one applies to: 1 + 2 x + 3 y, of degree 1 *)
Example C120_example :
  option_map (@rev _) (mons_ordered 2 2) = Some [[2; 0]; [1; 1]; [0; 2]; [1; 0]; [0; 1]; [0; 0]] /\
  (exists d, all_permutations_cheb 2 2 2 = Some d /\ cget (powerOf 2 1 1) d = Some ([0; 3; 4; 1; 5; 2], [0; 0; 0; 0; 0; 4], [0; 3; 0; 0; 5; 0]) /\
     cget (powerOf 2 0 2) d = Some ([5; 1; 3; 2; 4; 0], [0; 0; 0; 0; 0; 0], [5; 0; 0; 3; 0; 0])) /\
  let c := fun v => match v with [0; 0] => 1%R | [1; 0] => 2%R | [0; 1] => 3%R | _ => 0%R end in
  c [1; 0] <> 0%R /\ forall v, length v = 2 -> 2 < list_sum v + 1 -> c v = 0%R.
Proof.
  split; [vm_compute; reflexivity|]. split; [vm_compute; eexists; repeat split; reflexivity|]. cbv zeta. split; [lra|].
  intros [|a [|b [|? ?]]] L S; try discriminate. cbn in S. destruct a as [|[|a]]; destruct b as [|[|b]]; try lia; reflexivity.
Qed.
