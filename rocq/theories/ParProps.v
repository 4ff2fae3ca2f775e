(** * Property C87: bounding_parallelepiped covers the part of a hyperplane inside the hypercube (LinearProjection.py) *)
From Coq Require Import List Arith Bool ZArith Reals Lra Lia Permutation.
From Verif Require Import Num RSum Tensor Cheb PolySpec LinAlgSpec LinAlgModel LinAlgProofs ParModel ParProofs.
Import ListNotations.
Local Open Scope R_scope.

(** ** Specification *)
(** a linear polynomial in n >= 2 variables that is not constant, given by its coefficient array *)
Definition linearPoly (n : nat) (L : tensor R) : Prop :=
  (2 <= n)%nat /\ ndim L = n /\ Forall (fun k => (2 <= k)%nat) (shp L) /\ isLinear L /\ exists i, (i < n)%nat /\ tget L (unitIdx n i) <> 0.
(** none of its coefficients is taken for zero by np.isclose unless it is zero *)
Definition noTinyCoefficient (n : nat) (L : tensor R) : Prop :=
  forall i, (i < n)%nat -> tget L (unitIdx n i) = 0 \/ / 10 ^ 8 < Rabs (tget L (unitIdx n i)).
(** the point p0 + t_1 e_1 + ... + t_m e_m *)
Definition pointAt (p0 : list R) (edges : list (list R)) (t : list R) (x : list R) : Prop :=
  length x = length p0 /\ forall j, (j < length p0)%nat -> nth j x 0 = nth j p0 0 + sumn (length edges) (fun k => nth k t 0 * nth j (nth k edges []) 0).
Definition parallelepiped (p0 : list R) (edges : list (list R)) (x : list R) : Prop :=
  exists t, length t = length edges /\ Forall (fun v => 0 <= v <= 1) t /\ pointAt p0 edges t x.

(** what is asked of scipy.linalg.qr(A, pivoting=True), A with the given n-dimensional columns: Q orthogonal, A[:, p] = Q U for a
    permutation p, U upper triangular, and pivoting: no entry right of and below a diagonal entry is larger than it *)
Definition orthogonal (n : nat) (Q : nat -> nat -> R) : Prop :=
  (forall r s, (r < n)%nat -> (s < n)%nat -> sumn n (fun j => Q j r * Q j s) = if Nat.eqb r s then 1 else 0) /\
  (forall i j, (i < n)%nat -> (j < n)%nat -> sumn n (fun r => Q i r * Q j r) = if Nat.eqb i j then 1 else 0).
Definition pivotedQR (n : nat) (cols : list (list R)) (QU : (nat -> nat -> R) * (nat -> nat -> R)) : Prop :=
  let '(Q, U) := QU in let k := length cols in
  orthogonal n Q /\
  (exists p, Permutation p (seq 0 k) /\
     forall j t, (j < n)%nat -> (t < k)%nat -> sumn n (fun r => Q j r * U r t) = nth j (nth (nth t p 0%nat) cols []) 0) /\
  (forall i t, (t < i)%nat -> (i < n)%nat -> (t < k)%nat -> U i t = 0) /\
  (forall s i t, (s <= i)%nat -> (s <= t)%nat -> (i < n)%nat -> (t < k)%nat -> Rabs (U i t) <= Rabs (U s s)).
(** what is asked of np.linalg.qr of a square matrix *)
Definition plainQR (n : nat) (cols : list (list R)) (QU : (nat -> nat -> R) * (nat -> nat -> R)) : Prop :=
  let '(Q, U) := QU in
  orthogonal n Q /\
  (forall j t, (j < n)%nat -> (t < n)%nat -> sumn n (fun r => Q j r * U r t) = nth j (nth t cols []) 0) /\
  (forall i t, (t < i)%nat -> (i < n)%nat -> U i t = 0).
(** the two factorisations made for L, if any, are right *)
Definition goodQR (n : nat) (qr qr0 : nat -> list (list R) -> (nat -> nat -> R) * (nat -> nat -> R)) (L : tensor R) : Prop :=
  let const := tget L (repeat 0%nat n) in let coeff := map (fun i => tget L (unitIdx n i)) (seq 0 n) in
  (forall v0 vs, vertices const coeff = v0 :: vs -> pivotedQR n (shiftedBy v0 (v0 :: vs)) (qr n (shiftedBy v0 (v0 :: vs)))) /\
  (let cols := coeff :: map (fun j => upd (repeat 0 n) j 1) (seq 0 (n - 1)) in plainQR n cols (qr0 n cols)).

(** ** Proofs *)
Lemma nth_map_seq (f : nat -> R) m j : (j < m)%nat -> nth j (map f (seq 0 m)) 0 = f j.
Proof. intros H. rewrite (nth_indep _ 0 (f 0%nat)) by (rewrite map_length, seq_length; auto). rewrite map_nth, seq_nth by auto. reflexivity. Qed.
Lemma nth_map_seqL (f : nat -> list R) a m j : (j < m)%nat -> nth j (map f (seq a m)) [] = f (a + j)%nat.
Proof. intros H. rewrite (nth_indep _ [] (f 0%nat)) by (rewrite map_length, seq_length; auto). rewrite map_nth, seq_nth by auto. reflexivity. Qed.
Lemma nth_mapR (f : R -> R) l j : (j < length l)%nat -> nth j (map f l) 0 = f (nth j l 0).
Proof. intros H. rewrite (nth_indep _ 0 (f 0)) by (rewrite map_length; auto). apply map_nth. Qed.
Section C87.
  Variables (n : nat) (L : tensor R) (qr qr0 : nat -> list (list R) -> (nat -> nat -> R) * (nat -> nat -> R)).
  Hypothesis HL : linearPoly n L.
  Let const := tget L (repeat 0%nat n).
  Let coeff := map (fun i => tget L (unitIdx n i)) (seq 0 n).
  Lemma coeff_len : length coeff = n.
  Proof. unfold coeff. rewrite map_length, seq_length. auto. Qed.
  Lemma coeff_nth i : (i < n)%nat -> nth i coeff 0 = tget L (unitIdx n i).
  Proof. intros Hi. unfold coeff. rewrite (nth_indep _ 0 (tget L (unitIdx n 0))) by (rewrite map_length, seq_length; auto). rewrite (map_nth (fun i => tget L (unitIdx n i))), seq_nth by auto. reflexivity. Qed.
  Lemma part_ok : @linearPart R R_num L = Some (const, coeff).
  Proof.
    destruct HL as (H2 & Hn & Hs & _). unfold linearPart. rewrite Hn. rewrite item_ok by (rewrite <- Hn; apply zero_inrange; auto).
    rewrite (optAll_map _ (fun i => tget L (unitIdx n i))); auto. intros i Hi. apply in_seq in Hi. apply item_ok. rewrite <- Hn. apply unit_inrange; auto.
  Qed.
  Lemma value_plane x : length x = n -> cheb_eval L x = planeAt const coeff x.
  Proof.
    intros Lx. destruct HL as (H2 & Hn & Hs & Hl & _). rewrite cheb_linear by (auto; congruence). unfold planeAt. rewrite coeff_len, Hn. f_equal.
    apply sumn_ext. intros d Hd. rewrite coeff_nth by auto. reflexivity.
  Qed.
  Lemma vert_iff p : In p (@vertices R R_num const coeff) <-> exists i, (i < n)%nat /\ length p = n /\ / 10 ^ 8 < Rabs (nth i coeff 0) /\ inCube n (fun j => nth j p 0) /\
    (forall j, (j < n)%nat -> j <> i -> corner (nth j p 0)) /\ planeAt const coeff p = 0.
  Proof.
    unfold vertices. rewrite uniqueRows_in, in_flat_map, coeff_len. split.
    - intros (i & Hi & Hp). apply in_seq in Hi. apply edgePoints_iff in Hp; [|rewrite coeff_len; lia]. rewrite coeff_len in Hp. exists i. split; [lia|]. exact Hp.
    - intros (i & Hi & Hp). exists i. split; [apply in_seq; lia|]. apply edgePoints_iff; rewrite coeff_len; auto.
  Qed.
  Lemma coeff_nonzero : exists i, (i < n)%nat /\ nth i coeff 0 <> 0.
  Proof. destruct HL as (_ & _ & _ & _ & i & Hi & H). exists i. split; auto. rewrite coeff_nth; auto. Qed.

  (** the part with vertices *)
  Section Verts.
    Variables (v0 : list R) (vs : list (list R)).
    Hypothesis Hv : @vertices R R_num const coeff = v0 :: vs.
    Let verts := v0 :: vs.
    Let cols := @shiftedBy R R_num v0 verts.
    Variables (Q U : nat -> nat -> R).
    Hypothesis HQ : pivotedQR n cols (Q, U).
    Let k := length cols.
    Let a (j v : nat) : R := nth j (nth v verts []) 0 - nth j v0 0.
    Lemma k_verts : k = length verts.
    Proof. unfold k, cols, shiftedBy. apply map_length. Qed.
    Lemma vert_props v : (v < k)%nat -> length (nth v verts []) = n /\ planeAt const coeff (nth v verts []) = 0.
    Proof.
      intros H. rewrite k_verts in H. assert (Hin : In (nth v verts []) verts) by (apply nth_In; auto). unfold verts in Hin at 2. rewrite <- Hv in Hin.
      apply vert_iff in Hin as (i & _ & H1 & _ & _ & _ & H2). auto.
    Qed.
    Lemma v0_props : length v0 = n /\ planeAt const coeff v0 = 0.
    Proof. apply (vert_props 0). rewrite k_verts. cbn. lia. Qed.
    Lemma cols_nth v j : (v < k)%nat -> (j < n)%nat -> nth j (nth v cols []) 0 = a j v.
    Proof.
      intros Hvk Hj. destruct (vert_props v Hvk) as [L1 _]. destruct v0_props as [L0 _]. unfold cols, shiftedBy, a.
      rewrite (nth_indep _ [] (map (fun p => nsub (fst p) (snd p)) (combine ([] : list R) v0))) by (rewrite map_length, <- k_verts; auto).
      rewrite (map_nth (fun v => map (fun p => nsub (fst p) (snd p)) (combine v v0))).
      rewrite (nth_indep _ 0 (@nsub R R_num (fst (0, 0)) (snd (0, 0)))) by (rewrite map_length, combine_length; lia).
      rewrite (map_nth (fun p => nsub (fst p) (snd p))). rewrite combine_nth by lia. reflexivity.
    Qed.
    Lemma plane_diff v : (v < k)%nat -> sumn n (fun j => nth j coeff 0 * a j v) = 0.
    Proof.
      intros H. destruct (vert_props v H) as [_ P1]. destruct v0_props as [_ P0]. unfold planeAt in *. rewrite coeff_len in *. unfold a.
      rewrite (sumn_ext n _ (fun j => nth j coeff 0 * nth j (nth v verts []) 0 - nth j coeff 0 * nth j v0 0)) by (intros; ring). rewrite sumn_minus. lra.
    Qed.
    Let lo r := @minOf R R_num (U r) k.
    Let hi r := @maxOf R R_num (U r) k.
    Lemma facts : (0 < n)%nat /\ (0 < k)%nat /\ orthogonal n Q /\ (exists p, (forall t, (t < k)%nat -> (p t < k)%nat) /\ (forall v, (v < k)%nat -> exists t, (t < k)%nat /\ p t = v) /\
       (forall j t, (j < n)%nat -> (t < k)%nat -> sumn n (fun r => Q j r * U r t) = a j (p t))) /\
      (forall i t, (t < i)%nat -> (i < n)%nat -> (t < k)%nat -> U i t = 0) /\
      (forall s i t, (s <= i)%nat -> (s <= t)%nat -> (i < n)%nat -> (t < k)%nat -> Rabs (U i t) <= Rabs (U s s)).
    Proof.
      destruct HQ as (HO & (p & Hp & HA) & HU & HP). destruct HL as (H2 & _). split; [lia|]. split; [rewrite k_verts; cbn; lia|]. split; auto. split; [|split; auto].
      assert (Lp : length p = k) by (apply Permutation_length in Hp; rewrite seq_length in Hp; auto).
      assert (P1 : forall t, (t < k)%nat -> (nth t p 0 < k)%nat).
      { intros t Ht. assert (Hin : In (nth t p 0%nat) p) by (apply nth_In; lia). apply (Permutation_in _ Hp) in Hin. apply in_seq in Hin. fold k in Hin. lia. }
      exists (fun t => nth t p 0%nat). split; auto. split.
      - intros v Hvk. assert (Hin : In v (seq 0 k)) by (apply in_seq; lia). apply (Permutation_in _ (Permutation_sym Hp)) in Hin.
        apply (In_nth _ _ 0%nat) in Hin as (t & Ht & E). exists t. split; [lia|auto].
      - intros j t Hj Ht. fold k in HA. rewrite HA by auto. apply cols_nth; auto.
    Qed.
    (** coordinates of the vertices with respect to Q *)
    Lemma vert_coords v r : (v < k)%nat -> (r < n)%nat -> exists t, (t < k)%nat /\ sumn n (fun j => Q j r * a j v) = U r t.
    Proof.
      intros Hvk Hr. destruct facts as (Hn & Hk & [Qc Qr] & (p & P1 & P2 & HA) & HU & HP). destruct (P2 v Hvk) as (t & Ht & <-). exists t. split; auto.
      apply (coords n k Q U a p Qc HA r t Hr Ht).
    Qed.
    Lemma lastZero t : (t < k)%nat -> U (n - 1)%nat t = 0.
    Proof.
      intros Ht. destruct facts as (Hn & Hk & [Qc Qr] & (p & P1 & P2 & HA) & HU & HP).
      apply (last_row n k Q U a p (fun j => nth j coeff 0) Hn Qr P1 HA HU HP plane_diff coeff_nonzero t Ht).
    Qed.
    Lemma edgeFlat r t : (r < n)%nat -> (t < k)%nat -> U r t <> 0 -> sumn n (fun j => nth j coeff 0 * Q j r) = 0.
    Proof.
      intros Hr Ht. destruct facts as (Hn & Hk & [Qc Qr] & (p & P1 & P2 & HA) & HU & HP).
      apply (w_zero n k Q U a p (fun j => nth j coeff 0) Hn P1 HA HU HP plane_diff r t Hr Ht).
    Qed.
    Definition box (x : nat -> R) : Prop := forall r, (r < n)%nat -> (if Nat.eqb r (n - 1) then 0 else lo r) <= sumn n (fun j => Q j r * (x j - nth j v0 0)) <= (if Nat.eqb r (n - 1) then 0 else hi r).
    Lemma box_all : noTinyCoefficient n L -> forall x, inCube n x -> onPlane n const (fun j => nth j coeff 0) x -> box x.
    Proof.
      intros HT x HC HP'. destruct facts as (Hn & Hk & _).
      apply (slice_in_hull n const (fun j => nth j coeff 0) box); auto.
      - intros y z E H r Hr. specialize (H r Hr). rewrite <- (sumn_ext n (fun j => Q j r * (y j - nth j v0 0))); auto. intros j Hj. rewrite E; auto.
      - intros y z s Hs Hy Hz r Hr. specialize (Hy r Hr). specialize (Hz r Hr).
        rewrite (sumn_ext n _ (fun j => s * (Q j r * (y j - nth j v0 0)) + (1 - s) * (Q j r * (z j - nth j v0 0)))) by (intros; ring).
        rewrite sumn_plus, !sumn_scal. destruct (Nat.eqb r (n - 1)); nra.
      - intros y i Hi Hci Hcy Hpy Hco r Hr.
        assert (Hin : In (map y (seq 0 n)) verts).
        { unfold verts. rewrite <- Hv. apply vert_iff. exists i.
          assert (E : forall j, (j < n)%nat -> nth j (map y (seq 0 n)) 0 = y j).
          { intros j Hj. rewrite (nth_indep _ 0 (y 0%nat)) by (rewrite map_length, seq_length; auto). rewrite map_nth, seq_nth by auto. reflexivity. }
          split; auto. split; [rewrite map_length, seq_length; auto|]. split.
          { rewrite coeff_nth in * by auto. destruct (HT i Hi); auto; congruence. }
          split; [intros j Hj; rewrite E by auto; auto|]. split; [intros j Hj Hne; rewrite E by auto; auto|].
          unfold planeAt. rewrite coeff_len. etransitivity; [|exact Hpy]. f_equal. apply sumn_ext. intros j Hj. rewrite E; auto. }
        apply (In_nth _ _ []) in Hin as (v & Hvl & Ev). rewrite <- k_verts in Hvl.
        destruct (vert_coords v r Hvl Hr) as (t & Ht & Et).
        assert (Ey : sumn n (fun j => Q j r * (y j - nth j v0 0)) = U r t).
        { rewrite <- Et. apply sumn_ext. intros j Hj. unfold a. rewrite Ev. rewrite nth_map_seq by auto. reflexivity. }
        rewrite Ey. destruct (Nat.eqb_spec r (n - 1)); [subst; rewrite lastZero by auto; lra|].
        split; [apply (minOf_le (U r) k Hk); auto|apply (maxOf_ge (U r) k Hk); auto].
      - apply coeff_nonzero.
    Qed.
  End Verts.

  Lemma covers p0 edges : goodQR n qr qr0 L -> noTinyCoefficient n L -> @bounding_parallelepiped R R_num qr qr0 L = Some (p0, edges) ->
    length p0 = n /\ length edges = (n - 1)%nat /\
    forall x, length x = n -> Forall (fun v => -1 <= v <= 1) x -> cheb_eval L x = 0 -> parallelepiped p0 edges x.
  Proof.
    intros [G1 G2] HT. unfold bounding_parallelepiped. rewrite part_ok. rewrite coeff_len. fold const coeff in G1.
    destruct HL as (Hn2 & _).
    assert (Sl : forall x, length x = n -> Forall (fun v => -1 <= v <= 1) x -> cheb_eval L x = 0 -> inCube n (fun j => nth j x 0) /\ onPlane n const (fun j => nth j coeff 0) (fun j => nth j x 0)).
    { intros x Lx Fx Ex. split.
      - intros j Hj. rewrite Forall_forall in Fx. apply Fx, nth_In. lia.
      - rewrite value_plane in Ex by auto. unfold planeAt in Ex. rewrite coeff_len in Ex. exact Ex. }
    destruct (vertices const coeff) as [|v0 vs] eqn:Hv.
    - intros E. injection E as <- <-. split; [rewrite map_length; apply coeff_len|]. split; [rewrite map_length, seq_length; auto|].
      intros x Lx Fx Ex. exfalso. destruct (Sl x Lx Fx Ex) as [C P].
      apply (slice_in_hull n const (fun j => nth j coeff 0) (fun _ => False)) with (x := fun j => nth j x 0); auto.
      + intros y i Hi Hci Hcy Hpy Hco.
        assert (Hin : In (map y (seq 0 n)) (@vertices R R_num const coeff)).
        { apply vert_iff. exists i. split; auto. split; [rewrite map_length, seq_length; auto|]. split.
          { rewrite coeff_nth in * by auto. destruct (HT i Hi); auto; congruence. }
          split; [intros j Hj; rewrite nth_map_seq by auto; auto|]. split; [intros j Hj Hne; rewrite nth_map_seq by auto; auto|].
          unfold planeAt. rewrite coeff_len. etransitivity; [|exact Hpy]. f_equal. apply sumn_ext. intros j Hj. rewrite nth_map_seq; auto. }
        rewrite Hv in Hin. destruct Hin.
      + apply coeff_nonzero.
    - specialize (G1 v0 vs eq_refl). destruct (qr n (shiftedBy v0 (v0 :: vs))) as [Q U] eqn:EQ. intros E. injection E as <- <-.
      set (k := length (shiftedBy v0 (v0 :: vs))) in *.
      split; [rewrite map_length, seq_length; auto|]. split; [rewrite map_length, seq_length; auto|].
      intros x Lx Fx Ex. destruct (Sl x Lx Fx Ex) as [C P].
      pose proof (box_all v0 vs Hv Q U G1 HT _ C P) as B. unfold box in B. fold k in B.
      set (lo := fun r => @minOf R R_num (U r) k) in *. set (hi := fun r => @maxOf R R_num (U r) k) in *.
      set (y := fun r => sumn n (fun j => Q j r * (nth j x 0 - nth j v0 0))) in *.
      exists (map (fun r => if Reqb (hi r) (lo r) then 0 else (y r - lo r) / (hi r - lo r)) (seq 0 (n - 1))).
      split; [rewrite !map_length; auto|]. split; [|split].
      + apply Forall_forall. intros v Hvin. apply in_map_iff in Hvin as (r & <- & Hr). apply in_seq in Hr. specialize (B r ltac:(lia)).
        destruct (Nat.eqb_spec r (n - 1)); [lia|]. change (lo r <= y r <= hi r) in B. destruct (Reqb (hi r) (lo r)) eqn:Er; [lra|]. apply Reqb_false in Er.
        assert (0 < hi r - lo r) by lra. split; [apply Rmult_le_pos; [lra|apply Rlt_le, Rinv_0_lt_compat; auto]|].
        apply Rmult_le_reg_r with (hi r - lo r); auto. unfold Rdiv. rewrite Rmult_assoc, Rinv_l by lra. lra.
      + rewrite map_length, seq_length. auto.
      + rewrite !map_length, !seq_length. intros j Hj. rewrite nth_map_seq by auto. rewrite nsum_seq. cbn [nadd nmul nsub R_num].
        destruct (facts v0 vs Hv Q U G1) as (_ & _ & [Qc Qr] & _).
        pose proof (expand n Q Qr (fun j => nth j x 0 - nth j v0 0) j Hj) as E. cbv beta in E. change (nth j x 0 - nth j v0 0 = sumn n (fun r => Q j r * y r)) in E.
        replace n with (S (n - 1)) in E at 1 by lia. cbn [sumn] in E.
        assert (Yl : y (n - 1)%nat = 0). { specialize (B (n - 1)%nat ltac:(lia)). rewrite Nat.eqb_refl in B. change (0 <= y (n-1)%nat <= 0) in B. lra. }
        rewrite Yl, Rmult_0_r, Rplus_0_r in E.
        assert (S1 : sumn (n - 1) (fun r => Q j r * y r) = sumn (n - 1) (fun r => Q j r * lo r) + sumn (n - 1) (fun r => nth r (map (fun r => if Reqb (hi r) (lo r) then 0 else (y r - lo r) / (hi r - lo r)) (seq 0 (n - 1))) 0 * nth j (nth r (map (fun r => map (fun j => Q j r * (hi r - lo r)) (seq 0 n)) (seq 0 (n - 1))) []) 0)).
        { rewrite <- sumn_plus. apply sumn_ext. intros r Hr. rewrite nth_map_seq, nth_map_seqL by auto. cbn [Nat.add]. rewrite nth_map_seq by auto.
          specialize (B r ltac:(lia)). destruct (Nat.eqb_spec r (n - 1)); [lia|]. change (lo r <= y r <= hi r) in B.
          destruct (Reqb (hi r) (lo r)) eqn:Er; [apply Reqb_true in Er; assert (y r = lo r) by lra; rewrite H; ring|]. apply Reqb_false in Er. field. lra. }
        change (@n0 R R_num) with 0. change (S (length (shiftedBy v0 vs))) with k. unfold lo, hi in S1 |- *. cbn [nsub nmul R_num] in *. lra.
  Qed.

  Lemma split_value (p0 : list R) (edges : list (list R)) t x : length p0 = n -> pointAt p0 edges t x ->
    planeAt const coeff x = planeAt const coeff p0 + sumn (length edges) (fun k => nth k t 0 * sumn n (fun j => nth j coeff 0 * nth j (nth k edges []) 0)).
  Proof.
    intros Lp [Lx Hx]. unfold planeAt. rewrite coeff_len. rewrite Lp in Hx.
    rewrite (sumn_ext n _ (fun j => nth j coeff 0 * nth j p0 0 + sumn (length edges) (fun k => nth k t 0 * (nth j coeff 0 * nth j (nth k edges []) 0)))).
    - rewrite sumn_plus, sumn_swap. rewrite (sumn_ext (length edges) _ (fun k => nth k t 0 * sumn n (fun j => nth j coeff 0 * nth j (nth k edges []) 0))); [ring|].
      intros k _. apply sumn_scal.
    - intros j Hj. rewrite Hx by auto. rewrite Rmult_plus_distr_l. f_equal. rewrite <- sumn_scal. apply sumn_ext. intros. ring.
  Qed.
  Lemma flat p0 edges : goodQR n qr qr0 L -> @bounding_parallelepiped R R_num qr qr0 L = Some (p0, edges) ->
    forall t x, length t = length edges -> pointAt p0 edges t x -> cheb_eval L x = 0.
  Proof.
    intros [G1 G2]. unfold bounding_parallelepiped. rewrite part_ok. rewrite coeff_len. fold const coeff in G1. pose proof HL as (Hn2 & _).
    destruct (vertices const coeff) as [|v0 vs] eqn:Hv.
    - intros E. injection E as <- <-. intros t x Lt Hx.
      assert (Lp : length (map (fun c => (- const) / nsum (map (fun c => c * c) coeff) * c) coeff) = n) by (rewrite map_length; apply coeff_len).
      pose proof Hx as [Lx _]. rewrite value_plane by (rewrite <- Lp; exact Lx).
      rewrite (split_value _ _ t x Lp Hx). clear Hx.
      assert (S0 : @nsum R R_num (map (fun c => c * c) coeff) = sumn n (fun j => nth j coeff 0 * nth j coeff 0)).
      { rewrite nsum_R, Rsum_nth, map_length, coeff_len. apply sumn_ext. intros j Hj. rewrite nth_mapR by (rewrite coeff_len; auto). reflexivity. }
      assert (Sp : 0 < sumn n (fun j => nth j coeff 0 * nth j coeff 0)).
      { destruct coeff_nonzero as (i & Hi & Hci). rewrite (sumn_except n i) by auto.
        assert (0 <= sumn n (fun j => if Nat.eqb i j then 0 else nth j coeff 0 * nth j coeff 0)) by (apply sumn_nonneg; intros j _; destruct (Nat.eqb i j); nra). nra. }
      assert (E1 : planeAt const coeff (map (fun c => (- const) / nsum (map (fun c => c * c) coeff) * c) coeff) = 0).
      { unfold planeAt. rewrite coeff_len, S0. set (s := sumn n (fun j => nth j coeff 0 * nth j coeff 0)) in *.
        rewrite (sumn_ext n _ (fun j => (- const) / s * (nth j coeff 0 * nth j coeff 0))).
        - rewrite sumn_scal. fold s. field. lra.
        - intros j Hj. rewrite nth_mapR by (rewrite coeff_len; auto). ring. }
      rewrite E1, Rplus_0_l. apply sumn_zero. intros k Hk. rewrite map_length, seq_length in Hk.
      cbv zeta in G2. fold coeff in G2. destruct (qr0 n (coeff :: _)) as [Q U] eqn:EQ. destruct G2 as ([Qc Qr] & HA & HU).
      assert (Ecol : qr0 n (coeff :: map (fun j => upd (repeat (@n0 R R_num) n) j (@n1 R R_num)) (seq 0 (n - 1))) = (Q, U)) by exact EQ.
      try rewrite Ecol. cbn [fst]. rewrite nth_map_seqL by auto.
      replace (sumn n _) with (U 0%nat 0%nat * sumn n (fun j => Q j 0%nat * Q j (1 + k)%nat)).
      + rewrite Qc by lia. cbn. ring.
      + rewrite <- sumn_scal. apply sumn_ext. intros j Hj. rewrite nth_map_seq by auto.
        pose proof (HA j 0%nat Hj ltac:(lia)) as E. cbn [nth] in E. rewrite (sumn_single n 0) in E by (try lia; intros i Hi Hi0; rewrite (HU i 0%nat) by lia; ring). rewrite <- E. ring.
    - specialize (G1 v0 vs eq_refl). destruct (qr n (shiftedBy v0 (v0 :: vs))) as [Q U] eqn:EQ. set (k := length (shiftedBy v0 (v0 :: vs))) in *.
      intros E. injection E as <- <-. change (S (length (shiftedBy v0 vs))) with k. intros t x Lt Hx.
      destruct (facts v0 vs Hv Q U G1) as (_ & Hk & _ & _). fold k in Hk.
      destruct (v0_props v0 vs Hv) as [Lv0 Pv0].
      match type of Hx with pointAt ?p ?e _ _ => set (p0 := p) in *; set (edges := e) in * end.
      assert (Lp : length p0 = n) by (unfold p0; rewrite map_length, seq_length; auto). assert (Le : length edges = (n - 1)%nat) by (unfold edges; rewrite map_length, seq_length; auto).
      pose proof Hx as [Lx _]. rewrite value_plane by congruence. rewrite (split_value _ _ t x Lp Hx). clear Hx.
      assert (W : forall r c, (r < n - 1)%nat -> (c < k)%nat -> U r c * sumn n (fun j => nth j coeff 0 * Q j r) = 0).
      { intros r c Hr Hc. destruct (Req_dec (U r c) 0) as [Z|Z]; [rewrite Z; ring|]. rewrite (edgeFlat v0 vs Hv Q U G1 r c) by (auto; lia). ring. }
      assert (E1 : planeAt const coeff p0 = 0).
      { unfold planeAt. rewrite coeff_len.
        rewrite (sumn_ext n _ (fun j => nth j coeff 0 * nth j v0 0 + sumn (n - 1) (fun r => minOf (U r) k * (nth j coeff 0 * Q j r)))).
        - rewrite sumn_plus, sumn_swap. rewrite (sumn_zero (n - 1)).
          + unfold planeAt in Pv0. rewrite coeff_len in Pv0. lra.
          + intros r Hr. rewrite sumn_scal. destruct (minOf_le (U r) k Hk) as [_ (c & Hc & ->)]. apply W; auto.
        - intros j Hj. unfold p0. rewrite nth_map_seq by auto. rewrite nsum_seq. cbn [nadd nmul R_num]. change (@n0 R R_num) with 0. rewrite Rmult_plus_distr_l, Rplus_comm. f_equal.
          rewrite <- sumn_scal. apply sumn_ext. intros. ring. }
      rewrite E1, Rplus_0_l, Le. apply sumn_zero. intros r Hr. unfold edges. rewrite nth_map_seqL by auto. cbn [Nat.add].
      rewrite (sumn_ext n _ (fun j => (maxOf (U r) k - minOf (U r) k) * (nth j coeff 0 * Q j r))) by (intros j Hj; rewrite nth_map_seq by auto; cbn [nsub nmul R_num]; ring).
      rewrite sumn_scal, Rmult_minus_distr_r. destruct (minOf_le (U r) k Hk) as [_ (c & Hc & ->)]. destruct (maxOf_ge (U r) k Hk) as [_ (c' & Hc' & ->)]. rewrite !W by auto. ring.
  Qed.
End C87.

(** C87: every zero of the linear polynomial in [-1,1]^n lies in the parallelepiped (with coefficients that are 0 or above 1e-8) ... *)
Theorem C87_covers_every_zero_in_the_cube : forall n L qr qr0 p0 edges,
  linearPoly n L -> noTinyCoefficient n L -> goodQR n qr qr0 L ->
  bounding_parallelepiped qr qr0 L = Some (p0, edges) ->
  length p0 = n /\ length edges = (n - 1)%nat /\
  forall x, length x = n -> Forall (fun v => -1 <= v <= 1) x -> cheb_eval L x = 0 -> parallelepiped p0 edges x.
Proof. intros n L qr qr0 p0 edges H1 H2 H3. apply covers; auto. Qed.
Print Assumptions C87_covers_every_zero_in_the_cube.

(** ... and the parallelepiped, with all its prolongations, consists of zeros *)
Theorem C87_consists_of_zeros : forall n L qr qr0 p0 edges,
  linearPoly n L -> goodQR n qr qr0 L -> bounding_parallelepiped qr qr0 L = Some (p0, edges) ->
  forall t x, length t = length edges -> pointAt p0 edges t x -> cheb_eval L x = 0.
Proof. intros n L qr qr0 p0 edges H1 H2 H3. apply (flat n L qr qr0); auto. Qed.
Print Assumptions C87_consists_of_zeros.

(** it always answers *)
Theorem C87_always_answers : forall n L qr qr0, linearPoly n L -> exists p0 edges, bounding_parallelepiped qr qr0 L = Some (p0, edges).
Proof.
  intros n L qr qr0 H. unfold bounding_parallelepiped. rewrite (part_ok n L H). destruct (vertices _ _); [eexists; eexists; reflexivity|].
  destruct (qr _ _). eexists; eexists; reflexivity.
Qed.
Print Assumptions C87_always_answers.

(** ** Examples: 3 x + 4 y *)
Definition plane2 (a b : R) : tensor R := mkT [2; 2]%nat [0; b; a; 0].
Lemma plane2_value a b x y : cheb_eval (plane2 a b) [x; y] = a * x + b * y.
Proof. unfold cheb_eval. cbn. unfold tget. cbn. rewrite ?chebT_0, ?chebT_1. cbn. ring. Qed.
Lemma plane2_linear a b : a <> 0 -> linearPoly 2 (plane2 a b).
Proof.
  intros Ha. split; [lia|]. split; [reflexivity|]. split; [repeat constructor|]. split.
  - intros idx H S. unfold inrange in H. cbn in H. inversion H as [|i a' r s' Hi Hr]; subst. inversion Hr as [|j b' r' s'' Hj Hr']; subst. inversion Hr'; subst.
    assert (E : (i = 1 /\ j = 1)%nat) by (cbn in S; lia). destruct E as [-> ->]. reflexivity.
  - exists 0%nat. split; [lia|]. exact Ha.
Qed.
Definition Q34 (i j : nat) : R := match i with O => match j with O => 4/5 | _ => 3/5 end | _ => match j with O => -3/5 | _ => 4/5 end end.
Definition U34 (i j : nat) : R := match i with O => match j with O => 5/2 | _ => 0 end | _ => match j with O => 0 | _ => 0 end end.
Definition P34 (i j : nat) : R := match i with O => match j with O => 3/5 | _ => 4/5 end | _ => match j with O => 4/5 | _ => -3/5 end end.
Definition V34 (i j : nat) : R := match i with O => match j with O => 5 | _ => 3/5 end | _ => match j with O => 0 | _ => 4/5 end end.
Definition qr34 (n : nat) (cols : list (list R)) := (Q34, U34).
Definition qr034 (n : nat) (cols : list (list R)) := (P34, V34).
Ltac rcompute := cbv -[Rplus Rmult Ropp Rinv Rminus Rdiv Rabs Rltb Reqb Rleb IZR Rmax Rmin Rlt Rle].
Ltac rdec := repeat match goal with
  | |- context [Rleb ?a ?b] => let e := fresh in (assert (e : Rleb a b = true) by (apply Rleb_true; unfold Rabs; repeat destruct Rcase_abs; lra)) || (assert (e : Rleb a b = false) by (apply Rleb_false; unfold Rabs; repeat destruct Rcase_abs; lra)); rewrite e; clear e
  | |- context [Rltb ?a ?b] => let e := fresh in (assert (e : Rltb a b = true) by (apply Rltb_true; unfold Rabs; repeat destruct Rcase_abs; lra)) || (assert (e : Rltb a b = false) by (apply Rltb_false; unfold Rabs; repeat destruct Rcase_abs; lra)); rewrite e; clear e end.
Lemma verts34 : @vertices R R_num 0 [3; 4] = [[-1; 3/4]; [1; -3/4]].
Proof.
  unfold vertices. cbn [length seq flat_map]. 
  assert (E0 : @edgePoints R R_num 0 [3; 4] 0 = []).
  { unfold edgePoints. cbn. rcompute. rdec. rcompute. rdec. rcompute. reflexivity. }
  rewrite E0.
  assert (E1 : @edgePoints R R_num 0 [3; 4] 1 = [[-1; 3/4]; [1; -3/4]]).
  { unfold edgePoints. rcompute. rdec. rcompute. rdec. rcompute. repeat f_equal; lra. }
  rewrite E1. rcompute. rdec. rcompute. reflexivity.
Qed.
Lemma sum2 f : sumn 2 f = f 0%nat + f 1%nat.
Proof. cbn [sumn]. ring. Qed.
Ltac two i := destruct i as [|[|i]]; [| |lia].
Lemma good34 : goodQR 2 qr34 qr034 (plane2 3 4).
Proof.
  split.
  - cbn [map seq]. change (tget (plane2 3 4) (repeat 0%nat 2)) with 0. change (tget (plane2 3 4) (unitIdx 2 0)) with 3. change (tget (plane2 3 4) (unitIdx 2 1)) with 4. rewrite verts34. intros v0 vs E. injection E as <- <-.
    unfold pivotedQR, qr34. cbn [shiftedBy map combine fst snd length]. cbn [nsub R_num]. split; [|split; [|split]].
    + split; intros r s Hr Hs; two r; two s; rewrite sum2; cbn [Q34 Nat.eqb]; lra.
    + exists [1; 0]%nat. split; [apply perm_swap|]. intros j t Hj Ht. rewrite sum2. two j; two t; cbn [Q34 U34 nth]; lra.
    + intros i t Ht Hi Hk. two i; [lia|]. destruct t; reflexivity.
    + intros s i t Hs Ht Hi Hk. two i; two t; two s; try lia; cbn [U34]; rewrite ?Rabs_R0; try apply Rabs_pos; lra.
  - cbn [map seq]. change (tget (plane2 3 4) (unitIdx 2 0)) with 3. change (tget (plane2 3 4) (unitIdx 2 1)) with 4. cbn [Nat.sub seq map repeat upd]. unfold plainQR, qr034. split; [|split].
    + split; intros r s Hr Hs; two r; two s; rewrite sum2; cbn [P34 Nat.eqb]; lra.
    + intros j t Hj Ht. rewrite sum2. two j; two t; cbn [P34 V34 nth]; lra.
    + intros i t Ht Hi. two i; [lia|]. assert (t = 0)%nat as -> by lia. reflexivity.
Qed.
Lemma noTiny34 : noTinyCoefficient 2 (plane2 3 4).
Proof.
  assert (/ 10 ^ 8 < 1) by (rewrite <- Rinv_1; apply Rinv_lt_contravar; simpl; lra).
  intros i Hi. right. two i; [change (tget (plane2 3 4) (unitIdx 2 0)) with 3|change (tget (plane2 3 4) (unitIdx 2 1)) with 4]; rewrite Rabs_pos_eq; lra.
Qed.
Lemma result34 : bounding_parallelepiped qr34 qr034 (plane2 3 4) = Some ([-1; 3/4], [[2; -3/2]]).
Proof.
  unfold bounding_parallelepiped. rewrite (part_ok 2 (plane2 3 4)) by (apply plane2_linear; lra).
  cbn [map seq]. change (tget (plane2 3 4) (repeat 0%nat 2)) with 0. change (tget (plane2 3 4) (unitIdx 2 0)) with 3. change (tget (plane2 3 4) (unitIdx 2 1)) with 4. rewrite verts34.
  unfold qr34. cbn. unfold minOf, maxOf. cbn. rewrite nmin_R, nmax_R. unfold nsum. cbn. rewrite Rmin_right, Rmax_left by lra.
  assert (C2 : forall a b c d : R, a = c -> b = d -> [a; b] = [c; d]) by (intros; subst; reflexivity).
  apply f_equal, f_equal2; [apply C2; lra|]. apply (f_equal (fun l => [l])). apply C2; lra.
Qed.
Example C87_case : linearPoly 2 (plane2 3 4) /\ noTinyCoefficient 2 (plane2 3 4) /\ goodQR 2 qr34 qr034 (plane2 3 4) /\
  bounding_parallelepiped qr34 qr034 (plane2 3 4) = Some ([-1; 3/4], [[2; -3/2]]).
Proof. split; [apply plane2_linear; lra|]. split; [apply noTiny34|]. split; [apply good34|apply result34]. Qed.

(** C87: with coefficients of at most 1e-8 the cover fails: (3 x + 4 y) / 10^9 *)
Theorem C87_tiny_coefficients_refuted : forall qr qr0,
  let L := plane2 (3 / 10 ^ 9) (4 / 10 ^ 9) in goodQR 2 qr qr0 L ->
  exists p0 edges x, bounding_parallelepiped qr qr0 L = Some (p0, edges) /\
    length x = 2%nat /\ Forall (fun v => -1 <= v <= 1) x /\ cheb_eval L x = 0 /\ ~ parallelepiped p0 edges x.
Proof.
  intros qr qr0 L [_ G]. unfold bounding_parallelepiped. rewrite (part_ok 2 L) by (apply plane2_linear; simpl; lra).
  cbn [map seq] in *. change (tget L (repeat 0%nat 2)) with 0. change (tget L (unitIdx 2 0)) with (3 / 10 ^ 9) in *. change (tget L (unitIdx 2 1)) with (4 / 10 ^ 9) in *.
  assert (E8 : @nlit R R_num 1 100000000 = 10 / 10 ^ 9) by (rewrite nlit_R; simpl; lra).
  assert (P9 : 0 < 1 / 10 ^ 9) by (apply Rdiv_lt_0_compat; simpl; lra).
  assert (C : forall v, 0 <= v <= 10 -> @closeTo0 R R_num (v / 10 ^ 9) = true).
  { intros v Hv. unfold closeTo0. rewrite E8. cbn [nleb nabs R_num]. apply Rleb_true. rewrite Rabs_pos_eq; unfold Rdiv in *; nra. }
  assert (EV : @vertices R R_num 0 [3 / 10 ^ 9; 4 / 10 ^ 9] = []).
  { unfold vertices. cbn [length seq flat_map]. unfold edgePoints. cbn [nth]. rewrite !C by lra. reflexivity. }
  rewrite EV. cbn [length Nat.sub seq map repeat upd] in *.
  change (@n1 R R_num) with 1. change (@n0 R R_num) with 0. set (cols := [[3 / 10 ^ 9; 4 / 10 ^ 9]; [1; 0]]) in *. destruct (qr0 2%nat cols) as [Q U]. destruct G as ([Qc _] & _).
  eexists; eexists. exists [-1; 3/4]. split; [reflexivity|]. split; [reflexivity|]. split; [repeat constructor; lra|]. split; [unfold L; rewrite plane2_value; simpl; lra|].
  intros (t & Lt & Ft & _ & Hx). destruct t as [|t [|? ?]]; try discriminate. inversion Ft as [|? ? Ht _]; subst. clear Ft Lt.
  pose proof (Hx 0%nat ltac:(cbn; lia)) as H0. pose proof (Hx 1%nat ltac:(cbn; lia)) as H1. cbn in H0, H1. clear Hx.
  pose proof (Qc 1%nat 1%nat ltac:(lia) ltac:(lia)) as N. rewrite sum2 in N. cbn [Nat.eqb] in N.
  assert (Z : forall a b, - 0 / a * b = 0) by (intros; unfold Rdiv; rewrite Ropp_0; ring).
  rewrite Z in H0, H1. set (q0 := Q 0%nat 1%nat) in *. set (q1 := Q 1%nat 1%nat) in *. 
  assert (H0' : -1 = t * q0) by lra. assert (H1' : 3 / 4 = t * q1) by lra.
  assert (25 / 16 = t * t * (q0 * q0 + q1 * q1)) by (replace (t * t * (q0 * q0 + q1 * q1)) with ((t * q0) * (t * q0) + (t * q1) * (t * q1)) by ring; rewrite <- H0', <- H1'; lra).
  rewrite N in H. nra.
Qed.
Print Assumptions C87_tiny_coefficients_refuted.

(** the map project_down derives from the parallelepiped covers it in three variables ... *)
Theorem C87_projection_map_in_three_variables : forall L qr qr0 p0 edges,
  linearPoly 3 L -> noTinyCoefficient 3 L -> goodQR 3 qr qr0 L -> bounding_parallelepiped qr qr0 L = Some (p0, edges) ->
  forall x, length x = 3%nat -> Forall (fun v => -1 <= v <= 1) x -> cheb_eval L x = 0 ->
  exists y, length y = 2%nat /\ Forall (fun v => -1 <= v <= 1) y /\ projectionMap p0 edges y = x.
Proof.
  intros L qr qr0 p0 edges H1 H2 H3 H4 x Lx Fx Ex. destruct (C87_covers_every_zero_in_the_cube 3 L qr qr0 p0 edges H1 H2 H3 H4) as (Lp & Le & G).
  destruct (G x Lx Fx Ex) as (t & Lt & Ft & _ & Hx). cbn in Le. rewrite Le in *.
  destruct edges as [|e [|f [|? ?]]]; try discriminate. destruct t as [|t [|u [|? ?]]]; try discriminate.
  inversion Ft as [|? ? B1 Ft']; subst. inversion Ft' as [|? ? B2 _]; subst.
  exists [2 * t - 1; 2 * u - 1]. split; [reflexivity|]. split; [constructor; [lra|constructor; [lra|constructor]]|].
  apply nth_ext with (d := 0) (d' := 0); [unfold projectionMap; rewrite map_length, seq_length; congruence|].
  intros j Hj. unfold projectionMap in *. rewrite map_length, seq_length in Hj. rewrite nth_map_seq by auto. rewrite Hx by auto.
  rewrite sum2. cbn [combine map length nth fst snd]. unfold nsum. cbn [fold_left]. rewrite n2_R, nofnat_R. rnum. cbn [INR]. field.
Qed.
Print Assumptions C87_projection_map_in_three_variables.
(** ... but not in two: it takes the mean of the edges for half of their sum *)
Theorem C87_projection_map_covers_refuted : exists L qr qr0 p0 edges x,
  linearPoly 2 L /\ noTinyCoefficient 2 L /\ goodQR 2 qr qr0 L /\ bounding_parallelepiped qr qr0 L = Some (p0, edges) /\
  length x = 2%nat /\ Forall (fun v => -1 <= v <= 1) x /\ cheb_eval L x = 0 /\
  forall y, length y = 1%nat -> Forall (fun v => -1 <= v <= 1) y -> projectionMap p0 edges y <> x.
Proof.
  exists (plane2 3 4), qr34, qr034, [-1; 3/4], [[2; -3/2]], [-1; 3/4].
  split; [apply plane2_linear; lra|]. split; [apply noTiny34|]. split; [apply good34|]. split; [apply result34|]. split; [reflexivity|]. split; [repeat constructor; lra|].
  split; [rewrite plane2_value; lra|]. intros [|v [|? ?]] Ly Fy E; try discriminate. inversion Fy as [|? ? Hv _]; subst.
  unfold projectionMap in E. unfold nsum, nofnat, n2 in E. cbn in E. injection E as E _. lra.
Qed.
Print Assumptions C87_projection_map_covers_refuted.
(** three variables: the polynomial z *)
Definition planeZ : tensor R := mkT [2; 2; 2]%nat [0; 1; 0; 0; 0; 0; 0; 0].
Definition mat3 (l : list (list R)) (i j : nat) : R := nth j (nth i l []) 0.
Definition QZ := let s := / sqrt 2 in mat3 [[s; s; 0]; [s; - s; 0]; [0; 0; 1]].
Definition UZ := let s := sqrt 2 in mat3 [[2 * s; s; s; 0]; [0; - s; s; 0]; [0; 0; 0; 0]].
Definition qrZ (n : nat) (cols : list (list R)) := (QZ, UZ).
Definition qr0Z (n : nat) (cols : list (list R)) := (mat3 [[0; 1; 0]; [0; 0; 1]; [1; 0; 0]], mat3 [[1; 0; 0]; [0; 1; 0]; [0; 0; 1]]).
Lemma vertsZ : @vertices R R_num 0 [0; 0; 1] = [[-1; -1; 0]; [-1; 1; 0]; [1; -1; 0]; [1; 1; 0]].
Proof.
  unfold vertices. cbn [length seq flat_map].
  assert (E0 : @edgePoints R R_num 0 [0; 0; 1] 0 = []) by (unfold edgePoints; rcompute; rdec; rcompute; reflexivity).
  assert (E1 : @edgePoints R R_num 0 [0; 0; 1] 1 = []) by (unfold edgePoints; rcompute; rdec; rcompute; reflexivity).
  assert (C3 : forall a b c a' b' c' : R, a = a' -> b = b' -> c = c' -> [a; b; c] = [a'; b'; c']) by (intros; subst; reflexivity).
  assert (E2 : @edgePoints R R_num 0 [0; 0; 1] 2 = [[-1; -1; 0]; [-1; 1; 0]; [1; -1; 0]; [1; 1; 0]]).
  { unfold edgePoints. rcompute. rdec. rcompute. rdec. rcompute. do 4 (apply f_equal2; [apply C3; lra|]). reflexivity. }
  rewrite E0, E1, E2. rcompute. rdec. rcompute. rdec. rcompute. rdec. rcompute. reflexivity.
Qed.
Lemma sum3 f : sumn 3 f = f 0%nat + f 1%nat + f 2%nat.
Proof. cbn [sumn]. ring. Qed.
Ltac three i := destruct i as [|[|[|i]]]; [| | |lia].
Ltac four i := destruct i as [|[|[|[|i]]]]; [| | | |lia].
Example C87_case_in_three_variables : linearPoly 3 planeZ /\ noTinyCoefficient 3 planeZ /\ goodQR 3 qrZ qr0Z planeZ /\
  exists p0 edges, bounding_parallelepiped qrZ qr0Z planeZ = Some (p0, edges).
Proof.
  assert (HL : linearPoly 3 planeZ).
  { split; [lia|]. split; [reflexivity|]. split; [repeat constructor|]. split.
    - intros idx H S. unfold inrange in H. cbn in H. inversion H as [|i a' r s' Hi Hr]; subst. inversion Hr as [|j b' r' s'' Hj Hr']; subst. inversion Hr' as [|l c' r'' s''' Hl Hr'']; subst. inversion Hr''; subst.
      destruct i as [|[|i]]; [| |lia]; destruct j as [|[|j]]; try lia; destruct l as [|[|l]]; try lia; cbn in S; try lia; reflexivity.
    - exists 2%nat. split; [lia|]. change (tget planeZ (unitIdx 3 2)) with 1. lra. }
  assert (H8 : / 10 ^ 8 < 1) by (rewrite <- Rinv_1; apply Rinv_lt_contravar; simpl; lra).
  assert (S2 : sqrt 2 * sqrt 2 = 2) by (apply sqrt_sqrt; lra). assert (P2 : 0 < sqrt 2) by (apply sqrt_lt_R0; lra).
  assert (I2 : / sqrt 2 * / sqrt 2 = / 2) by (rewrite <- Rinv_mult, S2; reflexivity).
  assert (IS : / sqrt 2 * sqrt 2 = 1) by (apply Rinv_l; lra). assert (SI : sqrt 2 * / sqrt 2 = 1) by (apply Rinv_r; lra).
  split; auto. split.
  { intros i Hi. three i; [left; reflexivity|left; reflexivity|right]. change (tget planeZ (unitIdx 3 2)) with 1. rewrite Rabs_R1. exact H8. }
  split; [|apply (C87_always_answers 3); auto]. split.
  - cbn [map seq]. change (tget planeZ (repeat 0%nat 3)) with 0. change (tget planeZ (unitIdx 3 0)) with 0. change (tget planeZ (unitIdx 3 1)) with 0. change (tget planeZ (unitIdx 3 2)) with 1. rewrite vertsZ. intros v0 vs E. injection E as <- <-.
    unfold pivotedQR, qrZ. cbn [shiftedBy map combine fst snd length]. cbn [nsub R_num]. split; [|split; [|split]].
    + split; intros r s Hr Hs; three r; three s; rewrite sum3; cbn [QZ mat3 nth Nat.eqb]; lra.
    + exists [3; 1; 2; 0]%nat. split.
      { cbn [seq]. apply Permutation_trans with [0; 3; 1; 2]%nat; [|apply perm_skip; apply Permutation_trans with [1; 3; 2]%nat; [apply perm_swap|apply perm_skip, perm_swap]].
        change [3; 1; 2; 0]%nat with ([3; 1; 2] ++ [0])%nat. apply Permutation_sym, Permutation_cons_append. }
      intros j t Hj Ht. rewrite sum3. three j; four t; cbn [QZ UZ mat3 nth]; lra.
    + intros i t Ht Hi Hk. three i; four t; try lia; reflexivity.
    + intros s i t Hs Ht Hi Hk. three i; four t; three s; try lia; cbn [UZ mat3 nth]; unfold Rabs; repeat destruct Rcase_abs; lra.
  - cbn [map seq]. change (tget planeZ (unitIdx 3 0)) with 0. change (tget planeZ (unitIdx 3 1)) with 0. change (tget planeZ (unitIdx 3 2)) with 1. cbn [Nat.sub seq map repeat upd]. unfold plainQR, qr0Z. split; [|split].
    + split; intros r s Hr Hs; three r; three s; rewrite sum3; cbn [mat3 nth Nat.eqb]; lra.
    + intros j t Hj Ht. rewrite sum3. three j; three t; cbn [mat3 nth]; lra.
    + intros i t Ht Hi. three i; three t; try lia; reflexivity.
Qed.
