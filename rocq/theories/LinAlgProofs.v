(** * Linear systems: elimination keeps the solutions, back substitution finds them *)
From Coq Require Import Reals List Lia Lra Arith Bool Permutation.
From Verif Require Import Num RSum Cheb Tensor PolySpec LinAlgSpec LinAlgModel.
Import ListNotations.
Local Open Scope R_scope.

(** ** argmax *)
Lemma argmax_spec {P} (f : P -> R) ps : forall p, In (@argmax R R_num P f p ps) (p :: ps) /\ forall q, In q (p :: ps) -> f q <= f (@argmax R R_num P f p ps).
Proof.
  unfold argmax. induction ps as [|a ps IH]; intros p; cbn [fold_left].
  - split; [left; auto|]. intros q [->|[]]. lra.
  - unfold ngtb. rnum. destruct (Rltb (f p) (f a)) eqn:E.
    + apply Rltb_true in E. destruct (IH a) as [I M]. split; [right; auto|]. intros q [->|Hq]; [|apply M; auto].
      apply Rle_trans with (f a); [lra|]. apply M. left; auto.
    + apply Rltb_false in E. destruct (IH p) as [I M]. split.
      * destruct I as [I|I]; [left; auto|right; right; auto].
      * intros q [->|[->|Hq]]; [apply M; left; auto| |apply M; right; auto]. apply Rle_trans with (f p); [lra|]. apply M; left; auto.
Qed.

(** ** Exchanging two places *)
Lemma swapIx_lt j k c n : (j < n)%nat -> (k < n)%nat -> (c < n)%nat -> (swapIx j k c < n)%nat.
Proof. unfold swapIx. destruct (c =? j)%nat; [auto|]. destruct (c =? k)%nat; auto. Qed.
Lemma swapIx_inv j k c : swapIx j k (swapIx j k c) = c.
Proof.
  unfold swapIx. destruct (Nat.eqb_spec c j) as [->|N].
  - destruct (Nat.eqb_spec k j); auto. rewrite Nat.eqb_refl. auto.
  - destruct (Nat.eqb_spec c k) as [->|N2].
    + rewrite Nat.eqb_refl. auto.
    + destruct (Nat.eqb_spec c j), (Nat.eqb_spec c k); congruence.
Qed.
Lemma swapIx_ge j k c b : (b <= j)%nat -> (b <= k)%nat -> (b <= swapIx j k c <-> b <= c)%nat.
Proof. intros H1 H2. unfold swapIx. destruct (Nat.eqb_spec c j); [lia|]. destruct (Nat.eqb_spec c k); lia. Qed.
Lemma sumn_perm2 n j k f : (j < n)%nat -> (k < n)%nat -> sumn n (fun c => f (swapIx j k c)) = sumn n f.
Proof.
  intros Hj Hk. destruct (Nat.eq_dec j k) as [->|N].
  - apply sumn_ext. intros c Hc. unfold swapIx. destruct (Nat.eqb_spec c k); subst; auto.
  - rewrite (sumn_ext n (fun c => f (swapIx j k c)) (fun c => f c + ((if Nat.eqb c j then f k - f j else 0) + (if Nat.eqb c k then f j - f k else 0)))).
    + rewrite !sumn_plus. rewrite (sumn_single n j (fun c => if (c =? j)%nat then f k - f j else 0)), (sumn_single n k (fun c => if (c =? k)%nat then f j - f k else 0)); auto.
      * rewrite !Nat.eqb_refl. ring.
      * intros i _ Hi. destruct (Nat.eqb_spec i k); congruence.
      * intros i _ Hi. destruct (Nat.eqb_spec i j); congruence.
    + intros c Hc. unfold swapIx. destruct (Nat.eqb_spec c j) as [->|N1]; [destruct (Nat.eqb_spec j k); [congruence|ring]|]. destruct (Nat.eqb_spec c k) as [->|N2]; ring.
Qed.

Lemma rowTimes_ext n r r' v v' : (forall c, (c < n)%nat -> r c * v c = r' c * v' c) -> rowTimes n r v = rowTimes n r' v'.
Proof. intros H. apply sumn_ext. auto. Qed.
Lemma rowTimes_sub n r r' q v : rowTimes n (fun c => r c - q * r' c) v = rowTimes n r v - q * rowTimes n r' v.
Proof. unfold rowTimes. rewrite <- sumn_scal, <- sumn_minus. apply sumn_ext. intros; ring. Qed.

(** ** Row operations keep the kernel *)
Lemma kernel_swapRows m n j k M v : (j < m)%nat -> (k < m)%nat -> inKernel m n (swapRows j k M) v <-> inKernel m n M v.
Proof.
  intros Hj Hk. unfold inKernel, swapRows. split; intros H i Hi.
  - specialize (H (swapIx j k i) (swapIx_lt _ _ _ _ Hj Hk Hi)). rewrite swapIx_inv in H. auto.
  - apply (H (swapIx j k i)). apply swapIx_lt; auto.
Qed.
(** every row but j loses a multiple of row j, row j is multiplied by a nonzero number *)
Lemma kernel_eliminate m n j q a (M M' : nat -> nat -> R) v : (j < m)%nat -> a <> 0 ->
  (forall c, (c < n)%nat -> M' j c = a * M j c) ->
  (forall i c, (i < m)%nat -> i <> j -> (c < n)%nat -> M' i c = M i c - q i * M j c) -> inKernel m n M' v <-> inKernel m n M v.
Proof.
  intros Hj Ha Ej Ei.
  assert (Rj : rowTimes n (M' j) v = a * rowTimes n (M j) v).
  { unfold rowTimes. rewrite <- sumn_scal. apply sumn_ext. intros c Hc. rewrite Ej by auto. ring. }
  assert (Ri : forall i, (i < m)%nat -> i <> j -> rowTimes n (M' i) v = rowTimes n (M i) v - q i * rowTimes n (M j) v).
  { intros i Hi N. rewrite <- rowTimes_sub. apply rowTimes_ext. intros c Hc. rewrite Ei by auto. ring. }
  split; intros H.
  - assert (Z : rowTimes n (M j) v = 0). { specialize (H j Hj). rewrite Rj in H. apply Rmult_integral in H. tauto. }
    intros i Hi. destruct (Nat.eq_dec i j) as [->|N]; auto. specialize (H i Hi). rewrite Ri in H by auto. rewrite Z in H. lra.
  - intros i Hi. destruct (Nat.eq_dec i j) as [->|N]; [rewrite Rj, H by auto; ring|]. rewrite Ri, !H by auto. ring.
Qed.

(** ** LU *)
Definition lowerZero (m j : nat) (M : nat -> nat -> R) : Prop := forall i c, (i < m)%nat -> (c < j)%nat -> (c < i)%nat -> M i c = 0.
Lemma luStep_spec m n j (M : nat -> nat -> R) : (j < m)%nat -> (j < n)%nat -> lowerZero m j M ->
  lowerZero m (S j) (@luStep R R_num m j M) /\ forall v, inKernel m n (@luStep R R_num m j M) v <-> inKernel m n M v.
Proof.
  intros Hj Hjn L. unfold luStep. set (p := argmax _ _ _).
  destruct (argmax_spec (fun i => Rabs (M i j)) (seq (j + 1) (m - (j + 1))) j) as [Ip Mp].
  change (argmax (fun i => Rabs (M i j)) j (seq (j + 1) (m - (j + 1)))) with p in *.
  assert (Hp : (j <= p < m)%nat). { destruct Ip as [<-|Ip]; [lia|]. apply in_seq in Ip. lia. }
  assert (L' : lowerZero m j (swapRows j p M)).
  { intros i c Hi Hc Hci. unfold swapRows. apply L; auto; [apply swapIx_lt; lia|].
    destruct (le_lt_dec j i) as [G|G]; [apply (swapIx_ge j p i j) in G; lia|]. unfold swapIx. destruct (Nat.eqb_spec i j), (Nat.eqb_spec i p); lia. }
  assert (K : forall v, inKernel m n (swapRows j p M) v <-> inKernel m n M v) by (intros; apply kernel_swapRows; lia).
  rnum. destruct (Reqb (swapRows j p M j j) 0) eqn:E.
  - apply Reqb_true in E. split; auto. intros i c Hi Hc Hci. destruct (Nat.eq_dec c j) as [->|N]; [|apply L'; auto; lia].
    unfold swapRows in E. unfold swapIx in E. rewrite Nat.eqb_refl in E.
    assert (Z : forall q, (j <= q < m)%nat -> M q j = 0).
    { intros q Hq. assert (Iq : In q (j :: seq (j + 1) (m - (j + 1)))) by (destruct (Nat.eq_dec q j); [left; auto|right; apply in_seq; lia]).
      specialize (Mp q Iq). rewrite E, Rabs_R0 in Mp. destruct (Req_dec (M q j) 0) as [Q|Q]; auto. apply Rabs_pos_lt in Q. lra. }
    unfold swapRows. apply Z. split; [apply swapIx_ge; lia|apply swapIx_lt; lia].
  - apply Reqb_false in E. split.
    + intros i c Hi Hc Hci. destruct (Nat.ltb_spec j i) as [G|G].
      * destruct (Nat.eqb_spec c j); auto. rewrite (L' i c), (L' j c) by lia. ring.
      * apply L'; auto; lia.
    + intros v. rewrite <- K. set (N := swapRows j p M) in *.
      apply (kernel_eliminate m n j (fun i => if (j <? i)%nat then N i j / N j j else 0) 1); auto; try lra.
      * intros c Hc. rewrite Nat.ltb_irrefl. ring.
      * intros i c Hi Ni Hc. destruct (Nat.ltb_spec j i); [|ring]. destruct (Nat.eqb_spec c j) as [->|]; [field; auto|ring].
Qed.
Lemma luU_spec m n (M : nat -> nat -> R) : (m <= n)%nat -> lowerZero m m (@luU R R_num m M) /\ forall v, inKernel m n (@luU R R_num m M) v <-> inKernel m n M v.
Proof.
  intros Hn. unfold luU.
  assert (G : forall j, (j <= m)%nat -> let N := fold_left (fun M j => @luStep R R_num m j M) (seq 0 j) M in lowerZero m j N /\ forall v, inKernel m n N v <-> inKernel m n M v).
  { induction j; intros Hj.
    - split; [intros i c; lia|tauto].
    - rewrite seq_S, fold_left_app. cbn [fold_left Nat.add]. destruct (IHj ltac:(lia)) as [A B].
      cbv zeta. destruct (luStep_spec m n j _ ltac:(lia) ltac:(lia) A) as [A' B']. split; auto. intros v. rewrite B', B. tauto. }
  apply G. auto.
Qed.

(** ** Back substitution *)
Lemma nsum_seq (f : nat -> R) k : @nsum R R_num (map f (seq 0 k)) = sumn k f.
Proof. rewrite nsum_R. rewrite <- Rsum_map_seq. reflexivity. Qed.
Definition upperRow (m : nat) (U : nat -> nat -> R) (x : nat -> R) (i : nat) : R :=
  U i i * x i + sumn (m - 1 - i) (fun c => U i (i + 1 + c)%nat * x (i + 1 + c)%nat).
Lemma backsub_length m U b k : length (@backsub R R_num m U b k) = k.
Proof. induction k; cbn; auto. Qed.
Lemma backsub_unique m U b x k : (k <= m)%nat -> (forall i, (m - k <= i < m)%nat -> U i i <> 0 /\ upperRow m U x i = b i) ->
  @backsub R R_num m U b k = map x (seq (m - k) k).
Proof.
  induction k; intros Hk H; auto. cbn [backsub]. cbv zeta.
  assert (E : @backsub R R_num m U b k = map x (seq (m - k) k)) by (apply IHk; [lia|intros i Hi; apply H; lia]). rewrite E.
  replace (seq (m - S k) (S k)) with ((m - S k)%nat :: seq (m - k) k) by (cbn [seq]; do 2 f_equal; lia). cbn [map]. f_equal.
  destruct (H (m - S k)%nat ltac:(lia)) as [D R]. unfold upperRow in R. rewrite nsum_seq. rnum.
  rewrite <- R. replace (m - 1 - (m - S k))%nat with k by lia.
  rewrite (sumn_ext k (fun c => U (m - S k)%nat (m - S k + 1 + c)%nat * nth c (map x (seq (m - k) k)) 0) (fun c => U (m - S k)%nat (m - S k + 1 + c)%nat * x (m - S k + 1 + c)%nat)).
  - field. auto.
  - intros c Hc. f_equal. rewrite (nth_indep _ 0 (x 0%nat)) by (rewrite map_length, seq_length; auto). rewrite map_nth, seq_nth by auto. f_equal. lia.
Qed.
Lemma backsub_solves m U b k : (k <= m)%nat -> (forall i, (m - k <= i < m)%nat -> U i i <> 0) ->
  forall i, (m - k <= i < m)%nat -> upperRow m U (fun c => nth (c - (m - k)) (@backsub R R_num m U b k) 0) i = b i.
Proof.
  induction k; intros Hk D i Hi; [lia|]. set (xs := @backsub R R_num m U b k) in *.
  set (z := (b (m - S k)%nat - @nsum R R_num (map (fun c => U (m - S k)%nat (m - S k + 1 + c)%nat * nth c xs 0) (seq 0 k))) / U (m - S k)%nat (m - S k)%nat).
  change (@backsub R R_num m U b (S k)) with (z :: xs). unfold upperRow.
  assert (S1 : forall c, (m - k <= c)%nat -> nth (c - (m - S k)) (z :: xs) 0 = nth (c - (m - k)) xs 0).
  { intros c Hc. replace (c - (m - S k))%nat with (S (c - (m - k))) by lia. reflexivity. }
  destruct (Nat.eq_dec i (m - S k)) as [->|N].
  - rewrite Nat.sub_diag. change (nth 0 (z :: xs) 0) with z. replace (m - 1 - (m - S k))%nat with k by lia.
    rewrite (sumn_ext k (fun c => U (m - S k)%nat (m - S k + 1 + c)%nat * nth (m - S k + 1 + c - (m - S k)) (z :: xs) 0) (fun c => U (m - S k)%nat (m - S k + 1 + c)%nat * nth c xs 0)).
    + unfold z. rewrite nsum_seq. field. apply D. lia.
    + intros c Hc. f_equal. rewrite S1 by lia. f_equal. lia.
  - rewrite <- (IHk ltac:(lia) ltac:(intros; apply D; lia) i ltac:(lia)). unfold upperRow.
    rewrite S1 by lia. f_equal. apply sumn_ext. intros c Hc. rewrite S1 by lia. auto.
Qed.
Lemma upperRow_full m U x i : (i < m)%nat -> (forall c, (c < i)%nat -> U i c = 0) -> upperRow m U x i = sumn m (fun c => U i c * x c).
Proof.
  intros Hi Z. replace m with (i + (1 + (m - 1 - i)))%nat at 2 by lia. rewrite sumn_split, sumn_split. rewrite sumn_zero.
  - unfold upperRow. cbn [sumn]. rewrite Nat.add_0_r. rewrite Rplus_0_l, Rplus_0_l. f_equal. apply sumn_ext. intros c Hc. replace (i + (1 + c))%nat with (i + 1 + c)%nat by lia. auto.
  - intros c Hc. rewrite Z by auto. ring.
Qed.

Lemma least (P : nat -> bool) m : (exists i, (i < m)%nat /\ P i = true) -> exists i, (i < m)%nat /\ P i = true /\ forall j, (j < i)%nat -> P j = false.
Proof.
  induction m; intros [i [Hi Pi]]; [lia|]. destruct (existsb P (seq 0 m)) eqn:E.
  - apply existsb_exists in E. destruct E as [q [Iq Pq]]. apply in_seq in Iq. destruct (IHm (ex_intro _ q (conj (proj2 Iq) Pq))) as [r [Hr Q]]. exists r. split; [lia|auto].
  - assert (i = m). { destruct (Nat.eq_dec i m); auto. assert (existsb P (seq 0 m) = true) by (apply existsb_exists; exists i; split; auto; apply in_seq; lia). congruence. }
    subst i. exists m. split; [lia|]. split; auto. intros j Hj. destruct (P j) eqn:Q; auto.
    assert (existsb P (seq 0 m) = true) by (apply existsb_exists; exists j; split; auto; apply in_seq; lia). congruence.
Qed.
(** a zero on the diagonal of an upper triangular matrix gives a nonzero kernel vector *)
Lemma zero_diagonal m (U : nat -> nat -> R) : lowerZero m m U -> (exists i, (i < m)%nat /\ U i i = 0) ->
  exists w, (exists c, (c < m)%nat /\ w c <> 0) /\ inKernel m m U w.
Proof.
  intros L [i [Hi Z]]. destruct (least (fun i => Reqb (U i i) 0) m) as [q [Hq [Pq Low]]].
  { exists i. split; auto. apply Reqb_true; auto. }
  apply Reqb_true in Pq. set (x := @backsub R R_num q U (fun r => - U r q) q).
  exists (fun c => if (c <? q)%nat then nth c x 0 else if (c =? q)%nat then 1 else 0). split.
  - exists q. split; auto. rewrite Nat.ltb_irrefl, Nat.eqb_refl. lra.
  - intros r Hr. unfold rowTimes. replace m with (q + (1 + (m - 1 - q)))%nat by lia. rewrite sumn_split, sumn_split.
    rewrite (sumn_ext q _ (fun c => U r c * nth c x 0)) by (intros c Hc; destruct (Nat.ltb_spec c q); auto; lia).
    rewrite (sumn_zero (m - 1 - q)).
    2:{ intros c Hc. destruct (Nat.ltb_spec (q + (1 + c)) q), (Nat.eqb_spec (q + (1 + c)) q); try lia. ring. }
    cbn [sumn]. rewrite Nat.add_0_r, Nat.ltb_irrefl, Nat.eqb_refl. destruct (le_lt_dec q r) as [G|G].
    + rewrite sumn_zero by (intros c Hc; rewrite L by lia; ring). destruct (Nat.eq_dec r q) as [->|N]; [rewrite Pq; ring|]. rewrite L by lia. ring.
    + pose proof (backsub_solves q U (fun r => - U r q) q (le_n _)) as B. rewrite Nat.sub_diag in B.
      specialize (B ltac:(intros k Hk; apply Reqb_false; apply Low; lia) r ltac:(lia)). rewrite upperRow_full in B by (try lia; intros; apply L; lia).
      rewrite (sumn_ext q _ (fun c => U r c * nth c x 0)) in B by (intros c Hc; rewrite Nat.sub_0_r; auto). rewrite B. ring.
Qed.

(** ** Linear polynomials *)
Lemma lsum_cons a l : list_sum (a :: l) = (a + list_sum l)%nat. Proof. reflexivity. Qed.
Lemma lsum_unit n : forall d, (d < n)%nat -> list_sum (unitIdx n d) = 1%nat.
Proof.
  assert (Z : forall n, list_sum (repeat 0%nat n) = 0%nat) by (induction n0; auto).
  unfold unitIdx. induction n; intros [|d] Hd; try lia; cbn [repeat upd]; rewrite lsum_cons; [rewrite Z; auto|]. rewrite IHn by lia. auto.
Qed.
Lemma unit_inrange s : Forall (fun n => (2 <= n)%nat) s -> forall d, inrange s (unitIdx (length s) d).
Proof.
  assert (Z : forall s, Forall (fun n => (2 <= n)%nat) s -> inrange s (repeat 0%nat (length s))) by (induction 1; cbn; constructor; auto; lia).
  unfold unitIdx. induction 1; intros [|d]; cbn [repeat length upd]; constructor; try lia; [apply Z; auto|apply IHForall].
Qed.
Lemma sumidx_linear s : Forall (fun n => (2 <= n)%nat) s -> forall F, (forall idx, inrange s idx -> (2 <= list_sum idx)%nat -> F idx = 0) ->
  sumidx s F = F (repeat 0%nat (length s)) + sumn (length s) (fun d => F (unitIdx (length s) d)).
Proof.
  induction 1 as [|n s Hn Hs IH]; intros F HF; [cbn; ring|]. cbn [sumidx length]. replace n with (2 + (n - 2))%nat by lia. rewrite sumn_split.
  rewrite (sumn_zero (n - 2)).
  2:{ intros i Hi. rewrite (sumidx_ext s _ (fun _ => 0)); [apply sumidx_0|]. intros r Hr. apply HF; [constructor; auto; lia|]. rewrite lsum_cons. lia. }
  assert (T2 : forall f, sumn 2 f = f 0%nat + f 1%nat) by (intros; cbn [sumn]; ring).
  rewrite T2, Rplus_0_r. rewrite (IH (fun r => F (0%nat :: r))) by (intros r Hr Lr; apply HF; [constructor; auto; lia|rewrite lsum_cons; lia]).
  rewrite (IH (fun r => F (1%nat :: r))) by (intros r Hr Lr; apply HF; [constructor; auto; lia|rewrite lsum_cons; lia]).
  rewrite (sumn_zero (length s) (fun d => F (1%nat :: unitIdx (length s) d))).
  - rewrite (sumn_S_l (length s) (fun d => F (unitIdx (S (length s)) d))). cbn [repeat]. change (unitIdx (S (length s)) 0) with (1%nat :: repeat 0%nat (length s)).
    change (fun d => F (unitIdx (S (length s)) (S d))) with (fun d => F (0%nat :: unitIdx (length s) d)). ring.
  - intros d Hd. apply HF.
    + constructor; [lia|]. apply unit_inrange; auto.
    + rewrite lsum_cons, lsum_unit by auto. lia.
Qed.

Lemma basis_zero phi n : forall x, (forall v, phi 0%nat v = 1) -> basis phi (repeat 0%nat n) x = 1.
Proof. induction n; intros [|v x] H; cbn [repeat basis]; auto. rewrite H, IHn by auto. ring. Qed.
Lemma basis_unit phi n : forall d x, (forall v, phi 0%nat v = 1) -> (forall v, phi 1%nat v = v) -> length x = n -> (d < n)%nat ->
  basis phi (unitIdx n d) x = nth d x 0.
Proof.
  unfold unitIdx. induction n; intros [|d] [|v x] H0 H1 L Hd; try lia; try discriminate; cbn [repeat upd basis nth].
  - rewrite H1, basis_zero by auto. ring.
  - rewrite H0, IHn by (auto; cbn in L; lia). ring.
Qed.
(** the value of a linear polynomial *)
Lemma linear_value phi (t : tensor R) x : (forall v, phi 0%nat v = 1) -> (forall v, phi 1%nat v = v) ->
  Forall (fun n => (2 <= n)%nat) (shp t) -> isLinear t -> length x = ndim t ->
  sumidx (shp t) (fun idx => tget t idx * basis phi idx x) =
  tget t (repeat 0%nat (ndim t)) + sumn (ndim t) (fun d => tget t (unitIdx (ndim t) d) * nth d x 0).
Proof.
  intros H0 H1 F L Lx. rewrite sumidx_linear; auto.
  - unfold ndim in *. rewrite basis_zero by auto. rewrite Rmult_1_r. f_equal. apply sumn_ext. intros d Hd. rewrite basis_unit; auto.
  - intros idx Hi Hs. rewrite L by auto. ring.
Qed.
Lemma cheb_linear (t : tensor R) x : Forall (fun n => (2 <= n)%nat) (shp t) -> isLinear t -> length x = ndim t ->
  cheb_eval t x = tget t (repeat 0%nat (ndim t)) + sumn (ndim t) (fun d => tget t (unitIdx (ndim t) d) * nth d x 0).
Proof. intros. rewrite cheb_eval_sumidx. apply linear_value; auto. Qed.

(** ** solve_linear *)
Lemma item_ok (t : tensor R) idx : inrange (shp t) idx -> item t idx = Some (tget t idx).
Proof.
  intros H. unfold item. rewrite (inrange_length _ _ H). unfold ndim. rewrite Nat.eqb_refl. cbn [andb].
  assert (G : forallb (fun p => (fst p <? snd p)%nat) (combine idx (shp t)) = true).
  { induction H; cbn [combine forallb fst snd]; auto. rewrite IHForall2. destruct (Nat.ltb_spec x y); auto; lia. }
  rewrite G. auto.
Qed.
Lemma optAll_map {A B} (f : A -> option B) (g : A -> B) l : (forall a, In a l -> f a = Some (g a)) -> optAll (map f l) = Some (map g l).
Proof.
  induction l; intros H; cbn [map optAll]; auto. rewrite (H a) by (left; auto). rewrite IHl by (intros; apply H; right; auto). auto.
Qed.
Definition coefOf (dim : nat) (t : tensor R) (c : nat) : R := tget t (unitIdx dim c).
Definition constOf (dim : nat) (t : tensor R) : R := tget t (repeat 0%nat dim).
Lemma zero_inrange s : Forall (fun n => (2 <= n)%nat) s -> inrange s (repeat 0%nat (length s)).
Proof. induction 1; cbn; constructor; auto; lia. Qed.
Lemma linearRow_ok dim (t : tensor R) : ndim t = dim -> Forall (fun n => (2 <= n)%nat) (shp t) ->
  linearRow dim t = Some (map (coefOf dim t) (seq 0 dim), constOf dim t).
Proof.
  intros D F. unfold linearRow. rewrite item_ok by (rewrite <- D; apply zero_inrange; auto).
  rewrite (optAll_map _ (coefOf dim t)); auto. intros c Hc. apply in_seq in Hc.
  assert (N : nth 0 (shp t) 0%nat <> 1%nat).
  { destruct (shp t) as [|n s] eqn:E; [cbn; lia|]. inversion F; subst. cbn [nth]. lia. }
  destruct (Nat.eqb_spec (nth 0 (shp t) 0%nat) 1); [lia|]. apply item_ok. rewrite <- D. apply unit_inrange. auto.
Qed.

Section Solve.
  Variables (dim : nat) (polys : list (tensor R)).
  Hypothesis Hdim : (1 <= dim)%nat.
  Hypothesis Hlen : length polys = dim.
  Hypothesis Hpoly : forall t, In t polys -> ndim t = dim /\ Forall (fun n => (2 <= n)%nat) (shp t) /\ isLinear t.
  Let dflt : tensor R := mkT [] [].
  Let P i := nth i polys dflt.
  (** the augmented matrix *)
  Let AB : nat -> nat -> R := fun i c => if (c <? dim)%nat then coefOf dim (P i) c else - constOf dim (P i).
  Let U := @luU R R_num dim AB.

  Lemma P_in i : (i < dim)%nat -> In (P i) polys.
  Proof. intros. apply nth_In. lia. Qed.
  Lemma zero_row i x : (i < dim)%nat -> length x = dim -> cheb_eval (P i) x = 0 <-> rowTimes (dim + 1) (AB i) (fun c => if (c <? dim)%nat then nth c x 0 else -1) = 0.
  Proof.
    intros Hi Lx. destruct (Hpoly (P i) (P_in i Hi)) as (D & F & L). rewrite cheb_linear by (auto; lia).
    unfold rowTimes. rewrite sumn_split. cbn [sumn]. rewrite Nat.add_0_r. unfold AB at 2. rewrite Nat.ltb_irrefl. rewrite D.
    rewrite (sumn_ext dim (fun c => AB i c * (if (c <? dim)%nat then nth c x 0 else -1)) (fun d => tget (P i) (unitIdx dim d) * nth d x 0)).
    - unfold constOf. split; intros; lra.
    - intros c Hc. unfold AB. destruct (Nat.ltb_spec c dim); [reflexivity|lia].
  Qed.
  Lemma zero_kernel x : commonZero dim polys x <-> length x = dim /\ inKernel dim (dim + 1) AB (fun c => if (c <? dim)%nat then nth c x 0 else -1).
  Proof.
    unfold commonZero. split; intros [L H]; split; auto.
    - intros i Hi. apply zero_row; auto. apply H, P_in; auto.
    - intros t Ht. destruct (In_nth polys t dflt Ht) as [i [Hi E]]. rewrite <- E. apply zero_row; auto; [lia|]. apply H. lia.
  Qed.
  (** the equations after elimination *)
  Lemma zero_U x : commonZero dim polys x <-> length x = dim /\ forall i, (i < dim)%nat -> rowTimes dim (U i) (fun c => nth c x 0) = U i dim.
  Proof.
    rewrite zero_kernel. destruct (luU_spec dim (dim + 1) AB ltac:(lia)) as [_ K]. fold U in K. rewrite <- K.
    apply and_iff_compat_l. unfold inKernel, rowTimes. split; intros H i Hi; specialize (H i Hi).
    - rewrite sumn_split in H. cbn [sumn] in H. rewrite Nat.add_0_r, Nat.ltb_irrefl in H.
      rewrite (sumn_ext dim _ (fun c => U i c * nth c x 0)) in H by (intros c Hc; destruct (Nat.ltb_spec c dim); auto; lia). lra.
    - rewrite sumn_split. cbn [sumn]. rewrite Nat.add_0_r, Nat.ltb_irrefl.
      rewrite (sumn_ext dim _ (fun c => U i c * nth c x 0)) by (intros c Hc; destruct (Nat.ltb_spec c dim); auto; lia). lra.
  Qed.
  Lemma U_low : lowerZero dim dim U.
  Proof. apply (luU_spec dim (dim + 1) AB). lia. Qed.

  Lemma lu_ext m (A B : nat -> nat -> R) : (forall i c, (i < m)%nat -> (c <= m)%nat -> A i c = B i c) -> forall i c, (i < m)%nat -> (c <= m)%nat -> @luU R R_num m A i c = @luU R R_num m B i c.
  Proof.
    unfold luU. assert (G : forall l, Forall (fun j => (j < m)%nat) l -> forall A B : nat -> nat -> R, (forall i c, (i < m)%nat -> (c <= m)%nat -> A i c = B i c) ->
      forall i c, (i < m)%nat -> (c <= m)%nat -> fold_left (fun M j => @luStep R R_num m j M) l A i c = fold_left (fun M j => @luStep R R_num m j M) l B i c).
    { induction 1 as [|j l Hj Hl IH]; intros A0 B0 E; cbn [fold_left]; auto. apply IH. intros i c Hi Hc. unfold luStep.
      assert (Ea : forall p ps, (p < m)%nat -> Forall (fun i => (i < m)%nat) ps -> argmax (fun i => nabs (A0 i j)) p ps = argmax (fun i => nabs (B0 i j)) p ps).
      { unfold argmax. intros p ps Hp F. revert p Hp. induction F; intros p Hp; cbn [fold_left]; auto. rewrite !E by (auto; lia). apply IHF. destruct (ngtb _ _); auto. }
      rewrite Ea by (auto; apply Forall_forall; intros z Hz; apply in_seq in Hz; lia).
      set (p := argmax _ _ _). assert (Hp : (p < m)%nat).
      { destruct (argmax_spec (fun i => Rabs (B0 i j)) (seq (j + 1) (m - (j + 1))) j) as [Ip _]. change (argmax (fun i => Rabs (B0 i j)) j (seq (j + 1) (m - (j + 1)))) with p in Ip.
        destruct Ip as [<-|Ip]; [lia|]. apply in_seq in Ip. lia. }
      assert (Es : forall i c, (i < m)%nat -> (c <= m)%nat -> swapRows j p A0 i c = swapRows j p B0 i c) by (intros; unfold swapRows; apply E; auto; apply swapIx_lt; auto).
      rewrite (Es j j) by (auto; lia). destruct (neqb _ _); [apply Es; auto|].
      rewrite !Es by (auto; lia). destruct (j <? i)%nat; auto; rewrite ?(Es j c) by auto; auto. }
    intros E i c Hi Hc. apply G; auto. apply Forall_forall. intros z Hz. apply in_seq in Hz. lia.
  Qed.
  (** the call, with the matrix written as above *)
  Lemma solve_call : @solve_linear R R_num polys =
    if existsb (fun i => Reqb (U i i) 0) (seq 0 dim) then
      if existsb (fun p => match p with Some c => (c =? dim)%nat | None => false end) (map (fun i => @leading R R_num (U i) (seq 0 (dim + 1))) (seq 0 dim)) then NoRoots else TooManyRoots
    else Root (@solveUpper R R_num dim U (fun i => U i dim)).
  Proof.
    unfold solve_linear. replace (match polys with [] => 0%nat | c :: _ => ndim c end) with dim.
    2:{ destruct polys as [|t l] eqn:E; [cbn in Hlen; lia|]. symmetry. apply (Hpoly t). left; auto. }
    destruct (Nat.ltb_spec (length polys) dim); [lia|]. rewrite firstn_all2 by lia.
    rewrite (optAll_map _ (fun t => (map (coefOf dim t) (seq 0 dim), constOf dim t))) by (intros t Ht; apply linearRow_ok; apply Hpoly; auto).
    set (M := fun i c => _). assert (EM : forall i c, (i < dim)%nat -> (c <= dim)%nat -> @luU R R_num dim M i c = U i c).
    { intros i c Hi Hc. unfold U. apply lu_ext; auto. clear i c Hi Hc. intros i c Hi Hc. unfold M, AB.
      rewrite (nth_indep _ ([], n0) (map (coefOf dim dflt) (seq 0 dim), constOf dim dflt)) by (rewrite map_length; lia).
      rewrite (map_nth (fun t => (map (coefOf dim t) (seq 0 dim), constOf dim t))). cbn [fst snd]. fold (P i). destruct (Nat.ltb_spec c dim); auto.
      rewrite (nth_indep _ n0 (coefOf dim (P i) 0)) by (rewrite map_length, seq_length; auto). rewrite map_nth, seq_nth by auto. reflexivity. }
    assert (E1 : forall l, Forall (fun i => (i < dim)%nat) l -> existsb (fun i => neqb (luU dim M i i) n0) l = existsb (fun i => Reqb (U i i) 0) l).
    { induction 1; cbn [existsb]; auto. rewrite IHForall, EM by lia. auto. }
    assert (Fs : Forall (fun i => (i < dim)%nat) (seq 0 dim)) by (apply Forall_forall; intros z Hz; apply in_seq in Hz; lia).
    rewrite E1 by auto. destruct (existsb (fun i => Reqb (U i i) 0) (seq 0 dim)).
    - replace (map (fun i => leading (luU dim M i) (seq 0 (dim + 1))) (seq 0 dim)) with (map (fun i => leading (U i) (seq 0 (dim + 1))) (seq 0 dim)); auto.
      apply map_ext_in. intros i Hi. apply in_seq in Hi. assert (Fc : Forall (fun c => (c <= dim)%nat) (seq 0 (dim + 1))) by (apply Forall_forall; intros z Hz; apply in_seq in Hz; lia).
      induction Fc; cbn [leading]; auto. rewrite EM by lia. rewrite IHFc. auto.
    - f_equal. unfold solveUpper. assert (Eb : forall k, (k <= dim)%nat -> backsub dim (luU dim M) (fun i => luU dim M i dim) k = backsub dim U (fun i => U i dim) k).
      { induction k; intros Hk; auto. cbn [backsub]. rewrite IHk by lia. cbv zeta. rewrite !EM by lia. do 3 f_equal.
        f_equal. apply map_ext_in. intros c Hc. apply in_seq in Hc. rewrite EM by lia. auto. }
      apply Eb. auto.
  Qed.
  Lemma leading_spec (row : nat -> R) cs c : @leading R R_num row cs = Some c -> exists a b, cs = a ++ c :: b /\ row c <> 0 /\ Forall (fun k => row k = 0) a.
  Proof.
    induction cs as [|k cs IH]; cbn [leading]; [discriminate|]. rnum. destruct (Reqb (row k) 0) eqn:E.
    - apply Reqb_true in E. intros H. destruct (IH H) as [a [b [-> [N F]]]]. exists (k :: a), b. auto.
    - apply Reqb_false in E. intros H. injection H as ->. exists [], cs. auto.
  Qed.
  Lemma root_unique x : (forall i, (i < dim)%nat -> U i i <> 0) -> commonZero dim polys x <-> x = @solveUpper R R_num dim U (fun i => U i dim).
  Proof.
    intros D. rewrite zero_U. pose proof U_low as L. split.
    - intros [Lx H]. unfold solveUpper. rewrite (backsub_unique dim U _ (fun c => nth c x 0) dim (le_n _)).
      + rewrite Nat.sub_diag. apply nth_ext with (d := 0) (d' := 0); [rewrite map_length, seq_length; auto|]. intros c Hc.
        rewrite (nth_indep (map _ _) 0 (nth 0 x 0)) by (rewrite map_length, seq_length; lia). rewrite (map_nth (fun c => nth c x 0)), seq_nth by lia. auto.
      + intros i Hi. split; [apply D; lia|]. rewrite upperRow_full by (try lia; intros; apply L; lia). apply H. lia.
    - intros ->. unfold solveUpper. split; [apply backsub_length|]. intros i Hi.
      pose proof (backsub_solves dim U (fun i => U i dim) dim (le_n _)) as B. rewrite Nat.sub_diag in B. specialize (B ltac:(intros; apply D; lia) i ltac:(lia)).
      rewrite upperRow_full in B by (try lia; intros; apply L; lia). rewrite <- B. apply sumn_ext. intros c Hc. rewrite Nat.sub_0_r. auto.
  Qed.
  Lemma not_unique x : (exists i, (i < dim)%nat /\ U i i = 0) -> commonZero dim polys x -> exists y, commonZero dim polys y /\ y <> x.
  Proof.
    intros Z H. destruct (zero_diagonal dim U U_low Z) as [w [[c [Hc Nw]] K]]. apply zero_U in H. destruct H as [Lx H].
    exists (map (fun c => nth c x 0 + w c) (seq 0 dim)).
    assert (N : forall k, (k < dim)%nat -> nth k (map (fun c => nth c x 0 + w c) (seq 0 dim)) 0 = nth k x 0 + w k).
    { intros k Hk. rewrite (nth_indep (map _ _) 0 (nth 0 x 0 + w 0%nat)) by (rewrite map_length, seq_length; lia).
      rewrite (map_nth (fun c => nth c x 0 + w c)), seq_nth by lia. auto. }
    split.
    - apply zero_U. split; [rewrite map_length, seq_length; auto|]. intros i Hi. rewrite <- (H i Hi). unfold rowTimes.
      rewrite (sumn_ext dim _ (fun c => U i c * nth c x 0 + U i c * w c)) by (intros k Hk; rewrite N by auto; ring).
      rewrite sumn_plus. specialize (K i Hi). unfold rowTimes in K. rewrite K. ring.
    - intros E. apply (f_equal (fun l => nth c l 0)) in E. rewrite N in E by auto. lra.
  Qed.
  Lemma no_roots : @solve_linear R R_num polys = NoRoots -> forall x, ~ commonZero dim polys x.
  Proof.
    rewrite solve_call. destruct (existsb _ (seq 0 dim)); [|discriminate]. destruct (existsb _ (map _ _)) eqn:E; [|discriminate]. intros _ x H.
    apply existsb_exists in E. destruct E as [p [Ip Ep]]. apply in_map_iff in Ip. destruct Ip as [i [Ei Ii]]. apply in_seq in Ii.
    destruct p as [c|]; [|discriminate]. apply Nat.eqb_eq in Ep. subst c. apply leading_spec in Ei. destruct Ei as [a [b [Es [N F]]]].
    apply zero_U in H. destruct H as [Lx H]. specialize (H i ltac:(lia)). apply N. rewrite <- H. apply sumn_zero. intros k Hk.
    assert (La : length a = dim).
    { assert (Q : nth (length a) (seq 0 (dim + 1)) 0%nat = dim) by (rewrite Es, app_nth2, Nat.sub_diag by lia; auto).
      assert (length a < dim + 1)%nat by (rewrite <- (seq_length (dim + 1) 0), Es, app_length; cbn; lia). rewrite seq_nth in Q by lia. lia. }
    assert (Ik : In k a).
    { assert (Q : nth k (seq 0 (dim + 1)) 0%nat = k) by (rewrite seq_nth; lia). rewrite <- Q, Es, app_nth1 by lia. apply nth_In. lia. }
    rewrite Forall_forall in F. rewrite (F k Ik). ring.
  Qed.
  Lemma solve_root x : @solve_linear R R_num polys = Root x <-> commonZero dim polys x /\ (forall y, commonZero dim polys y -> y = x).
  Proof.
    rewrite solve_call. destruct (existsb (fun i => Reqb (U i i) 0) (seq 0 dim)) eqn:E.
    - apply existsb_exists in E. destruct E as [i [Ii Ei]]. apply in_seq in Ii. apply Reqb_true in Ei. split.
      + destruct (existsb _ _); discriminate.
      + intros [H Q]. exfalso. destruct (not_unique x ltac:(exists i; split; [lia|auto]) H) as [y [Hy N]]. apply N. auto.
    - assert (D : forall i, (i < dim)%nat -> U i i <> 0).
      { intros i Hi K. assert (existsb (fun i => Reqb (U i i) 0) (seq 0 dim) = true); [|congruence]. apply existsb_exists. exists i. split; [apply in_seq; lia|]. apply Reqb_true. auto. }
      split.
      + intros H. injection H as <-. split; [apply root_unique; auto|]. intros y Hy. apply root_unique; auto.
      + intros [H _]. apply root_unique in H; auto. subst x. auto.
  Qed.
End Solve.
