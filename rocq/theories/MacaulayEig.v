(** * From a null vector of the Macaulay matrix to a joint eigenvector of the Moller-Stetter matrices *)
From Coq Require Import List Arith Reals Lia Lra Bool Permutation.
From Coquelicot Require Import Complex.
From Coq Require Import List.
From Verif Require Import Num RSum Tensor OneDSpec OneDProofs CondProofs DepProps PermProofs MonMultProofs MacaulayModel MacaulaySpec MacaulayProofs MacaulayRed.
Import ListNotations.
Local Open Scope R_scope.

(** ** tvb *)
Section Tvb.
  Variables (X : lapack R) (rows N cut bez : nat) (M : rmatrix) (mc : R).
  Hypothesis HX : lapackOK X.
  Hypothesis Hcut : (cut <= N)%nat.
  Let l := (N - cut)%nat.
  Hypothesis Hbez : (1 <= bez <= l)%nat.
  Variables (E : rmatrix) (P : list nat).
  Hypothesis Hok : @reduce_macaulay_tvb R R_num X rows N M cut bez mc = MOk (E, P).
  Let br := (N - bez)%nat.
  Let M1 := @qrStep R R_num X rows cut M.
  Let B : rmatrix := fun i j => M1 (cut + i)%nat (cut + j)%nat.
  Let R2 := fst (lqrP X (rows - cut)%nat l B).
  Let M2 : rmatrix := fun i j => if (cut <=? j)%nat then (if (cut <=? i)%nat then R2 (i - cut)%nat (j - cut)%nat else M1 i (cut + nth (j - cut) P 0)%nat) else M1 i j.
  Lemma tvb_ok : (br <= rows)%nat /\ (cut < rows)%nat /\ P = snd (lqrP X (rows - cut)%nat l B) /\ (forall i, (i < br)%nat -> M2 i i <> 0) /\ triSolved br bez M2 (fun i j => M2 i (br + j)%nat) E.
  Proof.
    revert Hok. unfold reduce_macaulay_tvb. fold l. fold M1. destruct (tooBig _ _); [discriminate|]. destruct (Nat.ltb_spec cut rows) as [L|L]; [|discriminate]. fold B.
    unfold M2, R2. destruct (lqrP X (rows - cut) l B) as [R2' P'] eqn:EP. cbn [fst snd]. fold br. destruct (tooBig _ _); [discriminate|].
    destruct (Nat.ltb_spec rows br) as [L'|L']; [discriminate|]. destruct HX as (_ & _ & _ & _ & HT & _).
    match goal with |- context [ltri X br bez ?m ?b] => specialize (HT br bez m b); destruct (ltri X br bez m b) as [E'|]; [|discriminate] end.
    intros H. injection H as -> ->. split; [lia|]. split; auto.
  Qed.
  Lemma tvb_perm : Permutation P (seq 0 l).
  Proof. destruct tvb_ok as (_ & _ & -> & _). destruct HX as (_ & _ & _ & HP & _). destruct (HP (rows - cut)%nat l B) as (Q & H & _). exact H. Qed.
  Variable u : nat -> C.
  Hypothesis Hu : forall i, (i < rows)%nat -> mvC N M u i = 0%C.
  Definition permuted (j : nat) : C := if (j <? cut)%nat then u j else u (cut + nth (j - cut) P 0)%nat.
  Lemma M2_null i : (i < rows)%nat -> mvC N M2 permuted i = 0%C.
  Proof.
    intros Hi. pose proof (qrStep_null X rows N cut M HX u Hu) as H1. fold M1 in H1.
    unfold mvC. replace N with (cut + l)%nat by (unfold l; lia). rewrite csum_split.
    rewrite (csum_ext cut _ (fun j => RtoC (M1 i j) * u j)%C) by (intros j Hj; unfold M2, permuted; destruct (Nat.leb_spec cut j); [lia|]; destruct (Nat.ltb_spec j cut); [auto|lia]).
    assert (A : forall j, permuted (cut + j)%nat = u (cut + nth j P 0)%nat) by (intros j; unfold permuted; destruct (Nat.ltb_spec (cut + j) cut); [lia|]; replace (cut + j - cut)%nat with j by lia; auto).
    destruct (lt_dec i cut) as [L|L].
    - rewrite (csum_ext l _ (fun j => (fun p => RtoC (M1 i (cut + p)%nat) * u (cut + p)%nat)%C (nth j P 0%nat))).
      + rewrite (csum_perm l P (fun p => RtoC (M1 i (cut + p)%nat) * u (cut + p)%nat)%C tvb_perm). rewrite <- (split_mv X rows N cut M Hcut). apply H1; auto.
      + intros j Hj. rewrite A. f_equal. f_equal. unfold M2. destruct (Nat.leb_spec cut (cut + j)); [|lia]. destruct (Nat.leb_spec cut i); [lia|]. replace (cut + j - cut)%nat with j by lia. auto.
    - rewrite csum_zero by (intros j Hj; unfold M1; rewrite (qrStep_upper X rows N cut M HX Hcut) by lia; ring). rewrite Cplus_0_l.
      destruct tvb_ok as (_ & _ & EP & _). destruct HX as (_ & _ & _ & HP & _). destruct (HP (rows - cut)%nat l B) as (Q & Pp & HQ & HU & HA & _). fold R2 in HU, HA. rewrite <- EP in HA.
      pose proof (low_null X rows N cut M HX Hcut u H1) as H2. fold M1 in H2. fold B in H2. fold l in H2.
      rewrite (csum_ext l _ (fun j => RtoC (R2 (i - cut)%nat j) * u (cut + nth j P 0)%nat)%C).
      2:{ intros j Hj. rewrite A. f_equal. f_equal. unfold M2. destruct (Nat.leb_spec cut (cut + j)); [|lia]. destruct (Nat.leb_spec cut i); [|lia]. replace (cut + j - cut)%nat with j by lia. auto. }
      change (mvC l R2 (fun j => u (cut + nth j P 0)%nat) (i - cut)%nat = 0%C).
      rewrite <- (orth_VtV (rows - cut) Q (mvC l R2 (fun j => u (cut + nth j P 0)%nat)) (i - cut)%nat HQ) by lia.
      apply mvC_zero. intros p Hp. rewrite mvC_mul. rewrite <- (H2 p Hp). unfold mvC. rewrite <- (csum_perm l P (fun j => RtoC (B p j) * u (cut + j)%nat)%C) by (rewrite EP; exact Pp).
      apply csum_ext. intros j Hj. rewrite HA by auto. reflexivity.
  Qed.
  Lemma tvb_back i : (i < br)%nat -> permuted i = (- mvC bez E (fun j => permuted (br + j)%nat) i)%C.
  Proof.
    destruct tvb_ok as (Hbr & Hr & EP & Hd & HT). revert i. apply (tri_back br bez M2 _ E permuted (fun j => permuted (br + j)%nat) Hd HT). intros i Hi.
    etransitivity; [|exact (M2_null i ltac:(lia))]. unfold mvC. replace N with (br + bez)%nat by (unfold br; lia). rewrite csum_split. f_equal.
    apply csum_ext. intros j Hj. destruct (Nat.leb_spec i j) as [L|L]; auto. replace (M2 i j) with 0; [ring|]. symmetry. unfold M2.
    destruct (Nat.leb_spec cut j).
    - destruct (Nat.leb_spec cut i); [|lia]. destruct HX as (_ & _ & _ & HP & _). destruct (HP (rows - cut)%nat l B) as (Q & _ & _ & HU & _). apply HU; unfold l, br in *; lia.
    - apply (qrStep_upper X rows N cut M HX Hcut); lia.
  Qed.
End Tvb.

(** ** The column of a product *)
Lemma dist1_zero a : forall b, length a = length b -> (dist1 a b = 0%nat <-> a = b).
Proof.
  induction a as [|x a IH]; intros [|y b] L; try discriminate; [tauto|]. cbn. specialize (IH b ltac:(cbn in L; lia)). split.
  - intros H. f_equal; [lia|]. apply IH. lia.
  - intros H. injection H as -> ->. assert (dist1 b b = 0%nat) by (apply IH; auto). lia.
Qed.
Lemma argminFrom_spec l : forall pos best bestPos, (bestPos < pos)%nat ->
  let k := argminFrom l pos best bestPos in
  (k = bestPos /\ forall v, In v l -> (best <= v)%nat) \/ ((pos <= k)%nat /\ (k < pos + length l)%nat /\ (nth (k - pos) l 0 < best)%nat /\ forall v, In v l -> (nth (k - pos) l 0 <= v)%nat).
Proof.
  induction l as [|a l IH]; intros pos best bestPos H; cbn [argminFrom]; [left; split; auto; intros v []|].
  destruct (Nat.ltb_spec a best) as [L|L].
  - destruct (IH (S pos) a pos ltac:(lia)) as [[E G]|(A1 & A2 & A3 & A4)]; cbv zeta in *.
    + right. rewrite E. rewrite Nat.sub_diag. cbn [nth length]. split; [lia|]. split; [lia|]. split; auto. intros v [<-|Hv]; auto.
    + right. set (k := argminFrom l (S pos) a pos) in *. replace (k - pos)%nat with (S (k - S pos)) by lia. cbn [nth length]. split; [lia|]. split; [lia|]. split; [lia|]. intros v [<-|Hv]; [lia|auto].
  - destruct (IH (S pos) best bestPos ltac:(lia)) as [[E G]|(A1 & A2 & A3 & A4)]; cbv zeta in *.
    + left. split; auto. intros v [<-|Hv]; auto.
    + right. set (k := argminFrom l (S pos) best bestPos) in *. replace (k - pos)%nat with (S (k - S pos)) by lia. cbn [nth length]. split; [lia|]. split; [lia|]. split; [lia|]. intros v [<-|Hv]; [lia|auto].
Qed.
Lemma argmin_spec l : l <> [] -> (argmin l < length l)%nat /\ forall v, In v l -> (nth (argmin l) l 0 <= v)%nat.
Proof.
  destruct l as [|a l]; [congruence|]. intros _. cbn [argmin length]. destruct (argminFrom_spec l 1 a 0 ltac:(lia)) as [[E G]|(A1 & A2 & A3 & A4)]; cbv zeta in *.
  - rewrite E. split; [lia|]. intros v [<-|Hv]; cbn; auto.
  - set (k := argminFrom l 1 a 0) in *. split; [lia|]. destruct k as [|k]; [lia|]. cbn [nth]. replace (S k - 1)%nat with k in * by lia. intros v [<-|Hv]; [lia|auto].
Qed.
Lemma nearest_spec terms t : In t terms -> (forall v, In v terms -> length v = length t) -> (nearest terms t < length terms)%nat /\ nth (nearest terms t) terms [] = t.
Proof.
  intros I L. unfold nearest. destruct (argmin_spec (map (dist1 t) terms)) as [A1 A2]; [destruct terms; [destruct I|discriminate]|]. rewrite map_length in A1. split; auto.
  set (k := argmin (map (dist1 t) terms)) in *. assert (Z : dist1 t (nth k terms []) = 0%nat).
  { specialize (A2 (dist1 t t) (in_map (dist1 t) terms t I)). rewrite (proj2 (dist1_zero t t eq_refl) eq_refl) in A2. rewrite nth_indep with (d' := dist1 t []) in A2 by (rewrite map_length; auto). rewrite map_nth in A2. lia. }
  apply dist1_zero in Z; auto. symmetry. apply L. apply nth_In; auto.
Qed.

(** ** Multiplication of the basis values by x_var *)
Lemma monAt_up_power z var t : length z = length t -> (var < length t)%nat -> monAt true (upMon var t) z = (nth var z 0 * monAt true t z)%C.
Proof.
  intros L H. destruct (monAt_upd true t z var (nth var t 0%nat) L H) as (c & A & B). unfold upMon. rewrite A, (B eq_refl). cbn [monAt1]. rewrite cpow_add. cbn. ring.
Qed.
Lemma monAt_updown_cheb z var t : length z = length t -> (var < length t)%nat ->
  (RtoC (/ 2) * (monAt false (upMon var t) z + monAt false (downMon var t) z))%C = (nth var z 0 * monAt false t z)%C.
Proof.
  intros L H. destruct (monAt_upd false t z var (nth var t 0%nat) L H) as (c & A & B). unfold upMon, downMon. rewrite !A, (B eq_refl). cbn [monAt1].
  pose proof (chebTC_product 1 (nth var t 0%nat) (nth var z 0%C)) as P. change (OneDSpec.chebT (nth var z 0%C) 1) with (nth var z 0%C) in P.
  replace (match nth var t 0%nat with O => 1%nat | S k => k end) with (dist (nth var t 0%nat) 1) by (unfold dist; destruct (nth var t 0%nat); lia).
  transitivity (RtoC (/ 2) * (OneDSpec.chebT (nth var z 0%C) (nth var t 0%nat + 1) + OneDSpec.chebT (nth var z 0%C) (dist (nth var t 0%nat) 1)) * c)%C; [ring|]. rewrite <- P.
  replace (RtoC (/ 2)) with (/ 2)%C by (rewrite RtoC_inv; [reflexivity|lra]). field. intros E. injection E. lra.
Qed.
(** the columns the product is read from *)
Definition shiftIdx (power : bool) (terms : list (list nat)) (m var : nat) (u : nat -> C) (j : nat) : C :=
  if power then u (nth j (indexarray terms m var) 0%nat)
  else (RtoC (/ 2) * (u (nth j (fst (indexarray_cheb terms m var)) 0%nat) + u (nth j (snd (indexarray_cheb terms m var)) 0%nat)))%C.
Lemma nth_map' {A B} (f : A -> B) l d d' j : (j < length l)%nat -> nth j (map f l) d' = f (nth j l d).
Proof. intros H. rewrite (nth_indep _ d' (f d)) by (rewrite map_length; auto). apply map_nth. Qed.
Lemma shift_spec power terms m var D dim z j : (forall v, In v terms <-> length v = dim /\ (list_sum v <= D)%nat) -> (1 <= D)%nat ->
  (forall v, In v (skipn m terms) -> (list_sum v <= D - 1)%nat) -> length z = dim -> (var < dim)%nat -> (m + j < length terms)%nat ->
  shiftIdx power terms m var (fun j => monAt power (nth j terms []) z) j = (nth var z 0 * monAt power (nth (m + j) terms []) z)%C.
Proof.
  intros It HD Hlow Lz Hv Hj. assert (Es : nth j (skipn m terms) [] = nth (m + j) terms []).
  { clear. revert terms. induction m; intros [|a l]; cbn; auto. destruct j; reflexivity. }
  assert (Lj : (j < length (skipn m terms))%nat) by (rewrite skipn_length; lia).
  set (t := nth (m + j) terms []) in *. assert (Ht : In t terms) by (apply nth_In; lia). assert (Ht' : In t (skipn m terms)) by (rewrite <- Es; apply nth_In; auto).
  apply It in Ht. destruct Ht as [Lt St]. pose proof (Hlow t Ht') as S1.
  assert (Up : In (upMon var t) terms).
  { apply It. unfold upMon. rewrite upd_length. split; auto. pose proof (list_sum_upd t var (nth var t 0 + 1)%nat ltac:(lia)). lia. }
  assert (Len : forall s : list nat, length s = dim -> forall v, In v terms -> length v = length s) by (intros s Ls v Iv; apply It in Iv; lia).
  destruct power; unfold shiftIdx.
  - unfold indexarray. rewrite (nth_map' _ _ []) by auto. rewrite Es. rewrite (proj2 (nearest_spec terms (upMon var t) Up (Len (upMon var t) ltac:(unfold upMon; rewrite upd_length; auto)))).
    apply monAt_up_power; lia.
  - assert (Dn : In (downMon var t) terms).
    { apply It. unfold downMon. rewrite upd_length. split; auto. match goal with |- (list_sum (upd t var ?v) <= _)%nat => pose proof (list_sum_upd t var v ltac:(lia)) end. destruct (nth var t 0%nat); lia. }
    unfold indexarray_cheb. cbn [fst snd]. rewrite !(nth_map' _ _ []) by auto. rewrite Es.
    rewrite (proj2 (nearest_spec terms (upMon var t) Up (Len (upMon var t) ltac:(unfold upMon; rewrite upd_length; auto)))).
    rewrite (proj2 (nearest_spec terms (downMon var t) Dn (Len (downMon var t) ltac:(unfold downMon; rewrite upd_length; auto)))).
    apply monAt_updown_cheb; lia.
Qed.

(** ** The Moller-Stetter matrices *)
Lemma nlit_half : @nlit R R_num 1 2 = / 2.
Proof. rewrite nlit_R. lra. Qed.
Section MS.
  Variables (m l bez : nat) (E Q : rmatrix) (u w : nat -> C).
  Hypothesis Hhigh : forall i, (i < m)%nat -> u i = (- mvC bez E w i)%C.
  Hypothesis Hlow : forall i, (i < l)%nat -> u (m + i)%nat = mvC bez Q w i.
  Lemma wA c : (c < m + l)%nat -> csum bez (fun r => w r * RtoC (@hstackT R R_num m E Q r c))%C = u c.
  Proof.
    intros Hc. unfold hstackT. destruct (Nat.ltb_spec c m) as [L|L].
    - rewrite Hhigh by auto. unfold mvC. transitivity (csum bez (fun r => Copp (RtoC 1) * (RtoC (E c r) * w r))%C).
      + apply csum_ext. intros r Hr. cbn [nopp R_num]. rewrite RtoC_opp. ring.
      + rewrite csum_scal. ring.
    - transitivity (u (m + (c - m))%nat); [|f_equal; lia]. rewrite Hlow by lia. unfold mvC. apply csum_ext. intros r Hr. ring.
  Qed.
  Variables (terms : list (list nat)) (var : nat).
  Hypothesis Lt : length terms = (m + l)%nat.
  Hypothesis Ll : (1 <= l)%nat.
  Lemma arr_lt (f : list nat -> list nat) j : (nth j (map (fun t => nearest terms (f t)) (skipn m terms)) 0 < m + l)%nat.
  Proof.
    destruct (lt_dec j (length (skipn m terms))) as [L|L]; [|rewrite nth_overflow by (rewrite map_length; lia); lia].
    rewrite (nth_map' _ _ []) by auto. unfold nearest. destruct (argmin_spec (map (dist1 (f (nth j (skipn m terms) []))) terms)) as [A _]; [destruct terms; [cbn in Lt; lia|discriminate]|]. rewrite map_length in A. lia.
  Qed.
  Lemma ms_mul (power : bool) s : csum bez (fun r => w r * RtoC ((if power then @ms_matrices R R_num else @ms_matrices_cheb R R_num) m l E Q terms var r s))%C =
    csum l (fun j => shiftIdx power terms m var u j * RtoC (Q j s))%C.
  Proof.
    assert (G : forall a : nat -> nat -> R, csum bez (fun r => w r * RtoC (sumn l (fun j => a r j * Q j s)%R))%C = csum l (fun j => csum bez (fun r => w r * RtoC (a r j)) * RtoC (Q j s))%C).
    { intros a. rewrite (csum_ext bez _ (fun r => csum l (fun j => w r * RtoC (a r j) * RtoC (Q j s))%C)).
      - rewrite csum_swap. apply csum_ext. intros j Hj. rewrite csum_scal_r. reflexivity.
      - intros r Hr. rewrite <- csum_RtoC, <- csum_scal. apply csum_ext. intros j Hj. rewrite RtoC_mult. ring. }
    destruct power; unfold shiftIdx.
    - unfold ms_matrices. transitivity (csum bez (fun r => w r * RtoC (sumn l (fun j => @hstackT R R_num m E Q r (nth j (indexarray terms m var) 0%nat) * Q j s)%R))%C).
      + apply csum_ext. intros r Hr. rewrite msum_R. reflexivity.
      + rewrite (G (fun r j => @hstackT R R_num m E Q r (nth j (indexarray terms m var) 0%nat))). apply csum_ext. intros j Hj. rewrite wA by (apply (arr_lt (upMon var))). reflexivity.
    - unfold ms_matrices_cheb. unfold indexarray_cheb. cbn [fst snd].
      set (a1 := map (fun t => nearest terms (upMon var t)) (skipn m terms)). set (a2 := map (fun t => nearest terms (downMon var t)) (skipn m terms)).
      transitivity (csum bez (fun r => w r * RtoC (sumn l (fun j => (/ 2 * (@hstackT R R_num m E Q r (nth j a1 0%nat) + @hstackT R R_num m E Q r (nth j a2 0%nat))) * Q j s)%R))%C).
      + apply csum_ext. intros r Hr. rewrite msum_R, nlit_half. reflexivity.
      + rewrite (G (fun r j => / 2 * (@hstackT R R_num m E Q r (nth j a1 0%nat) + @hstackT R R_num m E Q r (nth j a2 0%nat)))). apply csum_ext. intros j Hj. f_equal.
        rewrite <- (wA (nth j a1 0%nat)), <- (wA (nth j a2 0%nat)) by (apply (arr_lt (upMon var)) || apply (arr_lt (downMon var))). rewrite <- csum_plus, <- csum_scal. apply csum_ext. intros r Hr. rewrite RtoC_mult, RtoC_plus. ring.
  Qed.
End MS.
(** with the pivots: the identity in place of Q *)
Section MSP.
  Variables (r bez : nat) (E : rmatrix) (u w : nat -> C).
  Hypothesis Hhigh : forall i, (i < r)%nat -> u i = (- mvC bez E w i)%C.
  Hypothesis Hlow : forall i, (i < bez)%nat -> u (r + i)%nat = w i.
  Variables (terms : list (list nat)) (var : nat).
  Hypothesis Lt : length terms = (r + bez)%nat.
  Hypothesis Ll : (1 <= bez)%nat.
  Lemma msp_mul (power : bool) s : csum bez (fun i => w i * RtoC ((if power then @ms_matrices_p R R_num else @ms_matrices_p_cheb R R_num) r E terms var i s))%C = shiftIdx power terms r var u s.
  Proof.
    assert (L2 : forall i, (i < bez)%nat -> u (r + i)%nat = mvC bez (@eye R R_num) w i) by (intros i Hi; rewrite Hlow by auto; symmetry; apply mvC_id; auto).
    pose proof (wA r bez bez E (@eye R R_num) u w Hhigh L2) as A. destruct power; unfold shiftIdx.
    - unfold ms_matrices_p. rewrite A by (apply (arr_lt r bez terms Lt Ll (upMon var))). reflexivity.
    - unfold ms_matrices_p_cheb, indexarray_cheb. cbn [fst snd].
      set (a1 := map (fun t => nearest terms (upMon var t)) (skipn r terms)). set (a2 := map (fun t => nearest terms (downMon var t)) (skipn r terms)).
      rewrite <- (A (nth s a1 0%nat)), <- (A (nth s a2 0%nat)) by (apply (arr_lt r bez terms Lt Ll (upMon var)) || apply (arr_lt r bez terms Lt Ll (downMon var))).
      rewrite <- csum_plus, <- csum_scal. apply csum_ext. intros i Hi. rewrite nlit_half. cbn [nmul nadd R_num]. rewrite RtoC_mult, RtoC_plus. ring.
  Qed.
End MSP.
