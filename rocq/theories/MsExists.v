(** * Eigenvalues and Schur forms exist: the contracts of MsSpec can be met in every dimension *)
From Coq Require Import List Arith Reals Lia Lra Bool Permutation ClassicalEpsilon.
From Coquelicot Require Import Complex.
From Coq Require Import List.
From Verif Require Import Num RSum OneDSpec OneDProofs OrderProofs CondModel CondProofs CondProps LinAlgModel MacaulaySpec MacaulayExists MsModel MsSpec MsProofs MsRoots.
Import ListNotations.
Local Open Scope R_scope.
Local Open Scope C_scope.

Definition cmul (n : nat) (X Y : nat -> nat -> C) : nat -> nat -> C := fun i j => csum n (fun k => X i k * Y k j).
Definition dagger (U : nat -> nat -> C) : nat -> nat -> C := fun i j => Cconj (U j i).
Lemma cmul_assoc n X Y Z i j : cmul n (cmul n X Y) Z i j = cmul n X (cmul n Y Z) i j.
Proof.
  unfold cmul. rewrite (csum_ext n _ (fun k => csum n (fun l => X i l * Y l k * Z k j))) by (intros; rewrite csum_scal_r; reflexivity).
  rewrite csum_swap. apply csum_ext. intros l Hl. rewrite <- csum_scal. apply csum_ext. intros; ring.
Qed.
Lemma cmul_ext n X X' Y Y' i j : (forall k, (k < n)%nat -> X i k = X' i k) -> (forall k, (k < n)%nat -> Y k j = Y' k j) -> cmul n X Y i j = cmul n X' Y' i j.
Proof. intros H1 H2. apply csum_ext. intros k Hk. rewrite H1, H2; auto. Qed.
(** X Y = I: then X Y Z = Z and Z X Y = Z *)
Lemma cancel_l n X Y Z i j : inverseOf n X Y -> (i < n)%nat -> cmul n X (cmul n Y Z) i j = Z i j.
Proof.
  intros H Hi. rewrite <- cmul_assoc. unfold cmul at 1. rewrite (csum_one n _ i); auto.
  - unfold cmul. rewrite (H i i) by auto. rewrite Nat.eqb_refl. ring.
  - intros k Hk Nk. unfold cmul. rewrite (H i k) by auto. destruct (Nat.eqb_spec i k); [congruence|ring].
Qed.
Lemma cancel_r n X Y Z i j : inverseOf n X Y -> (j < n)%nat -> cmul n (cmul n Z X) Y i j = Z i j.
Proof.
  intros H Hj. rewrite cmul_assoc. unfold cmul at 1. rewrite (csum_one n _ j); auto.
  - unfold cmul. rewrite (H j j) by auto. rewrite Nat.eqb_refl. ring.
  - intros k Hk Nk. unfold cmul. rewrite (H k j) by auto. destruct (Nat.eqb_spec k j); [congruence|ring].
Qed.

(** ** the eigenvalues of a diagonalizable matrix *)
Definition ind (P : Prop) : C := if excluded_middle_informative P then 1 else 0.
Lemma count_csum (lam : nat -> C) mu n : RtoC (INR (count_occ Ceq_dec (map lam (seq 0 n)) mu)) = csum n (fun k => ind (lam k = mu)).
Proof.
  induction n as [|n IH]; [reflexivity|]. rewrite seq_S, map_app, count_occ_app. cbn [map count_occ csum Nat.add]. rewrite plus_INR, RtoC_plus, IH. f_equal. unfold ind.
  destruct (Ceq_dec (lam n) mu), (excluded_middle_informative (lam n = mu)); try tauto; reflexivity.
Qed.
Lemma eigenvalues_unique n A lam W Wi lam' W' Wi' : diagonalizes n A lam W Wi -> diagonalizes n A lam' W' Wi' -> Permutation (map lam (seq 0 n)) (map lam' (seq 0 n)).
Proof.
  intros (H1 & H2 & H3) (H1' & H2' & H3'). set (AC := fun i j => RtoC (A i j)). set (S := cmul n W' Wi). set (R0 := cmul n W Wi').
  assert (E3 : forall k j, (k < n)%nat -> (j < n)%nat -> cmul n W AC k j = lam k * W k j) by (intros k j Hk Hj; apply H3; auto).
  assert (E3' : forall k j, (k < n)%nat -> (j < n)%nat -> cmul n W' AC k j = lam' k * W' k j) by (intros k j Hk Hj; apply H3'; auto).
  assert (Eq : forall k j, (k < n)%nat -> (j < n)%nat -> S k j <> 0 -> lam' k = lam j).
  { intros k j Hk Hj N. apply (Cmult_cancel_l (S k j)); auto.
    transitivity (cmul n (cmul n W' AC) Wi k j).
    - unfold cmul at 1. rewrite (csum_ext n _ (fun i => lam' k * (W' k i * Wi i j))) by (intros i Hi; rewrite E3' by auto; ring). rewrite csum_scal. unfold S, cmul. ring.
    - transitivity (cmul n S (cmul n (cmul n W AC) Wi) k j).
      + rewrite cmul_assoc. unfold S. rewrite (cmul_assoc n W' Wi). apply cmul_ext; auto. intros i Hi. transitivity (cmul n Wi (cmul n W (cmul n AC Wi)) i j); [symmetry; apply cancel_l; auto|]. apply cmul_ext; auto. intros l Hl. symmetry. apply cmul_assoc.
      + unfold cmul at 1. rewrite (csum_one n _ j); auto.
        * unfold cmul at 1. rewrite (csum_ext n _ (fun i => lam j * (W j i * Wi i j))) by (intros i Hi; rewrite E3 by auto; ring). rewrite csum_scal, (H1 j j) by auto. rewrite Nat.eqb_refl. ring.
        * intros l Hl Nl. unfold cmul at 1. rewrite (csum_ext n _ (fun i => lam l * (W l i * Wi i j))) by (intros i Hi; rewrite E3 by auto; ring). rewrite csum_scal, (H1 l j) by auto. destruct (Nat.eqb_spec l j); [congruence|ring]. }
  assert (SR : forall k, (k < n)%nat -> csum n (fun j => S k j * R0 j k) = 1).
  { intros k Hk. change (cmul n S R0 k k = 1). unfold S, R0. rewrite cmul_assoc. rewrite (cmul_ext n W' W' _ Wi' k k); auto; [|intros i Hi; apply cancel_l; auto]. unfold cmul. rewrite (H1' k k) by auto. rewrite Nat.eqb_refl. auto. }
  assert (RS : forall j, (j < n)%nat -> csum n (fun k => R0 j k * S k j) = 1).
  { intros j Hj. change (cmul n R0 S j j = 1). unfold S, R0. rewrite cmul_assoc. rewrite (cmul_ext n W W _ Wi j j); auto; [|intros i Hi; apply cancel_l; auto]. unfold cmul. rewrite (H1 j j) by auto. rewrite Nat.eqb_refl. auto. }
  apply (Permutation_count_occ Ceq_dec). intros mu. apply INR_eq. apply RtoC_inj. rewrite !count_csum.
  transitivity (csum n (fun j => csum n (fun k => R0 j k * S k j * ind (lam j = mu)))).
  - apply csum_ext. intros j Hj. rewrite csum_scal_r, RS by auto. ring.
  - rewrite csum_swap. apply csum_ext. intros k Hk. rewrite <- (Cmult_1_l (ind (lam' k = mu))), <- (SR k Hk), <- csum_scal_r. apply csum_ext. intros j Hj.
    destruct (Ceq_dec (S k j) 0) as [->|N]; [ring|]. rewrite (Eq k j Hk Hj N). ring.
Qed.
Definition someEig (n : nat) (A : nat -> nat -> R) : list C :=
  match excluded_middle_informative (exists p : (nat -> C) * (nat -> nat -> C) * (nat -> nat -> C), let '(lam, W, Wi) := p in diagonalizes n A lam W Wi) with
  | left H => map (fst (fst (pick H))) (seq 0 n)
  | right _ => []
  end.
Theorem someEig_ok : eigOK someEig.
Proof.
  intros n A lam W Wi HD. unfold someEig. destruct (excluded_middle_informative _) as [H|H]; [|exfalso; apply H; exists (lam, W, Wi); auto].
  pose proof (pick_spec H) as PS. destruct (pick H) as [[lam' W'] Wi']. cbn [fst]. eapply eigenvalues_unique; eauto.
Qed.

(** ** Schur forms *)
Lemma schur_gen : forall n (A : nat -> nat -> C) (lam : nat -> C) (W : nat -> nat -> C),
  (forall k l, (k < n)%nat -> (l < n)%nat -> lam k = lam l -> k = l) ->
  (forall k, (k < n)%nat -> (exists j, (j < n)%nat /\ W k j <> 0) /\ forall j, (j < n)%nat -> cmul n W A k j = lam k * W k j) ->
  exists U, unitary n U /\ forall r s, (r < n)%nat -> (s < r)%nat -> cmul n (cmul n (dagger U) A) U r s = 0.
Proof.
  induction n as [|n IH]; intros A lam W Hd HW.
  { exists (fun _ _ => 0). split; [split; intros i j Hi; lia|intros; lia]. }
  destruct (HW n ltac:(lia)) as [Nn En]. set (x := fun i => Cconj (W n i)).
  assert (Nx : nonzero (S n) x). { destruct Nn as (j & Hj & N). exists j. split; auto. intros E. apply N. rewrite <- (conj_conj (W n j)). unfold x in E. rewrite E. apply conj_R. }
  destruct (C92_householder (S n) x ltac:(lia) Nx) as (H & _ & HH & I1 & I2 & kk & Ek & Hx).
  (** the columns of H, the first one last *)
  set (sh := fun j => if (j <? n)%nat then Datatypes.S j else 0%nat). set (U1 := fun p j => H p (sh j)).
  assert (sh_lt : forall j, (sh j < S n)%nat) by (intros j; unfold sh; destruct (Nat.ltb_spec j n); lia).
  assert (sh_inj : forall i j, (i < S n)%nat -> (j < S n)%nat -> sh i = sh j -> i = j) by (intros i j Hi Hj; unfold sh; destruct (Nat.ltb_spec i n), (Nat.ltb_spec j n); lia).
  assert (Psh : Permutation (map sh (seq 0 (S n))) (seq 0 (S n))).
  { apply NoDup_Permutation_bis; [|rewrite map_length; auto|intros p Hp; apply in_map_iff in Hp; destruct Hp as (k & <- & _); apply in_seq; pose proof (sh_lt k); lia].
    assert (G : forall m s, (s + m <= S n)%nat -> NoDup (map sh (seq s m))).
    { induction m as [|m IHm]; intros s Hs; cbn [seq map]; constructor; [|apply IHm; lia]. intros I. apply in_map_iff in I. destruct I as (l & E & Il). apply in_seq in Il. apply sh_inj in E; lia. }
    apply G. lia. }
  assert (HU1 : unitary (S n) U1).
  { split; intros i j Hi Hj; unfold U1.
    - etransitivity; [apply (I2 (sh i) (sh j)); auto|]. unfold delta. destruct (Nat.eqb_spec (sh i) (sh j)) as [E|E]; [apply sh_inj in E; auto; subst; rewrite Nat.eqb_refl; auto|]. destruct (Nat.eqb_spec i j); [congruence|auto].
    - etransitivity; [apply (csum_perm (S n) sh (fun q => H i q * Cconj (H j q)) Psh)|]. apply (I1 i j); auto. }
  (** the last column is the conjugate of the eigenvector, scaled *)
  assert (Nk : kk <> 0).
  { intros ->. rewrite Cmod_0 in Ek. destruct Nx as (j & Hj & N). apply N. symmetry in Ek. apply (cnorm_0 (S n) x); auto. }
  assert (Ex : forall p, (p < S n)%nat -> x p = kk * U1 p n).
  { intros p Hp. unfold U1, sh. rewrite Nat.ltb_irrefl. transitivity (mv (S n) (adj H) (mv (S n) H x) p); [symmetry; apply mv_inverse; auto|].
    unfold mv at 1. rewrite (csum_one (S n) _ 0%nat); [|lia|intros i Hi Ni; rewrite Hx by auto; destruct i; [lia|ring]]. rewrite Hx by lia. unfold adj. rewrite <- (HH 0%nat p). ring. }
  assert (EW : forall p, (p < S n)%nat -> W n p = Cconj kk * dagger U1 n p).
  { intros p Hp. unfold dagger. rewrite <- conj_mult, <- Ex by auto. unfold x. rewrite conj_conj. auto. }
  assert (Nk' : Cconj kk <> 0) by (intros E; apply Nk; rewrite <- (conj_conj kk), E; apply conj_R).
  set (B := cmul (S n) (cmul (S n) (dagger U1) A) U1).
  assert (Blast : forall s, (s < S n)%nat -> B n s = lam n * (if Nat.eqb n s then 1 else 0)).
  { intros s Hs. unfold B. rewrite (cmul_ext (S n) _ (fun i j => lam n * dagger U1 i j) _ U1 n s); auto.
    - unfold cmul. rewrite (csum_ext (S n) _ (fun k => lam n * (dagger U1 n k * U1 k s))) by (intros; ring). rewrite csum_scal. f_equal. destruct HU1 as [H1 _]. apply (H1 n s); auto.
    - intros q Hq. apply (Cmult_cancel_l (Cconj kk)); auto. transitivity (cmul (S n) W A n q).
      + unfold cmul. rewrite <- csum_scal. apply csum_ext. intros p Hp. rewrite EW by auto. ring.
      + rewrite En, EW by auto. ring. }
  set (V := cmul (S n) W U1).
  assert (HV : forall k s, (k < S n)%nat -> (s < S n)%nat -> cmul (S n) V B k s = lam k * V k s).
  { intros k s Hk Hs. unfold V, B. destruct HU1 as [_ H2].
    transitivity (cmul (S n) (cmul (S n) W A) U1 k s).
    - rewrite cmul_assoc. rewrite cmul_assoc. apply cmul_ext; auto. intros p Hp.
      transitivity (cmul (S n) U1 (cmul (S n) (dagger U1) (cmul (S n) A U1)) p s); [apply cmul_ext; auto; intros; apply cmul_assoc|]. apply cancel_l; auto.
    - unfold cmul at 1 3. rewrite <- csum_scal. apply csum_ext. intros q Hq. destruct (HW k Hk) as [_ E]. rewrite E by auto. ring. }
  destruct (IH B lam V) as (U2 & HU2 & T2).
  { intros k l Hk Hl. apply Hd; lia. }
  { intros k Hk. split.
    - destruct (HW k ltac:(lia)) as [(i & Hi & Ni) _].
      destruct (first_nonzero (S n) (fun j => if (j =? n)%nat then 1 else V k j)) as (p & Hp & Np & Z); [exists n; split; [lia|]; rewrite Nat.eqb_refl; intros E; injection E; lra|].
      destruct (Nat.eqb_spec p n) as [->|N]; [|exists p; split; [lia|auto]]. exfalso.
      assert (Z' : forall j, (j < n)%nat -> V k j = 0) by (intros j Hj; specialize (Z j Hj); destruct (Nat.eqb_spec j n); [lia|auto]).
      assert (Vn : V k n = 0).
      { destruct (Ceq_dec (V k n) 0) as [|Nv]; auto. exfalso. assert (k = n); [|lia]. apply Hd; try lia. pose proof (HV k n ltac:(lia) ltac:(lia)) as E. unfold cmul in E. cbn [csum] in E. rewrite csum_zero in E by (intros j Hj; rewrite Z' by auto; ring).
        rewrite Blast in E by lia. rewrite Nat.eqb_refl in E. apply (Cmult_cancel_l (V k n)); auto. transitivity (0 + V k n * (lam n * 1)); [|ring]. rewrite E. ring. }
      apply Ni. destruct HU1 as [_ H2]. rewrite <- (cancel_r (S n) U1 (dagger U1) W k i H2 Hi). apply csum_zero. intros j Hj. fold V. destruct (Nat.eq_dec j n) as [->|]; [rewrite Vn; ring|rewrite Z' by lia; ring].
    - intros j Hj. rewrite <- HV by lia. unfold cmul at 2. cbn [csum]. rewrite (Blast j) by lia. destruct (Nat.eqb_spec n j); [lia|]. unfold cmul. ring. }
  (** put together *)
  set (D := fun i j => if (j <? n)%nat then (if (i <? n)%nat then U2 i j else 0) else (if (i <? n)%nat then 0 else 1)).
  assert (Dn : forall X i j, (j < n)%nat -> cmul (S n) X D i j = cmul n X U2 i j).
  { intros X i j Hj. unfold cmul. cbn [csum]. unfold D at 2. destruct (Nat.ltb_spec j n); [|lia]. rewrite Nat.ltb_irrefl. rewrite Cmult_0_r, Cplus_0_r. apply csum_ext. intros k Hk. unfold D. destruct (Nat.ltb_spec j n), (Nat.ltb_spec k n); try lia. auto. }
  assert (Dl : forall X i, cmul (S n) X D i n = X i n).
  { intros X i. unfold cmul. rewrite (csum_one (S n) _ n); [|lia|].
    - unfold D. rewrite Nat.ltb_irrefl. ring.
    - intros k Hk Nkn. unfold D. rewrite Nat.ltb_irrefl. destruct (Nat.ltb_spec k n); [ring|lia]. }
  assert (dDn : forall X i j, (i < n)%nat -> cmul (S n) (dagger D) X i j = cmul n (dagger U2) X i j).
  { intros X i j Hi. unfold cmul. cbn [csum]. unfold dagger at 2, D. destruct (Nat.ltb_spec i n); [|lia]. rewrite Nat.ltb_irrefl, conj_R. rewrite Cmult_0_l, Cplus_0_r. apply csum_ext. intros k Hk. unfold dagger. destruct (Nat.ltb_spec i n), (Nat.ltb_spec k n); try lia; auto. }
  assert (dDl : forall X j, cmul (S n) (dagger D) X n j = X n j).
  { intros X j. unfold cmul. rewrite (csum_one (S n) _ n); [|lia|].
    - unfold dagger, D. rewrite Nat.ltb_irrefl, conj_R. ring.
    - intros k Hk Nkn. unfold dagger, D. rewrite Nat.ltb_irrefl. destruct (Nat.ltb_spec k n); [rewrite conj_R; ring|lia]. }
  assert (HD : unitary (S n) D).
  { destruct HU2 as [G1 G2]. split; intros i j Hi Hj.
    - change (cmul (S n) (dagger D) D i j = if Nat.eqb i j then 1 else 0). destruct (lt_dec i n) as [Li|Li].
      + rewrite dDn by auto. destruct (lt_dec j n) as [Lj|Lj].
        * rewrite <- (G1 i j Li Lj). apply csum_ext. intros k Hk. unfold D. destruct (Nat.ltb_spec j n), (Nat.ltb_spec k n); try lia. auto.
        * unfold cmul. rewrite csum_zero; [destruct (Nat.eqb_spec i j); [lia|auto]|]. intros k Hk. unfold D. destruct (Nat.ltb_spec j n), (Nat.ltb_spec k n); try lia. ring.
      + assert (i = n) by lia. subst i. rewrite dDl. unfold D. rewrite Nat.ltb_irrefl. destruct (Nat.ltb_spec j n), (Nat.eqb_spec n j); try lia; auto.
    - change (cmul (S n) D (dagger D) i j = if Nat.eqb i j then 1 else 0). unfold cmul. cbn [csum]. destruct (lt_dec i n) as [Li|Li].
      + unfold dagger at 2, D at 2 3. rewrite Nat.ltb_irrefl. destruct (Nat.ltb_spec i n); [|lia]. rewrite Cmult_0_l, Cplus_0_r. destruct (lt_dec j n) as [Lj|Lj].
        * rewrite <- (G2 i j Li Lj). apply csum_ext. intros k Hk. unfold dagger, D. destruct (Nat.ltb_spec i n), (Nat.ltb_spec j n), (Nat.ltb_spec k n); try lia. auto.
        * rewrite csum_zero; [destruct (Nat.eqb_spec i j); [lia|auto]|]. intros k Hk. unfold dagger, D. destruct (Nat.ltb_spec k n), (Nat.ltb_spec j n); try lia. rewrite conj_R. ring.
      + assert (i = n) by lia. subst i. rewrite csum_zero by (intros k Hk; unfold D; rewrite Nat.ltb_irrefl; destruct (Nat.ltb_spec k n); [ring|lia]). unfold dagger, D. rewrite !Nat.ltb_irrefl. destruct (Nat.ltb_spec j n), (Nat.eqb_spec n j); try lia; rewrite conj_R; ring. }
  exists (cmul (S n) U1 D).
  assert (Dag : forall i j, dagger (cmul (S n) U1 D) i j = cmul (S n) (dagger D) (dagger U1) i j).
  { intros i j. unfold dagger, cmul. rewrite conj_csum. apply csum_ext. intros k Hk. rewrite conj_mult. ring. }
  split.
  - destruct HU1 as [A1 A2], HD as [B1 B2]. split; intros i j Hi Hj.
    + change (cmul (S n) (dagger (cmul (S n) U1 D)) (cmul (S n) U1 D) i j = if Nat.eqb i j then 1 else 0). rewrite (cmul_ext _ _ (cmul (S n) (dagger D) (dagger U1)) _ (cmul (S n) U1 D)) by auto. rewrite cmul_assoc.
      rewrite (cmul_ext _ (dagger D) (dagger D) _ D) by (auto; intros; apply cancel_l; auto). apply B1; auto.
    + change (cmul (S n) (cmul (S n) U1 D) (dagger (cmul (S n) U1 D)) i j = if Nat.eqb i j then 1 else 0). rewrite (cmul_ext _ _ (cmul (S n) U1 D) _ (cmul (S n) (dagger D) (dagger U1))) by auto. rewrite cmul_assoc.
      rewrite (cmul_ext _ U1 U1 _ (dagger U1)) by (auto; intros; apply cancel_l; auto). apply A2; auto.
  - intros r s Hr Hsr.
    assert (E : cmul (S n) (cmul (S n) (dagger (cmul (S n) U1 D)) A) (cmul (S n) U1 D) r s = cmul (S n) (dagger D) (cmul (S n) B D) r s).
    { transitivity (cmul (S n) (cmul (S n) (cmul (S n) (dagger D) (dagger U1)) A) (cmul (S n) U1 D) r s); [apply cmul_ext; auto; intros; apply cmul_ext; auto|].
      transitivity (cmul (S n) (cmul (S n) (dagger D) (cmul (S n) (dagger U1) A)) (cmul (S n) U1 D) r s); [apply cmul_ext; auto; intros; apply cmul_assoc|].
      rewrite cmul_assoc. apply cmul_ext; auto. intros k Hk. unfold B. symmetry. apply cmul_assoc. }
    rewrite E. destruct (Nat.eq_dec r n) as [->|Nr].
    + rewrite dDl. rewrite Dn by auto. unfold cmul. apply csum_zero. intros k Hk. rewrite Blast by lia. destruct (Nat.eqb_spec n k); [lia|ring].
    + rewrite dDn by lia. rewrite <- (T2 r s) by lia. rewrite cmul_assoc. apply cmul_ext; auto. intros k Hk. apply Dn. lia.
Qed.
Lemma schur_exists n A : simpleSpectrum n A -> exists U, unitary n U /\ forall r s, (r < n)%nat -> (s < r)%nat -> csum n (fun q => csum n (fun p => Cconj (U p r) * RtoC (A p q)) * U q s) = 0.
Proof. intros (lam & W & Hd & HW). apply (schur_gen n (fun i j => RtoC (A i j)) lam W Hd). exact HW. Qed.
Definition someSchur (n : nat) (A : nat -> nat -> R) : nat -> nat -> C :=
  match excluded_middle_informative (simpleSpectrum n A) with left H => pick (schur_exists n A H) | right _ => fun _ _ => 0 end.
Theorem someSchur_ok : schurOK someSchur.
Proof. intros n A H. unfold someSchur. destruct (excluded_middle_informative _) as [H'|H']; [|tauto]. apply (pick_spec (schur_exists n A H')). Qed.
