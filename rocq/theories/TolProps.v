(** * Properties of the class Tolerances (C91) *)
From Coq Require Import Ascii String.
From Coq Require Import List Arith Bool ZArith Lia.
From Verif Require Import Num Tensor ParseModel TolModel.
Import ListNotations.
Local Open Scope list_scope.

Section Spec.
  Context {V : Type}.
  Implicit Types args d : @attrs V.
  (** a number, or a sequence of numbers *)
  Definition plain (v : value V) : Prop := match v with VNum _ => True | VIter l => Forall (fun u => exists w, u = VNum w) l | VOther => False end.
  (** all sequences have length L; without a sequence there is one tolerance *)
  Definition commonLength (L : nat) args : Prop :=
    (forall n l, In (n, VIter l) args -> length l = L) /\ ((forall n l, ~ In (n, VIter l) args) -> L = 1).
  (** different names, no name the plural of another, none that is used for a counter *)
  Definition goodNames args : Prop :=
    NoDup (map fst args) /\ (forall n m, In n (map fst args) -> In m (map fst args) -> n <> plural m) /\
    forall n, In n (map fst args) -> n <> chars "numTol" /\ n <> chars "numTols" /\ n <> chars "currTol".
  (** the value used in round k, counted from 0 *)
  Definition usedIn (k : nat) (v : value V) : option (value V) := match v with VNum u => Some (VNum u) | VIter l => nth_error l k | VOther => None end.

  (** ** dictionaries *)
  Lemma dget_dset d k v k' : dget (dset d k v) k' = if list_eq_dec ascii_dec k k' then Some v else dget d k'.
  Proof.
    induction d as [|[a u] d IH]; cbn [dset dget]; [reflexivity|]. destruct (list_eq_dec ascii_dec a k) as [->|N]; cbn [dget].
    - destruct (list_eq_dec ascii_dec k k'); reflexivity.
    - rewrite IH. destruct (list_eq_dec ascii_dec a k') as [->|N']; [|reflexivity]. destruct (list_eq_dec ascii_dec k k'); congruence.
  Qed.
  Lemma dget_in d k v : dget d k = Some v -> In (k, v) d.
  Proof. induction d as [|[a u] d IH]; cbn [dget]; [discriminate|]. destruct (list_eq_dec ascii_dec a k) as [->|N]; intros H; [left; congruence|right; auto]. Qed.
  Lemma dset_in d k v p : In p (dset d k v) -> p = (k, v) \/ In p d.
  Proof.
    induction d as [|[a u] d IH]; cbn [dset]; [intros [<-|[]]; auto|]. destruct (list_eq_dec ascii_dec a k) as [->|N]; intros [<-|H]; auto; [right; right; auto|right; left; auto|].
    destruct (IH H); auto. right; right; auto.
  Qed.
  Definition setAll r d := fold_left (fun d (p : str * value V) => dset d (fst p) (snd p)) r d.
  Lemma setAll_in r : forall d p, In p (setAll r d) -> In p r \/ In p d.
  Proof.
    induction r as [|[k v] r IH]; intros d p H; [auto|]. unfold setAll in *. cbn [fold_left fst snd] in H. destruct (IH _ _ H) as [H'|H']; [left; right; auto|]. destruct (dset_in _ _ _ _ H') as [->|H'']; [left; left; auto|auto].
  Qed.
  Lemma setAll_other r : forall d k, ~ In k (map fst r) -> dget (setAll r d) k = dget d k.
  Proof.
    induction r as [|[a v] r IH]; intros d k H; [reflexivity|]. unfold setAll in *. cbn [fold_left fst snd map] in *. rewrite IH by (intros X; apply H; right; auto). rewrite dget_dset. destruct (list_eq_dec ascii_dec a k) as [E|_]; [exfalso; apply H; left; auto|reflexivity].
  Qed.
  Lemma setAll_get r : forall d k v, In (k, v) r -> (forall u, In (k, u) r -> u = v) -> dget (setAll r d) k = Some v.
  Proof.
    induction r as [|[a u] r IH]; intros d k v H U; [destruct H|]. unfold setAll in *. cbn [fold_left fst snd] in *.
    destruct (in_dec (list_eq_dec ascii_dec) k (map fst r)) as [I|I].
    - apply in_map_iff in I. destruct I as ([k' w] & E & I). cbn in E. subst k'. apply IH; [rewrite <- (U w) by (right; auto); auto|]. intros; apply U; right; auto.
    - destruct H as [H|H]; [|exfalso; apply I; apply in_map_iff; exists (k, v); auto]. injection H as -> ->. rewrite (setAll_other r) by auto. rewrite dget_dset. destruct (list_eq_dec ascii_dec k k); congruence.
  Qed.
  Lemma plural_last n : removelast (plural n) = n.
  Proof. unfold plural. apply removelast_last. Qed.
  Lemma plural_inj n m : plural n = plural m -> n = m.
  Proof. intros H. rewrite <- (plural_last n), <- (plural_last m), H. auto. Qed.

  (** ** the constructor *)
  Definition spread (L : nat) (v : value V) : list (value V) := match v with VNum u => repeat (VNum u) L | VIter l => l | VOther => [] end.
  Lemma count_ok args : (forall n, ~ In (n, VOther) args) -> forall a, exists L, countTols a args = TOk L /\
    (a = L /\ (forall n l, ~ In (n, VIter l) args) \/ exists n l, In (n, VIter l) args /\ length l = L).
  Proof.
    induction args as [|[n [u|l|]] args IH]; intros HO a; cbn [countTols].
    - exists a. split; auto.
    - destruct (IH (fun m H => HO m (or_intror H)) a) as (L & E & [[A B]|(m & l & A & B)]); exists L; split; auto; [left; split; auto; intros m l [X|X]; [discriminate|apply (B m l X)]|right; exists m, l; split; auto; right; auto].
    - destruct (IH (fun m H => HO m (or_intror H)) (length l)) as (L & E & [[A B]|(m & l' & A & B)]); exists L; split; auto; right; [exists n, l; split; auto; left; auto|exists m, l'; split; auto; right; auto].
    - exfalso. apply (HO n). left; auto.
  Qed.
  Lemma setTols_ok L args : (forall n l, In (n, VIter l) args -> length l = L) -> (forall n, ~ In (n, VOther) args) ->
    forall d, setTols L d args = TOk (setAll (map (fun p => (plural (fst p), VIter (spread L (snd p)))) args) d).
  Proof.
    induction args as [|[n [u|l|]] args IH]; intros HL HO d; cbn [setTols map fst snd]; [reflexivity| | |].
    - rewrite IH; [reflexivity|intros; eapply HL; right; eauto|intros m X; apply (HO m); right; auto].
    - rewrite (HL n l (or_introl eq_refl)), Nat.eqb_refl. rewrite IH; [reflexivity|intros; eapply HL; right; eauto|intros m X; apply (HO m); right; auto].
    - exfalso. apply (HO n). left; auto.
  Qed.
  Lemma reserved_false args : goodNames args -> existsb (fun p => reserved (fst p)) args = false.
  Proof.
    intros (_ & _ & H). destruct (existsb _ args) eqn:E; auto. exfalso. apply existsb_exists in E. destruct E as ([n v] & I & R). cbn [fst] in R. destruct (H n (in_map fst _ _ I)) as (A & B & C).
    unfold reserved in R. apply existsb_exists in R. destruct R as (r & Hr & E). destruct (list_eq_dec ascii_dec n r) as [->|]; [|discriminate]. destruct Hr as [<-|[<-|[<-|[]]]]; congruence.
  Qed.

  (** ** the rounds *)
  Section Rounds.
    Variables (L : nat) (args : @attrs V).
    Hypothesis HN : goodNames args.
    Hypothesis HP : Forall (fun p => plain (snd p)) args.
    Hypothesis HL : commonLength L args.
    Definition entryOK (p : str * value V) : Prop :=
      (exists n v, In (n, v) args /\ p = (plural n, VIter (spread L v))) \/ (exists n u, In n (map fst args) /\ p = (n, VNum u)).
    Definition inv d : Prop := Forall entryOK d /\ forall n v, In (n, v) args -> dget d (plural n) = Some (VIter (spread L v)).
    Lemma used_ok n v k : In (n, v) args -> k < L -> exists u, nth_error (spread L v) k = Some (VNum u) /\ usedIn k v = Some (VNum u).
    Proof.
      intros I Hk. rewrite Forall_forall in HP. specialize (HP _ I). cbn [snd] in HP. destruct v as [u|l|]; cbn [plain spread usedIn] in *.
      - exists u. split; auto. rewrite (nth_error_nth' _ (VNum u)) by (rewrite repeat_length; auto). rewrite nth_repeat. auto.
      - assert (k < length l) by (rewrite (proj1 HL n l I); auto). destruct (nth_error l k) as [w|] eqn:E; [|apply nth_error_None in E; lia].
        rewrite Forall_forall in HP. destruct (HP w (nth_error_In _ _ E)) as [u ->]. eauto.
      - destruct HP.
    Qed.
    Lemma current_ok k d : k < L -> Forall entryOK d -> exists r, current k d = TOk r /\
      (forall n x, In (n, x) r -> exists v, In (n, v) args /\ usedIn k v = Some x /\ exists u, x = VNum u) /\
      (forall n v, In (n, v) args -> In (plural n, VIter (spread L v)) d -> exists x, usedIn k v = Some x /\ In (n, x) r).
    Proof.
      intros Hk F. induction F as [|[key val] d HE F IH]; [exists []; split; [reflexivity|split; [intros n x []|intros n v _ []]]|].
      destruct IH as (r & E & A & B). destruct HE as [(n & v & I & EP)|(n & u & I & EP)]; injection EP as -> ->; cbn [current].
      - destruct (used_ok n v k I Hk) as (u & E1 & E2). rewrite E1, E. exists ((removelast (plural n), VNum u) :: r). split; auto. rewrite plural_last. split.
        + intros m x [X|X]; [|auto]. assert (m = n) by congruence. assert (x = VNum u) by congruence. subst. exists v. split; auto. split; auto. eauto.
        + intros m w Im [X|X]; [|destruct (B m w Im X) as (x & X1 & X2); exists x; split; auto; right; auto].
          assert (plural n = plural m) by congruence. assert (n = m) by (apply plural_inj; auto). subst m. assert (w = v).
          { destruct HN as [ND _]. clear -ND I Im. induction args as [|[a c] l IHl]; [destruct I|]. cbn [map fst] in ND. inversion ND; subst. destruct I as [I|I], Im as [Im|Im]; try congruence; auto; exfalso; match goal with X : ~ In _ _ |- _ => apply X end; apply in_map_iff; [exists (n, w)|exists (n, v)]; split; auto; cbn; congruence. }
          subst w. exists (VNum u). split; auto. left; auto.
      - exists r. split; auto. split; auto. intros m w Im [X|X]; [discriminate|auto].
    Qed.
    Lemma next_more t k : currTol t = (Z.of_nat k - 1)%Z -> numTols t = L -> k < L -> inv (tattrs t) ->
      exists t', nextTols t = TOk (true, t') /\ currTol t' = Z.of_nat k /\ numTols t' = L /\ inv (tattrs t') /\ forall n v, In (n, v) args -> dget (tattrs t') n = usedIn k v.
    Proof.
      intros HC Hn Hk [F G]. unfold nextTols. rewrite HC, Hn. replace (Z.of_nat k - 1 + 1)%Z with (Z.of_nat k) by lia. destruct (Z.leb_spec (Z.of_nat L) (Z.of_nat k)); [lia|]. rewrite Nat2Z.id.
      destruct (current_ok k (tattrs t) Hk F) as (r & E & A & B). rewrite E.
      assert (RF : existsb (fun p => reserved (fst p)) r = false).
      { destruct (existsb _ r) eqn:ER; auto. exfalso. apply existsb_exists in ER. destruct ER as ([n x] & I & R). destruct (A n x I) as (v & Iv & _). pose proof (reserved_false args HN) as X. assert (Y : existsb (fun p => reserved (fst p)) args = true) by (apply existsb_exists; exists (n, v); auto). congruence. }
      rewrite RF. eexists. split; [reflexivity|]. cbn [currTol numTols tattrs]. split; auto. split; auto. fold (setAll r (tattrs t)).
      assert (KR : forall n, In n (map fst r) -> In n (map fst args)). { intros n Hn'. apply in_map_iff in Hn'. destruct Hn' as ([m x] & Em & I). destruct (A m x I) as (v & Iv & _). cbn in Em. subst m. apply (in_map fst _ _ Iv). }
      split; [split|].
      - apply Forall_forall. intros p Hp. apply setAll_in in Hp. destruct Hp as [Hp|Hp]; [|rewrite Forall_forall in F; auto]. destruct p as [n x]. destruct (A n x Hp) as (v & Iv & _ & u & ->). right. exists n, u. split; auto. apply (in_map fst _ _ Iv).
      - intros n v I. rewrite setAll_other; [apply G; auto|]. intros X. apply KR in X. destruct HN as (_ & PL & _). apply (PL (plural n) n X); auto. apply (in_map fst _ _ I).
      - intros n v I. destruct (B n v I) as (x & X1 & X2); [apply dget_in; auto|]. rewrite X1. apply setAll_get; auto. intros u Hu. destruct (A n u Hu) as (w & Iw & Uw & _).
        assert (w = v). { destruct HN as [ND _]. clear -ND I Iw. induction args as [|[a c] l IHl]; [destruct I|]. cbn [map fst] in ND. inversion ND; subst. destruct I as [I|I], Iw as [Im|Im]; try congruence; auto; exfalso; match goal with X : ~ In _ _ |- _ => apply X end; apply in_map_iff; [exists (n, w)|exists (n, v)]; split; auto; cbn; congruence. }
        congruence.
    Qed.
    Lemma init_ok : exists t, init args = TOk t /\ currTol t = (-1)%Z /\ numTols t = L /\ inv (tattrs t).
    Proof.
      unfold init. rewrite (reserved_false args HN).
      assert (HO : forall n, ~ In (n, VOther) args) by (intros n I; rewrite Forall_forall in HP; apply (HP _ I)).
      destruct (count_ok args HO 1) as (L' & E & D). assert (L' = L) by (destruct D as [[<- D]|(n & l & I & <-)]; [symmetry; apply HL; auto|apply (proj1 HL n l I)]). subst L'.
      rewrite E. rewrite (setTols_ok L args (proj1 HL) HO). eexists. split; [reflexivity|]. cbn [currTol numTols tattrs]. split; auto. split; auto. split.
      - apply Forall_forall. intros p Hp. apply setAll_in in Hp. destruct Hp as [Hp|[]]. apply in_map_iff in Hp. destruct Hp as ([n v] & <- & I). left. exists n, v. auto.
      - intros n v I. apply setAll_get; [apply in_map_iff; exists (n, v); auto|]. intros u Hu. apply in_map_iff in Hu. destruct Hu as ([m w] & Ew & Iw). cbn [fst snd] in Ew. injection Ew as E1 E2. apply plural_inj in E1. subst m.
        assert (w = v). { destruct HN as [ND _]. clear -ND I Iw. induction args as [|[a c] l IHl]; [destruct I|]. cbn [map fst] in ND. inversion ND; subst. destruct I as [I|I], Iw as [Im|Im]; try congruence; auto; exfalso; match goal with X : ~ In _ _ |- _ => apply X end; apply in_map_iff; [exists (n, w)|exists (n, v)]; split; auto; cbn; congruence. }
        congruence.
    Qed.
    Lemma rounds t0 : currTol t0 = (-1)%Z -> numTols t0 = L -> inv (tattrs t0) -> forall k, exists t, callNext k t0 = TOk (map (fun i => i <? L) (seq 0 k), t) /\
      currTol t = (Z.of_nat k - 1)%Z /\ numTols t = L /\ inv (tattrs t) /\ (1 <= k -> 1 <= L -> forall n v, In (n, v) args -> dget (tattrs t) n = usedIn (Nat.min k L - 1) v).
    Proof.
      intros C0 N0 I0. induction k as [|k (t & E & C & Nt & It & U)]; [exists t0; split; [reflexivity|]; split; auto; split; auto; split; auto; lia|].
      cbn [callNext]. rewrite E. rewrite seq_S, map_app. cbn [map Nat.add].
      destruct (Nat.lt_ge_cases k L) as [Hk|Hk].
      - destruct (next_more t k C Nt Hk It) as (t' & E' & C' & N' & I' & U'). rewrite E'. exists t'. split; [destruct (Nat.ltb_spec k L); [reflexivity|lia]|]. split; [lia|]. split; auto. split; auto. intros _ _ n v Inv. replace (Nat.min (S k) L - 1) with k by lia. auto.
      - unfold nextTols. rewrite C, Nt. destruct (Z.leb_spec (Z.of_nat L) (Z.of_nat k - 1 + 1)); [|lia]. eexists. split; [destruct (Nat.ltb_spec k L); [lia|reflexivity]|]. cbn [currTol numTols tattrs]. split; [lia|]. split; auto. split; auto.
        intros _ H1 n v Inv. rewrite (U ltac:(lia) H1 n v Inv). f_equal. lia.
    Qed.
  End Rounds.
End Spec.

(** C91: nextTols answers True as often as there are tolerances and False ever after; after the k-th True every tolerance has its k-th value,
    a single number is used in all rounds, and the values of the last round stay. *)
Theorem C91_rounds : forall {V} (args : @attrs V) L, goodNames args -> Forall (fun p => plain (snd p)) args -> commonLength L args ->
  exists t0, init args = TOk t0 /\ forall k, exists t, callNext k t0 = TOk (map (fun i => i <? L) (seq 0 k), t) /\
    (1 <= k -> 1 <= L -> forall n v, In (n, v) args -> dget (tattrs t) n = usedIn (Nat.min k L - 1) v).
Proof.
  intros V args L HN HP HL. destruct (init_ok L args HN HP HL) as (t0 & E & C & N & I). exists t0. split; auto. intros k. destruct (rounds L args HN HP HL t0 C N I k) as (t & A & _ & _ & _ & U). eauto.
Qed.
Print Assumptions C91_rounds.
(** getTolDict always shows the full lists, one for every tolerance under its plural name, and nothing else. *)
Theorem C91_tolDict : forall {V} (args : @attrs V) L t0 k bs t, goodNames args -> Forall (fun p => plain (snd p)) args -> commonLength L args ->
  init args = TOk t0 -> callNext k t0 = TOk (bs, t) ->
  forall p, In p (getTolDict t) <-> exists n v, In (n, v) args /\ p = (plural n, VIter (match v with VNum u => repeat (VNum u) L | VIter l => l | VOther => [] end)).
Proof.
  intros V args L t0 k bs t HN HP HL H0 HC p. destruct (init_ok L args HN HP HL) as (t0' & E & C & N & I). assert (t0' = t0) by congruence. subst t0'.
  destruct (rounds L args HN HP HL t0 C N I k) as (t' & A & _ & _ & [F G] & _). assert (t' = t) by congruence. subst t'. unfold getTolDict. rewrite filter_In. split.
  - intros [Hp HI]. rewrite Forall_forall in F. destruct (F p Hp) as [(n & v & Iv & ->)|(n & u & _ & ->)]; [exists n, v; auto|discriminate].
  - intros (n & v & Iv & ->). split; [|reflexivity]. apply dget_in. apply (G n v Iv).
Qed.
Print Assumptions C91_tolDict.
(** The constructor raises TypeError precisely for an argument that is neither a number nor a sequence, and otherwise ValueError precisely
    when two sequences differ in length. *)
Theorem C91_rejected : forall {V} (args : @attrs V), goodNames args ->
  (init args = TTypeError <-> exists n, In (n, VOther) args) /\
  (init args = TValueError <-> (forall n, ~ In (n, VOther) args) /\ exists n l m l', In (n, VIter l) args /\ In (m, VIter l') args /\ length l <> length l').
Proof.
  intros V args HN. unfold init. rewrite (reserved_false args HN).
  assert (DEC : (exists n, In (n, VOther) args) \/ forall n, ~ In (n, VOther) args).
  { clear HN. induction args as [|[n v] l IH]; [right; intros n []|]. destruct v as [u|li|]; [| |left; exists n; left; auto]; (destruct IH as [[m H]|H]; [left; exists m; right; auto|right; intros m [X|X]; [discriminate|apply (H m X)]]). }
  destruct DEC as [[n HO]|HO].
  - assert (E : forall a, countTols a args = TTypeError). { clear HN. induction args as [|[m v] l IH]; [destruct HO|]. intros a. destruct v as [u|li|]; cbn [countTols]; [| |reflexivity]; (destruct HO as [X|X]; [discriminate|apply IH; auto]). }
    rewrite E. split; split; intros H; auto; try discriminate; [eauto|]. destruct H as [H _]. exfalso. apply (H n HO).
  - destruct (count_ok args HO 1) as (L & E & D). rewrite E.
    assert (SB : (forall n l, In (n, VIter l) args -> length l = L) \/ exists n l, In (n, VIter l) args /\ length l <> L).
    { clear. induction args as [|[n v] r IH]; [left; intros n l []|]. destruct v as [u|l|].
      1,3: (destruct IH as [H|(m & l & A & B)]; [left; intros m l [X|X]; [discriminate|eauto]|right; exists m, l; split; auto; right; auto]).
      destruct (Nat.eq_dec (length l) L) as [El|Nl]; [|right; exists n, l; split; auto; left; auto]. destruct IH as [H|(m & l' & A & B)]; [left|right; exists m, l'; split; auto; right; auto].
      intros m l' [X|X]; [congruence|eauto]. }
    destruct SB as [SB|(n & l & I & Nl)].
    + rewrite (setTols_ok L args SB HO). split; split; intros H; try discriminate; [destruct H as [n H]; exfalso; apply (HO n H)|]. destruct H as (_ & n & l & m & l' & A & B & C). exfalso. apply C. rewrite (SB n l A), (SB m l' B). auto.
    + assert (ES : forall d, setTols L d args = TValueError).
      { clear -I Nl HO. induction args as [|[m v] r IH]; [destruct I|]. intros d. destruct v as [u|l'|]; cbn [setTols].
        - apply IH; [intros x X; apply (HO x); right; auto|]. destruct I as [X|X]; [discriminate|auto].
        - destruct (Nat.eqb_spec (length l') L) as [El|_]; [|reflexivity]. destruct I as [X|X]; [congruence|]. apply IH; auto. intros x Y. apply (HO x). right; auto.
        - exfalso. apply (HO m). left; auto. }
      rewrite ES. split; split; intros H; try discriminate; [destruct H as [m H]; exfalso; apply (HO m H)|split; auto|reflexivity].
      destruct D as [[_ D]|(m & l' & A & B)]; [exfalso; apply (D n l I)|]. exists n, l, m, l'. split; auto. split; auto. congruence.
Qed.
Print Assumptions C91_rejected.
Definition tolName := chars "tol".
(** abs_tol in two rounds, rel_tol fixed *)
Example C91_case : let args := [(chars "abs", VIter [VNum 1; VNum 2]); (chars "rel", VNum 5)] in
  goodNames args /\ Forall (fun p => plain (snd p)) args /\ commonLength 2 args /\ commonLength 1 [(chars "rel", @VNum nat 5)].
Proof.
  cbn zeta. split; [|split; [|split]].
  - split; [repeat constructor; cbn; intuition discriminate|]. split.
    + intros n m [<-|[<-|[]]] [<-|[<-|[]]]; discriminate.
    + intros n [<-|[<-|[]]]; repeat split; discriminate.
  - repeat constructor; cbn; eauto.
  - split; [|intros H; exfalso; apply (H (chars "abs") [VNum 1; VNum 2]); left; auto]. intros n l [E|[E|[]]]; [injection E as _ <-; reflexivity|discriminate].
  - split; [intros n l [E|[]]; discriminate|auto].
Qed.
(** With names such that one is the plural of another, the shorter one is used for one round only and then stays as it was. *)
Theorem C91_plural_names_refuted : exists t0 t, init [(chars "tol", VIter [VNum 1; VNum 2]); (chars "tols", VIter [VNum 3; VNum 4])] = TOk t0 /\
  callNext 2 t0 = TOk ([true; true], t) /\ dget (tattrs t) (chars "tol") = Some (VNum 1).
Proof. eexists. eexists. split; [reflexivity|]. split; reflexivity. Qed.
Print Assumptions C91_plural_names_refuted.
(** A sequence of sequences, like a list of one-letter options, raises in the second round. *)
Theorem C91_nested_values_refuted : forall {V} (a b : V), exists t0, init [(chars "tol", VIter [VIter [VNum a]; VIter [VNum b]])] = TOk t0 /\
  (exists t, callNext 1 t0 = TOk ([true], t)) /\ callNext 2 t0 = TIndexError.
Proof. intros V a b. eexists. split; [reflexivity|]. split; [eexists; reflexivity|reflexivity]. Qed.
Print Assumptions C91_nested_values_refuted.
