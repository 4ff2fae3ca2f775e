(** * C51: memoised functions *)
From Coq Require Import List Bool Arith Lia.
From Verif Require Import MemoModel.
Import ListNotations.

(** ** Specification *)
(** keys behave like Python's: equality is an equivalence, and equal keys are hashable together *)
Definition goodKeys {A} (keyEq : A -> A -> bool) : Prop :=
  (forall x, keyEq x x = true) /\ (forall x y, keyEq x y = true -> keyEq y x = true) /\
  (forall x y z, keyEq x y = true -> keyEq y z = true -> keyEq x z = true).
(** the wrapped function answers the same whatever the state, and the same for equal keys *)
Definition computes {A B E St} (keyEq : A -> A -> bool) (f : St -> A -> (B + E) * St) (g : A -> B + E) : Prop :=
  (forall st x, fst (f st x) = g x) /\ (forall x y, keyEq x y = true -> g x = g y).
Definition asOutcome {B E} (r : B + E) : outcome B E := match r with inl v => Ret v | inr e => Exc e end.

Section Lemmas.
  Context {A B E St : Type} (keyEq : A -> A -> bool) (hashable : A -> bool) (f : St -> A -> (B + E) * St) (HK : goodKeys keyEq).
  Notation call := (memoize_call keyEq hashable f).
  Lemma lookup_store args (v : B) d : lookup keyEq args (store keyEq args v d) = Some v.
  Proof.
    induction d as [|[k w] d IH]; simpl; [rewrite (proj1 HK); reflexivity|].
    destruct (keyEq args k) eqn:X; simpl; rewrite X; [reflexivity|exact IH].
  Qed.
  Lemma lookup_eq x y (d : list (A * B)) : keyEq x y = true -> lookup keyEq x d = lookup keyEq y d.
  Proof.
    intro H; induction d as [|[k w] d IH]; simpl; [reflexivity|].
    destruct HK as [_ [Hs Ht]]. assert (X : keyEq x k = keyEq y k).
    { apply eq_iff_eq_true; split; intro C; [apply (Ht y x k); [apply Hs; assumption|assumption]|apply (Ht x y k); assumption]. }
    rewrite X, IH; reflexivity.
  Qed.
  Lemma lookup_store_ne x y (v : B) d : keyEq x y = false -> lookup keyEq x (store keyEq y v d) = lookup keyEq x d.
  Proof.
    intro H; induction d as [|[k w] d IH]; simpl; [rewrite H; reflexivity|].
    destruct (keyEq y k) eqn:X; simpl; [|rewrite IH; reflexivity].
    destruct HK as [_ [Hs Ht]]. destruct (keyEq x k) eqn:Y; [|reflexivity].
    rewrite (Ht x k y Y (Hs _ _ X)) in H; discriminate.
  Qed.
  Lemma calls_agree m args : Memoize_call keyEq hashable f m args = call m args.
  Proof.
    destruct m as [[st d] log]; unfold Memoize_call, memoize_call. destruct (hashable args); [|reflexivity].
    destruct (lookup keyEq args d); [reflexivity|]. destruct (f st args) as [[v|e] st']; [|reflexivity]. rewrite lookup_store; reflexivity.
  Qed.
  Lemma runs_agree h : forall m, runMemo (Memoize_call keyEq hashable f) h m = runMemo call h m.
  Proof.
    induction h as [|[args|g] h IH]; intros [[st d] log]; cbn [runMemo]; [reflexivity| |apply IH].
    rewrite calls_agree. destruct (call (st, d, log) args) as [o m']. rewrite IH; reflexivity.
  Qed.

  (** what is in the cache stays *)
  Lemma cache_kept h : forall st d log x v, lookup keyEq x d = Some v ->
    lookup keyEq x (snd (fst (snd (runMemo call h (st, d, log))))) = Some v /\
    forall y o, keyEq y x = true -> hashable y = true -> In (y, o) (fst (runMemo call h (st, d, log))) -> o = Ret v.
  Proof.
    induction h as [|[args|g] h IH]; intros st d log x v Hl; cbn [runMemo].
    - split; [exact Hl|intros y o _ _ []].
    - unfold memoize_call at 1 3. destruct (hashable args) eqn:Hh.
      + destruct (lookup keyEq args d) as [w|] eqn:La.
        * destruct (runMemo call h (st, d, log)) as [os m''] eqn:R. specialize (IH st d log x v Hl); rewrite R in IH.
          destruct IH as [I1 I2]; split; [exact I1|]. intros y o Hy Hhy [Eq|Hin]; [|apply (I2 y o); assumption].
          inversion Eq; subst. rewrite (lookup_eq y x d Hy), Hl in La; congruence.
        * assert (Hne : keyEq x args = false).
          { apply not_true_is_false; intro C. rewrite (lookup_eq x args d C) in Hl; congruence. }
          destruct (f st args) as [[w|e] st'] eqn:Ef.
          -- assert (Hl' : lookup keyEq x (store keyEq args w d) = Some v) by (rewrite lookup_store_ne; assumption).
             specialize (IH st' (store keyEq args w d) (log ++ [args]) x v Hl').
             destruct (runMemo call h (st', store keyEq args w d, log ++ [args])) as [os m'']. destruct IH as [I1 I2]; split; [exact I1|].
             intros y o Hy Hhy [Eq|Hin]; [|apply (I2 y o); assumption]. inversion Eq; subst.
             rewrite (proj1 (proj2 HK) y x Hy) in Hne; discriminate.
          -- specialize (IH st' d (log ++ [args]) x v Hl).
             destruct (runMemo call h (st', d, log ++ [args])) as [os m'']. destruct IH as [I1 I2]; split; [exact I1|].
             intros y o Hy Hhy [Eq|Hin]; [|apply (I2 y o); assumption]. inversion Eq; subst.
             rewrite (proj1 (proj2 HK) y x Hy) in Hne; discriminate.
      + specialize (IH st d log x v Hl). destruct (runMemo call h (st, d, log)) as [os m'']. destruct IH as [I1 I2]; split; [exact I1|].
        intros y o Hy Hhy [Eq|Hin]; [|apply (I2 y o); assumption]. inversion Eq; subst; congruence.
    - apply IH; assumption.
  Qed.
  (** a value once returned is returned again *)
  Lemma first_answer h : forall st d log i j x y v o, i < j ->
    nth_error (fst (runMemo call h (st, d, log))) i = Some (x, Ret v) ->
    nth_error (fst (runMemo call h (st, d, log))) j = Some (y, o) -> keyEq y x = true -> hashable y = true -> o = Ret v.
  Proof.
    induction h as [|[args|g] h IH]; intros st d log i j x y v o Hij Hi Hj Hk Hy; cbn [runMemo] in Hi, Hj.
    - destruct i; discriminate.
    - destruct (call (st, d, log) args) as [o' [[st' d'] log']] eqn:Ec.
      destruct (runMemo call h (st', d', log')) as [os m''] eqn:R. simpl in Hi, Hj.
      destruct j as [|j]; [lia|]. destruct i as [|i].
      + simpl in Hi; inversion Hi; subst args o'. simpl in Hj.
        assert (Hl : lookup keyEq x d' = Some v).
        { unfold memoize_call in Ec. destruct (hashable x); [|discriminate]. destruct (lookup keyEq x d) as [w|] eqn:La; [inversion Ec; subst; exact La|].
          destruct (f st x) as [[w|e] s'']; inversion Ec; subst. apply lookup_store. }
        destruct (cache_kept h st' d' log' x v Hl) as [_ C]. rewrite R in C. apply (C y o Hk Hy). apply (nth_error_In _ _ Hj).
      + apply (IH st' d' log' i j x y v o); [lia| | |assumption|assumption]; rewrite R; assumption.
    - apply (IH (g st) d log i j x y v o); assumption.
  Qed.
  (** the log of calls *)
  Lemma log_grows h : forall st d log, exists new, snd (snd (runMemo call h (st, d, log))) = log ++ new /\
    (forall x v, lookup keyEq x d = Some v -> forall y, In y new -> keyEq y x = false) /\
    (forall y, In y new -> hashable y = true /\ exists o, In (y, o) (fst (runMemo call h (st, d, log)))).
  Proof.
    induction h as [|[args|g] h IH]; intros st d log; cbn [runMemo].
    - exists []; simpl; rewrite app_nil_r; split; [reflexivity|split; [intros ? ? ? ? []|intros ? []]].
    - destruct (call (st, d, log) args) as [o' [[st' d'] log']] eqn:Ec. unfold memoize_call in Ec.
      destruct (hashable args) eqn:Hh; [destruct (lookup keyEq args d) as [w|] eqn:La; [|destruct (f st args) as [[w|e] s''] eqn:Ef]|];
      inversion Ec; subst; clear Ec.
      + destruct (IH st' d' log') as [new [N1 [N2 N3]]]. destruct (runMemo call h (st', d', log')) as [os m'']. exists new.
        split; [exact N1|split; [exact N2|]]. intros y Hy; destruct (N3 y Hy) as [Hhy [o Ho]]; split; [exact Hhy|exists o; right; exact Ho].
      + destruct (IH st' (store keyEq args w d) (log ++ [args])) as [new [N1 [N2 N3]]].
        destruct (runMemo call h (st', store keyEq args w d, log ++ [args])) as [os m'']. exists (args :: new).
        simpl in *. split; [rewrite N1, <- app_assoc; reflexivity|split].
        * intros x v Hl y [<-|Hy].
          -- apply not_true_is_false; intro C. rewrite (lookup_eq _ _ d C) in La; congruence.
          -- apply (N2 x v); [|exact Hy]. rewrite lookup_store_ne; [exact Hl|]. apply not_true_is_false; intro C.
             rewrite <- (lookup_eq _ _ d C) in La; congruence.
        * intros y [<-|Hy]; [split; [exact Hh|eexists; left; reflexivity]|].
          destruct (N3 y Hy) as [Hhy [o Ho]]; split; [exact Hhy|exists o; right; exact Ho].
      + destruct (IH st' d' (log ++ [args])) as [new [N1 [N2 N3]]].
        destruct (runMemo call h (st', d', log ++ [args])) as [os m'']. exists (args :: new).
        simpl in *. split; [rewrite N1, <- app_assoc; reflexivity|split].
        * intros x v Hl y [<-|Hy]; [|apply (N2 x v); assumption].
          apply not_true_is_false; intro C. rewrite (lookup_eq _ _ d' C) in La; congruence.
        * intros y [<-|Hy]; [split; [exact Hh|eexists; left; reflexivity]|].
          destruct (N3 y Hy) as [Hhy [o Ho]]; split; [exact Hhy|exists o; right; exact Ho].
      + destruct (IH st' d' log') as [new [N1 [N2 N3]]]. destruct (runMemo call h (st', d', log')) as [os m'']. exists new.
        split; [exact N1|split; [exact N2|]]. intros y Hy; destruct (N3 y Hy) as [Hhy [o Ho]]; split; [exact Hhy|exists o; right; exact Ho].
    - apply (IH (g st) d log).
  Qed.
  (** transparency *)
  Lemma transparent g : computes keyEq f g -> forall h st d log,
    (forall x v, lookup keyEq x d = Some v -> g x = inl v) ->
    forall x o, In (x, o) (fst (runMemo call h (st, d, log))) -> o = if hashable x then asOutcome (g x) else Unhashable.
  Proof.
    intros [Hg1 Hg2]; induction h as [|[args|g'] h IH]; intros st d log Hd x o Hin; cbn [runMemo] in Hin.
    - destruct Hin.
    - destruct (call (st, d, log) args) as [o' [[st' d'] log']] eqn:Ec. unfold memoize_call in Ec.
      assert (G : (o' = if hashable args then asOutcome (g args) else Unhashable) /\ forall x v, lookup keyEq x d' = Some v -> g x = inl v).
      { destruct (hashable args) eqn:Hh; [destruct (lookup keyEq args d) as [w|] eqn:La; [|destruct (f st args) as [[w|e] s''] eqn:Ef]|];
        inversion Ec; subst; clear Ec.
        - split; [rewrite (Hd _ _ La); reflexivity|exact Hd].
        - assert (Hw : g args = inl w) by (rewrite <- (Hg1 st args), Ef; reflexivity). split; [rewrite Hw; reflexivity|].
          intros z v Hl. destruct (keyEq z args) eqn:X.
          + rewrite (lookup_eq z args _ X), lookup_store in Hl. rewrite (Hg2 z args X); congruence.
          + rewrite lookup_store_ne in Hl by assumption. apply Hd; assumption.
        - assert (Hw : g args = inr e) by (rewrite <- (Hg1 st args), Ef; reflexivity). split; [rewrite Hw; reflexivity|exact Hd].
        - split; [reflexivity|exact Hd]. }
      destruct G as [G1 G2]. destruct (runMemo call h (st', d', log')) as [os m''] eqn:R. destruct Hin as [Eq|Hin].
      + inversion Eq; subst; reflexivity.
      + apply (IH st' d' log' G2). rewrite R; exact Hin.
    - apply (IH (g' st) d log Hd); exact Hin.
  Qed.
End Lemmas.

(** ** Properties *)
(** The two memoisers behave alike in every history. *)
Theorem C51_both_memoisers_agree {A B E St} (keyEq : A -> A -> bool) hashable (f : St -> A -> (B + E) * St) h st :
  goodKeys keyEq -> runMemo (Memoize_call keyEq hashable f) h (st, [], []) = runMemo (memoize_call keyEq hashable f) h (st, [], []).
Proof. intro HK; exact (runs_agree keyEq hashable f HK h (st, [], [])). Qed.
Print Assumptions C51_both_memoisers_agree.

(** Every call in every history gives what the wrapped function gives on those arguments: the same value or
    the same exception; only arguments that cannot be hashed fail. *)
Theorem C51_transparent {A B E St} (keyEq : A -> A -> bool) hashable (f : St -> A -> (B + E) * St) g h st x o :
  goodKeys keyEq -> computes keyEq f g ->
  In (x, o) (fst (runMemo (memoize_call keyEq hashable f) h (st, [], []))) ->
  o = if hashable x then asOutcome (g x) else Unhashable.
Proof. intros HK Hg; apply (transparent keyEq hashable f HK g Hg h st [] []). intros ? ? C; discriminate C. Qed.
Print Assumptions C51_transparent.

(** Whatever the wrapped function does (a random draw, say), the first value returned for a key is returned
    for that key ever after. *)
Theorem C51_first_value_is_repeated {A B E St} (keyEq : A -> A -> bool) hashable (f : St -> A -> (B + E) * St) h st i j x y v o :
  goodKeys keyEq -> let results := fst (runMemo (memoize_call keyEq hashable f) h (st, [], [])) in
  i < j -> nth_error results i = Some (x, Ret v) -> nth_error results j = Some (y, o) -> keyEq y x = true -> hashable y = true -> o = Ret v.
Proof. intros HK; exact (first_answer keyEq hashable f HK h st [] [] i j x y v o). Qed.
Print Assumptions C51_first_value_is_repeated.

(** The wrapped function is called at most once per key while it returns: after a call that returned a
    value, it is not called again with an equal key. *)
Theorem C51_called_once_per_key {A B E St} (keyEq : A -> A -> bool) hashable (f : St -> A -> (B + E) * St) h1 h2 st x v :
  goodKeys keyEq ->
  let '(before, mid) := runMemo (memoize_call keyEq hashable f) h1 (st, [], []) in
  In (x, Ret v) before ->
  exists new, snd (snd (runMemo (memoize_call keyEq hashable f) h2 mid)) = snd mid ++ new /\ forall y, In y new -> keyEq y x = false.
Proof.
  intro HK. destruct (runMemo _ h1 _) as [before [[st' d'] log']] eqn:R. intro Hin.
  destruct (log_grows keyEq hashable f HK h2 st' d' log') as [new [N1 [N2 _]]]. exists new; split; [exact N1|].
  apply (N2 x v). clear N1 N2 new. revert R Hin. generalize (@nil (A * B)) as d, (@nil A) as log. revert st before.
  induction h1 as [|[args|g] h IH]; intros st before d log R Hin; cbn [runMemo] in R.
  - inversion R; subst; contradiction.
  - destruct (memoize_call keyEq hashable f (st, d, log) args) as [o' [[s'' d''] log'']] eqn:Ec.
    destruct (runMemo _ h (s'', d'', log'')) as [os m''] eqn:R'. inversion R; subst. destruct Hin as [Eq|Hin]; [|apply (IH _ _ _ _ R' Hin)].
    inversion Eq; subst.
    assert (Hl : lookup keyEq x d'' = Some v).
    { unfold memoize_call in Ec. destruct (hashable x); [|discriminate]. destruct (lookup keyEq x d) as [w|] eqn:La; [inversion Ec; subst; exact La|].
      destruct (f st x) as [[w|e] s3]; inversion Ec; subst. apply lookup_store; assumption. }
    destruct (cache_kept keyEq hashable f HK h s'' d'' log'' x v Hl) as [C _]. rewrite R' in C. exact C.
  - apply (IH _ _ _ _ R Hin).
Qed.
Print Assumptions C51_called_once_per_key.

(** A function that tells apart arguments which compare equal (1, 1.0 and True do) is not reproduced. *)
Theorem C51_transparent_for_every_function_refuted :
  ~ forall (A B E St : Type) (keyEq : A -> A -> bool) hashable (f : St -> A -> (B + E) * St) g h st x o,
    goodKeys keyEq -> (forall st x, fst (f st x) = g x) -> hashable x = true ->
    In (x, o) (fst (runMemo (memoize_call keyEq hashable f) h (st, [], []))) -> o = asOutcome (g x).
Proof.
  (* arguments: a number and whether it is an int; keys compare the number only; the function returns whether it is an int *)
  intro H. specialize (H (nat * bool)%type bool unit unit (fun x y => Nat.eqb (fst x) (fst y)) (fun _ => true) (fun st x => (inl (snd x), st))
    (fun x => inl (snd x)) [inl (1, true); inl (1, false)] tt (1, false) (Ret true)).
  assert (C : @Ret bool unit true = Ret false); [|discriminate C]. apply H.
  - split; [intro; apply Nat.eqb_refl|split; [intros x y; rewrite !Nat.eqb_eq; auto|intros x y z; rewrite !Nat.eqb_eq; congruence]].
  - reflexivity.
  - reflexivity.
  - right; left; reflexivity.
Qed.
Print Assumptions C51_transparent_for_every_function_refuted.

(** Returned objects are shared: when callers see the contents of mutable results, a caller that changes a
    result changes what later calls give.  Here the state is a memory of lists, the function allocates a new
    list [n] and returns its address, and the content behind the returned address is what a caller sees. *)
Definition freshList (st : list (list nat)) (n : nat) : (nat + unit) * list (list nat) := (inl (length st), st ++ [[n]]).
Definition contentsSeen (h : list (event (A := nat) (St := list (list nat)))) : list (list nat) :=
  let '(os, m) := runMemo (memoize_call Nat.eqb (fun _ => true) freshList) h ([], [], []) in
  map (fun p => match snd p with Ret a => nth a (fst (fst m)) [] | _ => [] end) os.
Theorem C51_results_are_fresh_refuted :
  ~ forall h n seen, contentsSeen (h ++ [inl n]) = seen -> last seen [] = [n].
Proof. intro H. specialize (H [inl 7; inr (fun _ => [[8]])] 7 _ eq_refl). discriminate H. Qed.
Print Assumptions C51_results_are_fresh_refuted.

(** The hypotheses are met by a function that raises on 0 and doubles everything else. *)
Example C51_case : goodKeys Nat.eqb /\
  computes Nat.eqb (fun (st : nat) x => (if Nat.eqb x 0 then inr tt else inl (2 * x), S st)) (fun x => if Nat.eqb x 0 then inr tt else inl (2 * x)) /\
  runMemo (memoize_call Nat.eqb (fun _ => true) (fun (st : nat) x => (if Nat.eqb x 0 then inr tt else inl (2 * x), S st)))
    [inl 3; inl 0; inl 3; inl 0] (0, [], []) =
  ([(3, Ret 6); (0, Exc tt); (3, Ret 6); (0, Exc tt)], (3, [(3, 6)], [3; 0; 0])).
Proof.
  split; [|split; [|reflexivity]].
  - split; [intro; apply Nat.eqb_refl|split; [intros x y; rewrite !Nat.eqb_eq; auto|intros x y z; rewrite !Nat.eqb_eq; congruence]].
  - split; [reflexivity|]. intros x y Hxy; apply Nat.eqb_eq in Hxy; subst; reflexivity.
Qed.
