(** * A rank test and a linear solver meeting the contract used for the n-D quadratic check
    (Gaussian elimination over the reals; only shows that the contract can be met in every dimension). *)
From Coq Require Import List Arith Bool Reals Lra Lia.
From Verif Require Import Num RSum Transfer LinearProofs QuadNdFaces.
Import ListNotations.
Local Open Scope R_scope.

Definition swp (p m i : nat) : nat := if (i =? p)%nat then m else if (i =? m)%nat then p else i.
Lemma swp_lt p m i : (p <= m)%nat -> (i <= m)%nat -> (swp p m i <= m)%nat.
Proof. unfold swp. destruct (Nat.eqb_spec i p); [lia|]. destruct (Nat.eqb_spec i m); lia. Qed.
Lemma swp_inv p m i : swp p m (swp p m i) = i.
Proof. unfold swp. destruct (Nat.eqb_spec i p); destruct (Nat.eqb_spec i m); subst; rewrite ?Nat.eqb_refl; auto;
  repeat match goal with |- context [(?a =? ?b)%nat] => destruct (Nat.eqb_spec a b) end; congruence. Qed.

Section G.
  Context {T : Type} {NT : Num T}.
  Local Open Scope num_scope.
  Fixpoint pivot (m : nat) (f : nat -> T) : option nat :=
    match m with
    | O => if neqb (f 0%nat) n0 then None else Some 0%nat
    | S m' => match pivot m' f with Some p => Some p | None => if neqb (f m) n0 then None else Some m end
    end.
  Definition ext (m : nat) (x : nat -> T) (last : T) (i : nat) : T := if (i =? m)%nat then last else x i.
  Definition gsum (m : nat) (f : nat -> T) : T := nsum (map f (seq 0 m)).
  Fixpoint gsol (m : nat) (A : nat -> nat -> T) : option ((nat -> T) -> nat -> T) :=
    match m with
    | O => Some (fun b => b)
    | S m' =>
        match pivot m' (fun i => A i m') with
        | None => None
        | Some p =>
            let P := fun i j => A (swp p m' i) j in
            match gsol m' (fun i j => P i j - P i m' / P m' m' * P m' j) with
            | None => None
            | Some sol => Some (fun b => let c := fun i => b (swp p m' i) in
                                         let x := sol (fun i => c i - P i m' / P m' m' * c m') in
                                         ext m' x ((c m' - gsum m' (fun j => P m' j * x j)) / P m' m'))
            end
        end
    end.
  Definition ent (A : list (list T)) (i j : nat) : T := nth j (nth i A []) n0.
  Definition gauss_rank (A : list (list T)) : bool := match gsol (length A) (ent A) with None => false | Some _ => true end.
  Definition gauss_solve (A : list (list T)) (b : list T) : list T :=
    match gsol (length A) (ent A) with
    | None => []
    | Some sol => map (sol (fun i => nth i b n0)) (seq 0 (length A))
    end.
End G.

Definition kernelOf (m : nat) (A : nat -> nat -> R) (v : nat -> R) : Prop :=
  (exists i, (i < m)%nat /\ v i <> 0) /\ forall i, (i < m)%nat -> sumn m (fun j => A i j * v j) = 0.
Definition solverOf (m : nat) (A : nat -> nat -> R) (sol : (nat -> R) -> nat -> R) : Prop :=
  forall b i, (i < m)%nat -> sumn m (fun j => A i j * sol b j) = b i.

Lemma pivot_ok m (f : nat -> R) : match @pivot R R_num m f with Some p => (p <= m)%nat /\ f p <> 0 | None => forall i, (i <= m)%nat -> f i = 0 end.
Proof.
  induction m as [|m IH]; cbn [pivot neqb n0 R_num].
  - unfold Reqb. destruct (Req_EM_T (f 0%nat) 0) as [E|E]; [|auto]. intros i Hi. assert (i = 0%nat) by lia. subst; auto.
  - destruct (pivot m f) as [p|]; [destruct IH; auto|]. unfold Reqb. destruct (Req_EM_T (f (S m)) 0) as [E|E]; [|auto].
    intros i Hi. destruct (Nat.eq_dec i (S m)); [subst; auto|apply IH; lia].
Qed.
Lemma ext_lt m (x : nat -> R) l i : (i < m)%nat -> ext m x l i = x i.
Proof. intros. unfold ext. destruct (Nat.eqb_spec i m); [lia|auto]. Qed.
Lemma ext_at m (x : nat -> R) l : ext m x l m = l.
Proof. unfold ext. rewrite Nat.eqb_refl. auto. Qed.
Lemma gsum_R m f : @gsum R R_num m f = sumn m f.
Proof. apply nsum_seq. Qed.

Lemma gsol_ok m : forall A, match @gsol R R_num m A with None => exists v, kernelOf m A v | Some sol => solverOf m A sol end.
Proof.
  induction m as [|m IH]; intros A.
  - cbn [gsol]. intros b i Hi. lia.
  - cbn [gsol]. pose proof (pivot_ok m (fun i => A i m)) as Hpv. destruct (pivot m (fun i => A i m)) as [p|].
    + destruct Hpv as [Hp Hpiv].
      set (P := fun i j => A (swp p m i) j).
      assert (HPm : P m m <> 0). { unfold P, swp. rewrite Nat.eqb_refl. destruct (Nat.eqb_spec m p); [subst; auto|auto]. }
      assert (Hback : forall (x : nat -> R) (b : nat -> R), (forall i, (i <= m)%nat -> sumn (S m) (fun j => P i j * x j) = b (swp p m i)) ->
        forall i, (i <= m)%nat -> sumn (S m) (fun j => A i j * x j) = b i).
      { intros x b H i Hi. specialize (H (swp p m i) (swp_lt p m i Hp Hi)). rewrite swp_inv in H. unfold P in H. rewrite swp_inv in H. exact H. }
      rnum. set (Q := fun i j => P i j - P i m / P m m * P m j).
      assert (Hrow : forall x l i, (i < m)%nat -> sumn (S m) (fun j => P i j * ext m x l j) =
          sumn m (fun j => Q i j * x j) + P i m / P m m * sumn m (fun j => P m j * x j) + P i m * l).
      { intros x l i Hi. cbn [sumn]. rewrite ext_at. f_equal.
        rewrite <- sumn_scal, <- sumn_plus. apply sumn_ext. intros j Hj. rewrite ext_lt by auto. unfold Q. ring. }
      assert (Hlast : forall x l, sumn (S m) (fun j => P m j * ext m x l j) = sumn m (fun j => P m j * x j) + P m m * l).
      { intros. cbn [sumn]. rewrite ext_at. f_equal. apply sumn_ext. intros j Hj. rewrite ext_lt by auto. auto. }
      specialize (IH Q). cbv zeta. match goal with |- context [gsol m ?X] => change X with Q end. destruct (gsol m Q) as [sol|].
      * intros b i Hi. rewrite gsum_R. apply (Hback _ b); [|lia]. clear i Hi. intros i Hi. destruct (Nat.eq_dec i m) as [->|Hne].
        -- rewrite Hlast. unfold P in *. field. auto.
        -- rewrite Hrow by lia. rewrite IH by lia. unfold P in *. field. auto.
      * destruct IH as (v & (k & Hk & Hnz) & Hker). exists (ext m v (- sumn m (fun j => P m j * v j) / P m m)). split.
        { exists k. split; [lia|]. rewrite ext_lt; auto. }
        intros i Hi. apply (Hback _ (fun _ => 0)); [|lia]. clear i Hi. intros i Hi. destruct (Nat.eq_dec i m) as [->|Hne].
        -- rewrite Hlast. field. auto.
        -- rewrite Hrow by lia. rewrite Hker by lia. field. auto.
    + exists (ext m (fun _ => 0) 1). split; [exists m; split; [lia|rewrite ext_at; lra]|].
      intros i Hi. cbn [sumn]. rewrite Hpv by lia. rewrite sumn_zero; [ring|]. intros j Hj. rewrite ext_lt by auto. ring.
Qed.
Lemma gauss_ok n : sym_solver_ok n (@gauss_rank R R_num) (@gauss_solve R R_num).
Proof.
  intros m A Hm (Hl & _ & _). unfold gauss_rank, gauss_solve. rewrite Hl. change (ent A) with (entry A). pose proof (gsol_ok m (entry A)) as Hg. destruct (gsol m (entry A)) as [sol|].
  - split; [discriminate|intros _]. intros b Hb. split; [rewrite map_length, seq_length; auto|].
    intros i Hi. rewrite <- (Hg (fun i => nth i b 0) i Hi). apply sumn_ext. intros j Hj. rewrite nth_map_seq; auto.
  - split; [intros _|discriminate]. destruct Hg as (v & (k & Hk & Hnz) & Hker). exists (map v (seq 0 m)). split; [rewrite map_length, seq_length; auto|]. split.
    + exists k. split; auto. rewrite nth_map_seq; auto.
    + intros i Hi. eapply eq_trans; [|exact (Hker i Hi)]. apply sumn_ext. intros j Hj. rewrite nth_map_seq; auto.
Qed.

(** the elimination commutes with maps between arithmetics *)
Section H.
  Context {A B} {NA : Num A} {NB : Num B} {h : A -> B} {H : NumHom NA NB h}.
  Lemma h_pivot m (f : nat -> A) (f' : nat -> B) : (forall i, h (f i) = f' i) -> pivot m f = pivot m f'.
  Proof. intros E. induction m; cbn [pivot]; rewrite ?IHm, (h_eqb (h:=h)), E, (h_0 (h:=h)); reflexivity. Qed.
  Lemma h_gsol m : forall (L : nat -> nat -> A) (L' : nat -> nat -> B), (forall i j, h (L i j) = L' i j) ->
    match gsol m L, gsol m L' with
    | None, None => True
    | Some s, Some s' => forall b b', (forall i, h (b i) = b' i) -> forall i, h (s b i) = s' b' i
    | _, _ => False
    end.
  Proof.
    induction m as [|m IH]; intros L L' E; cbn [gsol]; [auto|].
    rewrite (h_pivot m (fun i => L i m) (fun i => L' i m)) by auto. destruct (pivot m (fun i => L' i m)) as [p|]; auto.
    match goal with |- context [gsol m ?X] => match X with context [L] => match goal with |- context [gsol m ?Y] => match Y with context [L'] => specialize (IH X Y) end end end end.
    cbv beta in IH. match type of IH with ?P -> _ => assert (HP : P) end. { intros; homs h. rewrite !E. reflexivity. }
    specialize (IH HP). destruct (gsol m _) as [s|]; destruct (gsol m _) as [s'|]; auto.
    intros b b' Eb i. cbv zeta. unfold ext. 
    assert (Es : forall j, h (s (fun i0 => nsub (b (swp p m i0)) (nmul (ndiv (L (swp p m i0) m) (L (swp p m m) m)) (b (swp p m m)))) j)
       = s' (fun i0 => nsub (b' (swp p m i0)) (nmul (ndiv (L' (swp p m i0) m) (L' (swp p m m) m)) (b' (swp p m m)))) j).
    { apply IH. intros k. homs h. rewrite !E, !Eb. reflexivity. }
    destruct (i =? m)%nat; [|apply Es]. homs h. unfold gsum. homs h. rewrite !E, !Eb, map_map. f_equal. f_equal. f_equal. apply map_ext. intros j. homs h. rewrite E, Es. reflexivity.
  Qed.
  Lemma h_ent (L : list (list A)) i j : h (ent L i j) = ent (map (map h) L) i j.
  Proof. unfold ent. rewrite <- (h_0 (h:=h)), <- (map_nth h). f_equal. change (@nil B) with (map h []). rewrite map_nth. reflexivity. Qed.
  Lemma h_gauss_rank (L : list (list A)) : gauss_rank L = gauss_rank (map (map h) L).
  Proof.
    unfold gauss_rank. rewrite map_length. pose proof (h_gsol (length L) (ent L) (ent (map (map h) L)) (h_ent L)) as Hg.
    destruct (gsol _ (ent L)); destruct (gsol _ (ent (map (map h) L))); auto; contradiction.
  Qed.
  Lemma h_gauss_solve (L : list (list A)) b : map h (gauss_solve L b) = gauss_solve (map (map h) L) (map h b).
  Proof.
    unfold gauss_solve. rewrite map_length. pose proof (h_gsol (length L) (ent L) (ent (map (map h) L)) (h_ent L)) as Hg.
    destruct (gsol _ (ent L)); destruct (gsol _ (ent (map (map h) L))); try contradiction; auto.
    rewrite map_map. apply map_ext. intros i. apply Hg. intros k. rewrite <- (h_0 (h:=h)), map_nth. reflexivity.
  Qed.
End H.
