(** * Arrays.

    1-D work arrays are lists with functional update; n-D numpy arrays are a shape
    and the flat C-order (row-major) data, as numpy's [ravel] shows them. *)
From Coq Require Import List Arith Lia Bool ZArith Reals Lra.
From Verif Require Import Num.
Import ListNotations.

(** ** 1-D arrays *)
Fixpoint upd {A} (l : list A) (i : nat) (v : A) : list A :=
  match l, i with
  | [], _ => []
  | _ :: r, O => v :: r
  | x :: r, S i' => x :: upd r i' v
  end.

Lemma upd_length {A} (l : list A) i v : length (upd l i v) = length l.
Proof. revert i; induction l; intros [|i]; simpl; auto. Qed.
Lemma nth_upd_eq {A} (l : list A) i v d : i < length l -> nth i (upd l i v) d = v.
Proof. revert i; induction l; intros [|i]; simpl; intros; auto; try lia. apply IHl; lia. Qed.
Lemma nth_upd_neq {A} (l : list A) i j v d : i <> j -> nth j (upd l i v) d = nth j l d.
Proof. revert i j; induction l; intros [|i] [|j]; simpl; intros; auto; try lia. Qed.
Lemma nth_upd {A} (l : list A) i j v d : i < length l ->
  nth j (upd l i v) d = if Nat.eqb j i then v else nth j l d.
Proof.
  intros H. destruct (Nat.eqb_spec j i).
  - subst; apply nth_upd_eq; auto.
  - apply nth_upd_neq; auto.
Qed.

(** ** Shapes and multi-indices *)
Definition prodn (s : list nat) : nat := fold_right Nat.mul 1 s.

Fixpoint ravel_index (s idx : list nat) : nat :=
  match s, idx with
  | _ :: s', i :: idx' => i * prodn s' + ravel_index s' idx'
  | _, _ => O
  end.

(** all multi-indices of a shape in C order ([itertools.product] of the ranges) *)
Fixpoint indices (s : list nat) : list (list nat) :=
  match s with
  | [] => [[]]
  | n :: s' => flat_map (fun i => map (cons i) (indices s')) (seq 0 n)
  end.

Definition inrange (s idx : list nat) : Prop := Forall2 lt idx s.

Record tensor (T : Type) := mkT { shp : list nat; dat : list T }.
Arguments mkT {T}. Arguments shp {T}. Arguments dat {T}.

Section T.
  Context {T : Type} {NT : Num T}.
  Definition ndim (t : tensor T) : nat := length (shp t).
  Definition tget (t : tensor T) (idx : list nat) : T := nth (ravel_index (shp t) idx) (dat t) n0.
  Definition tbuild (s : list nat) (f : list nat -> T) : tensor T := mkT s (map f (indices s)).
  (** [np.sum(np.abs(M))] *)
  Definition tsumabs (t : tensor T) : T := nsumabs (dat t).
  (** [M.ravel()[0]] *)
  Definition tconst (t : tensor T) : T := nth 0 (dat t) n0.
End T.

(** A numpy array: as many entries as its shape says; all axes non-empty. *)
Definition wf {T} (t : tensor T) : Prop :=
  length (dat t) = prodn (shp t) /\ Forall (fun n => 1 <= n) (shp t).

(** replace the d-th entry of a list *)
Definition setn := @upd nat.

Lemma prodn_cons n s : prodn (n :: s) = n * prodn s.
Proof. reflexivity. Qed.

Lemma indices_cons n s : indices (n :: s) = flat_map (fun i => map (cons i) (indices s)) (seq 0 n).
Proof. reflexivity. Qed.

Lemma length_flat_map_const {A B} (f : A -> list B) l k :
  (forall x, In x l -> length (f x) = k) -> length (flat_map f l) = length l * k.
Proof.
  induction l; simpl; intros H; auto. rewrite app_length, H, IHl; auto.
Qed.
Lemma length_indices s : length (indices s) = prodn s.
Proof.
  induction s; auto. rewrite indices_cons, length_flat_map_const with (k := prodn s).
  - rewrite seq_length. reflexivity.
  - intros. rewrite map_length. auto.
Qed.

Lemma in_indices s idx : In idx (indices s) <-> inrange s idx.
Proof.
  revert idx. induction s; intros idx; simpl.
  - split; [intros [<-|[]]; constructor | intros H; inversion H; auto].
  - rewrite in_flat_map. split.
    + intros (i & Hi & H). apply in_map_iff in H. destruct H as (r & <- & Hr).
      apply in_seq in Hi. constructor; [lia|]. apply IHs; auto.
    + intros H. inversion H; subst. exists x. split; [apply in_seq; lia|].
      apply in_map. apply IHs; auto.
Qed.

Lemma inrange_length s idx : inrange s idx -> length idx = length s.
Proof. intros H; induction H; simpl; auto. Qed.

Lemma ravel_lt s idx : inrange s idx -> ravel_index s idx < prodn s.
Proof.
  revert idx; induction s; intros idx H; inversion H; subst; simpl; auto.
  apply IHs in H4. nia.
Qed.

Lemma nth_flat_map_const {A B} (f : A -> list B) l k i j d da :
  (forall x, In x l -> length (f x) = k) -> i < length l -> j < k ->
  nth (i * k + j) (flat_map f l) d = nth j (f (nth i l da)) d.
Proof.
  revert i; induction l; intros i H Hi Hj; simpl in *; [lia|].
  destruct i.
  - simpl. rewrite app_nth1; auto. rewrite H; auto.
  - rewrite app_nth2; rewrite H; auto; [|lia].
    replace (S i * k + j - k) with (i * k + j) by lia. apply IHl; auto. lia.
Qed.

Lemma nth_indices s idx d : inrange s idx -> nth (ravel_index s idx) (indices s) d = idx.
Proof.
  revert idx; induction s; intros idx H; inversion H; subst; [reflexivity|].
  simpl ravel_index. rewrite indices_cons.
  rewrite nth_flat_map_const with (k := prodn s) (da := 0).
  - rewrite seq_nth by auto. simpl.
    rewrite nth_indep with (d' := x :: d) by (rewrite map_length, length_indices; apply ravel_lt; auto).
    rewrite map_nth. f_equal. apply IHs; auto.
  - intros. rewrite map_length. apply length_indices.
  - rewrite seq_length; auto.
  - apply ravel_lt; auto.
Qed.

Section TL.
  Context {T : Type} {NT : Num T}.
  Lemma shp_tbuild s (f : list nat -> T) : shp (tbuild s f) = s.
  Proof. reflexivity. Qed.
  Lemma length_tbuild s (f : list nat -> T) : length (dat (tbuild s f)) = prodn s.
  Proof. simpl. rewrite map_length. apply length_indices. Qed.
  Lemma wf_tbuild s (f : list nat -> T) : Forall (fun n => 1 <= n) s -> wf (tbuild s f).
  Proof. split; auto. apply length_tbuild. Qed.
  Lemma tget_tbuild s (f : list nat -> T) idx : inrange s idx -> tget (tbuild s f) idx = f idx.
  Proof.
    intros H. unfold tget. simpl.
    rewrite nth_indep with (d' := f []) by (rewrite map_length, length_indices; apply ravel_lt; auto).
    rewrite map_nth. rewrite nth_indices; auto.
  Qed.

  Lemma indices_ravel s k : k < prodn s -> ravel_index s (nth k (indices s) []) = k /\ inrange s (nth k (indices s) []).
  Proof.
    intros H. assert (Hin : inrange s (nth k (indices s) [])).
    { apply in_indices. apply nth_In. rewrite length_indices; auto. }
    split; auto.
    revert k H Hin. induction s; intros k H Hin.
    - simpl in *. lia.
    - rewrite indices_cons in *. simpl prodn in H.
      assert (Hp : prodn s <> 0) by nia.
      assert (E : exists i j, k = i * prodn s + j /\ j < prodn s /\ i < a).
      { exists (k / prodn s), (k mod prodn s). split; [|split].
        - rewrite (Nat.div_mod k (prodn s) Hp) at 1. lia.
        - apply Nat.mod_upper_bound; auto.
        - apply Nat.div_lt_upper_bound; auto; nia. }
      destruct E as (i & j & -> & Hj & Hi).
      assert (E : nth (i * prodn s + j) (flat_map (fun i => map (cons i) (indices s)) (seq 0 a)) []
                  = i :: nth j (indices s) []).
      { rewrite nth_flat_map_const with (k := prodn s) (da := 0); auto;
          try (rewrite seq_length; auto); try (intros; rewrite map_length; apply length_indices).
        rewrite seq_nth by auto. simpl.
        rewrite nth_indep with (d' := i :: []) by (rewrite map_length, length_indices; auto).
        rewrite map_nth. reflexivity. }
      rewrite E in *. inversion Hin; subst. simpl. rewrite (IHs j); auto.
  Qed.

  (** the flat data of an array is the list of its entries in C order *)
  Lemma dat_tget (t : tensor T) : wf t -> dat t = map (tget t) (indices (shp t)).
  Proof.
    intros [Hl _]. apply nth_ext with (d := n0) (d' := n0).
    - rewrite map_length, length_indices. auto.
    - intros k Hk. rewrite Hl in Hk. destruct (indices_ravel _ _ Hk) as [Hr Hin].
      symmetry. rewrite (nth_indep _ n0 (tget t [])) by (rewrite map_length, length_indices; auto).
      rewrite map_nth. unfold tget. rewrite Hr. reflexivity.
  Qed.
  Lemma tget_ext (t1 t2 : tensor T) : wf t1 -> wf t2 -> shp t1 = shp t2 ->
    (forall idx, inrange (shp t1) idx -> tget t1 idx = tget t2 idx) -> t1 = t2.
  Proof.
    intros H1 H2 Hs H. destruct t1 as [s1 d1], t2 as [s2 d2]. simpl in *. subst s2. f_equal.
    pose proof (dat_tget _ H1) as E1. pose proof (dat_tget _ H2) as E2. simpl in E1, E2.
    rewrite E1, E2. apply map_ext_in. intros idx Hin. apply H. apply in_indices; auto.
  Qed.

  Lemma ravel_zeros s : ravel_index s (repeat 0 (length s)) = 0.
  Proof. induction s; simpl; auto. Qed.
  Lemma inrange_zeros s : Forall (fun n => 1 <= n) s -> inrange s (repeat 0 (length s)).
  Proof. induction s; simpl; intros H; constructor; inversion H; subst; auto. apply IHs; auto. Qed.
  Lemma tconst_tget (t : tensor T) : tconst t = tget t (repeat 0 (ndim t)).
  Proof. unfold tconst, tget, ndim. rewrite ravel_zeros. reflexivity. Qed.
End TL.

Lemma inrange_nth s idx d : inrange s idx -> d < length s -> nth d idx 0 < nth d s 0.
Proof.
  intros H; revert d; induction H; intros [|d]; simpl; intros; auto; try lia. apply IHForall2; lia.
Qed.
Lemma inrange_upd s idx d k n : inrange s idx -> k < n -> inrange (upd s d n) (upd idx d k).
Proof.
  intros H; revert d; induction H; intros [|d] Hk; simpl; constructor; auto. apply IHForall2; auto.
Qed.
Lemma upd_upd {A} (l : list A) i u v : upd (upd l i u) i v = upd l i v.
Proof. revert i; induction l; intros [|i]; simpl; auto. f_equal; auto. Qed.
Lemma upd_nth {A} (l : list A) i d : upd l i (nth i l d) = l.
Proof. revert i; induction l; intros [|i]; simpl; auto. f_equal; auto. Qed.
Lemma upd_comm {A} (l : list A) i j u v : i <> j -> upd (upd l i u) j v = upd (upd l j v) i u.
Proof.
  revert i j; induction l; intros [|i] [|j] H; simpl; auto; try lia. f_equal; apply IHl; lia.
Qed.
Lemma Forall_upd {A} (P : A -> Prop) l i v : Forall P l -> P v -> Forall P (upd l i v).
Proof. revert i; induction l; intros [|i] H Hv; simpl; inversion H; subst; constructor; auto. Qed.
