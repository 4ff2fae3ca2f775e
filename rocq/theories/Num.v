(** * Arithmetic used by the model.

    The Python code computes with numpy float64 values.  The model is written
    once, over an arbitrary record of operations [Num T]; the instances below
    interpret it in exact reals, exact rationals, primitive binary64 floats and
    reals rounded to binary64.  No property of the operations is assumed here:
    theorems are stated either for every [Num T] (structural facts) or for one
    named instance. *)
From Coq Require Import ZArith QArith Qabs Qround Reals List Bool PrimFloat FloatOps SpecFloat.
From Flocq Require Import Core.
Import ListNotations.

Class Num (T : Type) := {
  n0 : T;                         (* 0.0 *)
  n1 : T;                         (* 1.0 *)
  nadd : T -> T -> T;
  nsub : T -> T -> T;
  nmul : T -> T -> T;
  ndiv : T -> T -> T;
  nopp : T -> T;
  nabs : T -> T;
  nltb : T -> T -> bool;          (* x < y *)
  nleb : T -> T -> bool;          (* x <= y *)
  neqb : T -> T -> bool;          (* x == y *)
  nlit : Z -> positive -> T;      (* the literal m/d, as Python would read it *)
  npow2fl : T -> T                (* 2.**floor(log2(x)) for x > 0 *)
}.

Declare Scope num_scope.
Delimit Scope num_scope with num.
Infix "+" := nadd : num_scope.
Infix "-" := nsub : num_scope.
Infix "*" := nmul : num_scope.
Infix "/" := ndiv : num_scope.
Notation "- x" := (nopp x) : num_scope.

Section Derived.
  Context {T : Type} {NT : Num T}.
  Local Open Scope num_scope.

  Definition ngtb (x y : T) : bool := nltb y x.       (* x > y *)
  Definition ngeb (x y : T) : bool := nleb y x.       (* x >= y *)
  Definition n2 : T := nlit 2 1.
  (** Python [max(x,y)] / [np.maximum] on non-NaN values. *)
  Definition nmax (x y : T) : T := if nltb x y then y else x.
  (** Python [min(x,y)] / [np.minimum] on non-NaN values. *)
  Definition nmin (x y : T) : T := if nltb y x then y else x.
  (** [np.sum] of a flat array.  Simplification: numpy sums pairwise; the model
      sums from left to right (the order only matters with rounding). *)
  Definition nsum (l : list T) : T := fold_left nadd l n0.
  Definition nprod (l : list T) : T := fold_left nmul l n1.
  (** [np.sum(np.abs(l))] *)
  Definition nsumabs (l : list T) : T := nsum (map nabs l).
  (** an integer used as a float *)
  Definition nofnat (k : nat) : T := nlit (Z.of_nat k) 1.
  Fixpoint npow (x : T) (k : nat) : T :=
    match k with O => n1 | S k' => x * npow x k' end.
  (** [np.max] of a non-empty list; the head is the first element. *)
  Definition nmaxl (x : T) (l : list T) : T := fold_left nmax l x.
End Derived.

(** ** Exact reals *)
Definition Rltb (x y : R) : bool := if Rlt_dec x y then true else false.
Definition Rleb (x y : R) : bool := if Rle_dec x y then true else false.
Definition Reqb (x y : R) : bool := if Req_EM_T x y then true else false.

Definition Rpow2fl (x : R) : R := bpow radix2 (mag radix2 x - 1).

#[export] Instance R_num : Num R := {|
  n0 := 0%R; n1 := 1%R;
  nadd := Rplus; nsub := Rminus; nmul := Rmult; ndiv := Rdiv;
  nopp := Ropp; nabs := Rabs;
  nltb := Rltb; nleb := Rleb; neqb := Reqb;
  nlit := fun m d => (IZR m / IZR (Zpos d))%R;
  npow2fl := Rpow2fl |}.

(** ** Exact rationals (kept reduced so that they stay small when computing) *)
Definition Qpow2fl (x : Q) : Q :=
  let n := Qnum x in let d := Zpos (Qden x) in
  let k := (Z.log2 n - Z.log2 d)%Z in
  (* 2^k <= x < 2^(k+1) or one less *)
  let p := fun k : Z => if (0 <=? k)%Z then (2 ^ k)%Z # 1 else 1 # (Z.to_pos (2 ^ (- k))) in
  if Qle_bool (p k) x then p k else p (k - 1)%Z.

Definition Q_num : Num Q := {|
  n0 := 0#1; n1 := 1#1;
  nadd := fun x y => Qred (x + y); nsub := fun x y => Qred (x - y);
  nmul := fun x y => Qred (x * y); ndiv := fun x y => Qred (x / y);
  nopp := fun x => Qred (- x); nabs := fun x => Qred (Qabs x);
  nltb := fun x y => negb (Qle_bool y x); nleb := Qle_bool; neqb := Qeq_bool;
  nlit := fun m d => Qred (m # d);
  npow2fl := Qpow2fl |}.

(** ** Primitive binary64 floats *)
Definition F_lit (m : Z) (d : positive) : PrimFloat.float :=
  let den := S754_finite false d 0 in
  match m with
  | Z0 => SF2Prim (S754_zero false)
  | Zpos p => SF2Prim (SFdiv 53 1024 (S754_finite false p 0) den)
  | Zneg p => SF2Prim (SFdiv 53 1024 (S754_finite true p 0) den)
  end.

Definition F_pow2fl (x : PrimFloat.float) : PrimFloat.float :=
  let (_, e) := Z.frexp x in Z.ldexp (F_lit 1 1) (e - 1)%Z.

Definition F_num : Num PrimFloat.float := {|
  n0 := F_lit 0 1; n1 := F_lit 1 1;
  nadd := PrimFloat.add; nsub := PrimFloat.sub; nmul := PrimFloat.mul; ndiv := PrimFloat.div;
  nopp := PrimFloat.opp; nabs := PrimFloat.abs;
  nltb := PrimFloat.ltb; nleb := PrimFloat.leb; neqb := PrimFloat.eqb;
  nlit := F_lit;
  npow2fl := F_pow2fl |}.

(** ** Reals rounded to binary64 (gradual underflow, no overflow) *)
Definition b64 (x : R) : R := round radix2 (FLT_exp (-1074) 53) ZnearestE x.

Definition B64_num : Num R := {|
  n0 := 0%R; n1 := 1%R;
  nadd := fun x y => b64 (x + y); nsub := fun x y => b64 (x - y);
  nmul := fun x y => b64 (x * y); ndiv := fun x y => b64 (x / y);
  nopp := Ropp; nabs := Rabs;
  nltb := Rltb; nleb := Rleb; neqb := Reqb;
  nlit := fun m d => b64 (IZR m / IZR (Zpos d));
  npow2fl := Rpow2fl |}.

(** ** Reasoning at [R_num] *)
Lemma Rltb_true x y : Rltb x y = true <-> (x < y)%R.
Proof. unfold Rltb; destruct Rlt_dec; split; intros; auto; discriminate. Qed.
Lemma Rltb_false x y : Rltb x y = false <-> (y <= x)%R.
Proof.
  unfold Rltb; destruct Rlt_dec; split; intros; auto; try discriminate.
  - exfalso; apply (Rlt_not_le _ _ r H).
  - apply Rnot_lt_le; auto.
Qed.
Lemma Rleb_true x y : Rleb x y = true <-> (x <= y)%R.
Proof. unfold Rleb; destruct Rle_dec; split; intros; auto; discriminate. Qed.
Lemma Rleb_false x y : Rleb x y = false <-> (y < x)%R.
Proof.
  unfold Rleb; destruct Rle_dec; split; intros; auto; try discriminate.
  - exfalso; apply (Rlt_not_le _ _ H r).
  - apply Rnot_le_lt; auto.
Qed.
Lemma Reqb_true x y : Reqb x y = true <-> x = y.
Proof. unfold Reqb; destruct Req_EM_T; split; intros; auto; discriminate. Qed.
Lemma Reqb_false x y : Reqb x y = false <-> x <> y.
Proof. unfold Reqb; destruct Req_EM_T; split; intros; auto; try discriminate; contradiction. Qed.

(** Replace the record projections at [R_num] by the real operations. *)
Ltac rnum :=
  change (@n0 R R_num) with 0%R in *;
  change (@n1 R R_num) with 1%R in *;
  change (@nadd R R_num) with Rplus in *;
  change (@nsub R R_num) with Rminus in *;
  change (@nmul R R_num) with Rmult in *;
  change (@ndiv R R_num) with Rdiv in *;
  change (@nopp R R_num) with Ropp in *;
  change (@nabs R R_num) with Rabs in *;
  change (@nltb R R_num) with Rltb in *;
  change (@nleb R R_num) with Rleb in *;
  change (@neqb R R_num) with Reqb in *;
  change (@npow2fl R R_num) with Rpow2fl in *.

Lemma nmax_R x y : @nmax R R_num x y = Rmax x y.
Proof.
  unfold nmax; rnum. destruct (Rltb x y) eqn:E.
  - apply Rltb_true in E. rewrite Rmax_right; auto. left; auto.
  - apply Rltb_false in E. rewrite Rmax_left; auto.
Qed.
Lemma nmin_R x y : @nmin R R_num x y = Rmin x y.
Proof.
  unfold nmin; rnum. destruct (Rltb y x) eqn:E.
  - apply Rltb_true in E. rewrite Rmin_right; auto. left; auto.
  - apply Rltb_false in E. rewrite Rmin_left; auto.
Qed.
Lemma nlit_R m d : @nlit R R_num m d = (IZR m / IZR (Zpos d))%R.
Proof. reflexivity. Qed.
Lemma n2_R : @n2 R R_num = 2%R.
Proof. unfold n2. rewrite nlit_R. unfold Rdiv. rewrite Rinv_1. apply Rmult_1_r. Qed.
Lemma nofnat_R k : @nofnat R R_num k = INR k.
Proof.
  unfold nofnat. rewrite nlit_R, <- INR_IZR_INZ. unfold Rdiv. rewrite Rinv_1. apply Rmult_1_r.
Qed.
Lemma npow_R x k : @npow R R_num x k = (x ^ k)%R.
Proof. induction k; simpl; rnum; [reflexivity | rewrite IHk; reflexivity]. Qed.

Lemma Rpow2fl_pos x : (0 < Rpow2fl x)%R.
Proof. apply bpow_gt_0. Qed.
Lemma Rpow2fl_bounds x : (0 < x)%R -> (Rpow2fl x <= x < 2 * Rpow2fl x)%R.
Proof.
  intros H. assert (Hx : Rabs x = x) by (apply Rabs_pos_eq; left; auto). unfold Rpow2fl. split.
  - apply Rle_trans with (Rabs x); [|right; auto]. apply bpow_mag_le. intros E. rewrite E in H. apply (Rlt_irrefl _ H).
  - apply Rle_lt_trans with (Rabs x); [right; auto|].
    apply Rlt_le_trans with (bpow radix2 (mag radix2 x)); [apply bpow_mag_gt|].
    replace 2%R with (bpow radix2 1) by reflexivity. rewrite <- bpow_plus.
    right. f_equal. ring.
Qed.

Lemma fold_left_Rplus l a : fold_left Rplus l a = (a + fold_right Rplus 0 l)%R.
Proof.
  revert a; induction l as [|x l IH]; intros a; simpl.
  - ring.
  - rewrite IH. ring.
Qed.
Lemma nsum_R l : @nsum R R_num l = fold_right Rplus 0%R l.
Proof. unfold nsum; rnum. rewrite fold_left_Rplus. ring. Qed.
