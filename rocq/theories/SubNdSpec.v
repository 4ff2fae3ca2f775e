(** * Words for the solver in several variables of subdivision.py.  Independent of its control flow. *)
From Coq Require Import Reals List.
From Verif Require Import Num RSum CombinedModel ApproxModel TrackerModel SubNdModel.
From Verif Require SubcheckProps.
Notation volume := SubcheckProps.volume.
Import ListNotations.
Local Open Scope R_scope.

(** How a search ends on one box: why, the box that is stored, and the points handed to the root tracker. *)
Record leaf := mkLeaf { why : reason; low : list R; high : list R; points : list (list R) }.
Definition stored (l : leaf) : reason * (list R * list R) := (why l, (low l, high l)).
Definition callOf (l : leaf) : call R reason :=
  match why l with TooDeep => AddPotential (points l) (low l) (high l) TooDeep | r => AddRoots (points l) (low l) (high l) r end.
(** the i-th coordinate x is in [a, b] widened on both sides by the part e of its width and by c *)
Definition within (e c : R) (a b : list R) (i : nat) (x : R) : Prop :=
  let w := nth i b 0 - nth i a 0 in nth i a 0 - e * w - c <= x <= nth i b 0 + e * w + c.
(** box and points of a leaf of a search from [a, b]; [V] bounds the volume of a box that was given up, whose one point is its midpoint *)
Definition leafOK (n : nat) (eBox ePoint V : R) (a b : list R) (l : leaf) : Prop :=
  length (low l) = n /\ length (high l) = n /\
  (forall i, (i < n)%nat -> nth i (low l) 0 < nth i (high l) 0 /\ within eBox 0 a b i (nth i (low l) 0) /\ within eBox 0 a b i (nth i (high l) 0)) /\
  (forall z i, In z (points l) -> (i < n)%nat -> within ePoint (1 / 10 ^ 9) a b i (nth i z 0)) /\
  (why l = TooDeep -> volume (low l) (high l) <= V /\ exists z, points l = [z] /\ length z = n /\ forall i, (i < n)%nat -> nth i z 0 = (nth i (low l) 0 + nth i (high l) 0) / 2).
(** a call of f gives c + w_0 x_0 + ... + w_(n-1) x_(n-1) *)
Definition affine (n : nat) (f : fobj R) (c : R) (w : nat -> R) : Prop := forall x, length x = n -> callAt f x = c + sumn n (fun i => w i * nth i x 0).
Definition isAffine (n : nat) (f : fobj R) : Prop := exists c w, affine n f c w.
(** z is the one common zero *)
Definition onlyZero (n : nat) (funcs : list (fobj R)) (z : list R) : Prop :=
  length z = n /\ (forall f, In f funcs -> callAt f z = 0) /\ forall y, length y = n -> (forall f, In f funcs -> callAt f y = 0) -> y = z.
Definition inBox (n : nat) (a b z : list R) : Prop := length z = n /\ forall i, (i < n)%nat -> nth i a 0 <= nth i z 0 <= nth i b 0.
