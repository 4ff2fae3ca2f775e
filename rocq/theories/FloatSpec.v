(** * Specification for C96: sums of binary64 numbers in any order *)
From Coq Require Import List Permutation Reals Floats.
From Verif Require Import Num Tensor EftProofs.
Import ListNotations.

(** [s] is a value np.sum can return for the list [l]: the entries are added in some order with some
    bracketing (left to right, pairwise, ...), starting from 0 or from an entry *)
Inductive floatSum : list PrimFloat.float -> PrimFloat.float -> Prop :=
| FS_nil : floatSum [] 0%float
| FS_one a : floatSum [a] a
| FS_add l1 l2 l s1 s2 : floatSum l1 s1 -> floatSum l2 s2 -> Permutation l (l1 ++ l2) -> floatSum l (PrimFloat.add s1 s2).

(** the polynomial whose coefficients are the numbers the floats of [M] stand for *)
Definition realPoly (M : tensor PrimFloat.float) : tensor R := mkT (shp M) (map FR (dat M)).
