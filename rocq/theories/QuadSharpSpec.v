(** * What the quadratic checks compare *)
From Coq Require Import List Arith Reals.
From Verif Require Import Num RSum Cheb Tensor PolySpec.
Import ListNotations.
Local Open Scope R_scope.

(** total degree of a multi-index *)
Definition total (i : list nat) : nat := fold_right Nat.add 0%nat i.
(** the value at x of the terms of total degree at most two *)
Definition lowPart (M : tensor R) (x : list R) : R :=
  Rsum (map (fun i => tget M i * basis chebT i x) (filter (fun i => total i <? 3)%nat (indices (shp M)))).
(** the sum of the absolute values of all the other coefficients *)
Definition highSum (M : tensor R) : R :=
  Rsum (map (fun i => Rabs (tget M i)) (filter (fun i => 3 <=? total i)%nat (indices (shp M)))).
