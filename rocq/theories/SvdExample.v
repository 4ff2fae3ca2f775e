(** * Singular value decompositions of 1x1 and 2x2 matrices
    These show that the contract assumed of np.linalg.svd is satisfiable. *)
From Coq Require Import List Arith Bool ZArith Reals Lra Lia.
From Verif Require Import Num RSum Tensor LinearModel LinearProofs.
Import ListNotations.
Local Open Scope R_scope.

Notation rget := (@mget R R_num).
Definition svd1 (A : list (list R)) : list (list R) * list R * list (list R) :=
  let a := rget A 0 0 in (if Rlt_dec a 0 then [[-1]] else [[1]], [Rabs a], [[1]]).

Lemma svd1_ok : svd_ok 1 svd1.
Proof.
  intros A _. unfold svd1. split; cbn [fst snd]; intros.
  - assert (i = 0 /\ l = 0)%nat as [-> ->] by lia. destruct Rlt_dec; cbn; [rewrite Rabs_left by auto|rewrite Rabs_pos_eq by lra]; ring.
  - assert (i = 0 /\ j = 0)%nat as [-> ->] by lia. destruct Rlt_dec; cbn; lra.
  - assert (i = 0 /\ j = 0)%nat as [-> ->] by lia. cbn; lra.
  - assert (i = 0 /\ j = 0)%nat as [-> ->] by lia. cbn; lra.
  - assert (j = 0)%nat as -> by lia. cbn. apply Rabs_pos.
  - assert (i = 0 /\ j = 0)%nat as [-> ->] by lia. lra.
Qed.

(** half of the angle of the vector (p,q) *)
Definition half (p q : R) : R * R :=
  let r := sqrt (p * p + q * q) in
  if Req_EM_T r 0 then (1, 0)
  else (sqrt ((1 + p / r) / 2), (if Rlt_dec q 0 then -1 else 1) * sqrt ((1 - p / r) / 2)).
Lemma half_spec p q : let r := sqrt (p * p + q * q) in let '(c, s) := half p q in
  c * c + s * s = 1 /\ p = r * (c * c - s * s) /\ q = 2 * r * (c * s).
Proof.
  unfold half. assert (H0 : 0 <= p * p + q * q) by nra. pose proof (sqrt_sqrt _ H0) as Hr. pose proof (sqrt_pos (p * p + q * q)) as Hp.
  set (r := sqrt (p * p + q * q)) in *. clearbody r. cbv zeta. destruct (Req_EM_T r 0) as [E|E].
  - subst r. assert (p = 0) by nra. assert (q = 0) by nra. subst. repeat split; lra.
  - assert (Hr0 : 0 < r) by lra. set (u := p / r). assert (Ep : p = u * r) by (unfold u; field; lra).
    assert (Hu : u * u <= 1). { apply Rmult_le_reg_r with (r * r); [nra|]. nra. }
    assert (Hu1 : -1 <= u <= 1) by nra.
    pose proof (sqrt_sqrt ((1 + u) / 2) ltac:(lra)) as S1. pose proof (sqrt_sqrt ((1 - u) / 2) ltac:(lra)) as S2.
    pose proof (sqrt_pos ((1 + u) / 2)) as P1. pose proof (sqrt_pos ((1 - u) / 2)) as P2.
    set (c := sqrt ((1 + u) / 2)) in *. set (s := sqrt ((1 - u) / 2)) in *. clearbody c s u.
    assert (Hq : q * q = (2 * r * (c * s)) * (2 * r * (c * s))).
    { replace ((2 * r * (c * s)) * (2 * r * (c * s))) with (4 * (r * r) * (c * c) * (s * s)) by ring. rewrite S1, S2, Hr, Ep. rewrite Ep in Hr. nra. }
    assert (Hcs : 0 <= 2 * r * (c * s)) by (repeat apply Rmult_le_pos; lra).
    assert (Hq' : (q - 2 * r * (c * s)) * (q + 2 * r * (c * s)) = 0) by nra. apply Rmult_integral in Hq'.
    destruct (Rlt_dec q 0); repeat split; try nra.
Qed.

Definition svd2 (A : list (list R)) : list (list R) * list R * list (list R) :=
  let a := rget A 0 0 in let b := rget A 0 1 in let c := rget A 1 0 in let d := rget A 1 1 in
  let E := (a + d) / 2 in let F := (a - d) / 2 in let G := (c + b) / 2 in let H := (c - b) / 2 in
  let Q := sqrt (E * E + H * H) in let W := sqrt (F * F + G * G) in
  let '(c1, s1) := half E H in let '(c2, s2) := half F G in
  let cp := c1 * c2 - s1 * s2 in let sp := s1 * c2 + c1 * s2 in
  let ct := c1 * c2 + s1 * s2 in let st := s1 * c2 - c1 * s2 in
  let g := if Rlt_dec Q W then -1 else 1 in
  ([[cp; - sp]; [sp; cp]], [Q + W; Rabs (Q - W)], [[ct; - st]; [g * st; g * ct]]).

Ltac idx2 k := destruct k as [|[|k]]; [| |exfalso; lia].
Lemma svd2_ok : svd_ok 2 svd2.
Proof.
  intros A _. unfold svd2. set (a := rget A 0 0). set (b := rget A 0 1). set (c := rget A 1 0). set (d := rget A 1 1). cbv zeta.
  set (E := (a + d) / 2). set (F := (a - d) / 2). set (G := (c + b) / 2). set (H := (c - b) / 2).
  pose proof (half_spec E H) as H1. pose proof (half_spec F G) as H2. destruct (half E H) as [c1 s1]. destruct (half F G) as [c2 s2]. cbv zeta in H1, H2.
  pose proof (sqrt_pos (E * E + H * H)) as HQ. pose proof (sqrt_pos (F * F + G * G)) as HW.
  set (Q := sqrt (E * E + H * H)) in *. set (W := sqrt (F * F + G * G)) in *. clearbody Q W.
  destruct H1 as (N1 & EE & EH). destruct H2 as (N2 & EF & EG).
  assert (Ha : a = Q * (c1 * c1 - s1 * s1) + W * (c2 * c2 - s2 * s2)) by (rewrite <- EE, <- EF; unfold E, F; field).
  assert (Hd : d = Q * (c1 * c1 - s1 * s1) - W * (c2 * c2 - s2 * s2)) by (rewrite <- EE, <- EF; unfold E, F; field).
  assert (Hc : c = 2 * W * (c2 * s2) + 2 * Q * (c1 * s1)) by (rewrite <- EG, <- EH; unfold G, H; field).
  assert (Hb : b = 2 * W * (c2 * s2) - 2 * Q * (c1 * s1)) by (rewrite <- EG, <- EH; unfold G, H; field).
  assert (S1 : s1 * s1 = 1 - c1 * c1) by lra. assert (S2 : s2 * s2 = 1 - c2 * c2) by lra.
  assert (Hg : forall g, (g = if Rlt_dec Q W then -1 else 1) -> g * g = 1 /\ g * Rabs (Q - W) = Q - W).
  { intros g ->. destruct (Rlt_dec Q W); [rewrite Rabs_left by lra|rewrite Rabs_pos_eq by lra]; lra. }
  set (g := if Rlt_dec Q W then -1 else 1) in *. destruct (Hg g eq_refl) as [Hg1 Hg2]. clear Hg. clearbody g.
  clearbody E F G H. split; cbn [fst snd].
  - intros i l Hi Hl. idx2 i; idx2 l; cbn -[Rmult Rplus Rabs]; fold a b c d; rnum.
    + rewrite Ha. transitivity ((c1 * c2 - s1 * s2) * (Q + W) * (c1 * c2 + s1 * s2) - (s1 * c2 + c1 * s2) * (g * Rabs (Q - W)) * (s1 * c2 - c1 * s2)); [|ring]. rewrite Hg2. 
      replace (s1 * s1) with (1 - c1 * c1) by lra. replace (s2 * s2) with (1 - c2 * c2) by lra.
      ring_simplify. replace (s1 ^ 2) with (1 - c1 * c1) by (rewrite <- S1; ring). replace (s2 ^ 2) with (1 - c2 * c2) by (rewrite <- S2; ring). ring.
    + rewrite Hb. transitivity (- (c1 * c2 - s1 * s2) * (Q + W) * (s1 * c2 - c1 * s2) - (s1 * c2 + c1 * s2) * (g * Rabs (Q - W)) * (c1 * c2 + s1 * s2)); [|ring]. rewrite Hg2.
      ring_simplify. replace (s1 ^ 2) with (1 - c1 * c1) by (rewrite <- S1; ring). replace (s2 ^ 2) with (1 - c2 * c2) by (rewrite <- S2; ring). ring.
    + rewrite Hc. transitivity ((s1 * c2 + c1 * s2) * (Q + W) * (c1 * c2 + s1 * s2) + (c1 * c2 - s1 * s2) * (g * Rabs (Q - W)) * (s1 * c2 - c1 * s2)); [|ring]. rewrite Hg2.
      ring_simplify. replace (s1 ^ 2) with (1 - c1 * c1) by (rewrite <- S1; ring). replace (s2 ^ 2) with (1 - c2 * c2) by (rewrite <- S2; ring). ring.
    + rewrite Hd. transitivity (- (s1 * c2 + c1 * s2) * (Q + W) * (s1 * c2 - c1 * s2) + (c1 * c2 - s1 * s2) * (g * Rabs (Q - W)) * (c1 * c2 + s1 * s2)); [|ring]. rewrite Hg2.
      ring_simplify. replace (s1 ^ 2) with (1 - c1 * c1) by (rewrite <- S1; ring). replace (s2 ^ 2) with (1 - c2 * c2) by (rewrite <- S2; ring). ring.
  - intros i j Hi Hj. idx2 i; idx2 j; cbn -[Rmult Rplus Rabs]; rnum; ring_simplify; replace (s1 ^ 2) with (1 - c1 * c1) by (rewrite <- S1; ring); replace (s2 ^ 2) with (1 - c2 * c2) by (rewrite <- S2; ring); ring.
  - intros i j Hi Hj. idx2 i; idx2 j; cbn -[Rmult Rplus Rabs]; rnum.
    1: transitivity ((c1 * c2 + s1 * s2) * (c1 * c2 + s1 * s2) + (g * g) * ((s1 * c2 - c1 * s2) * (s1 * c2 - c1 * s2))); [ring|].
    2,3: transitivity (- (c1 * c2 + s1 * s2) * (s1 * c2 - c1 * s2) + (g * g) * ((s1 * c2 - c1 * s2) * (c1 * c2 + s1 * s2))); [ring|].
    4: transitivity ((s1 * c2 - c1 * s2) * (s1 * c2 - c1 * s2) + (g * g) * ((c1 * c2 + s1 * s2) * (c1 * c2 + s1 * s2))); [ring|].
    all: rewrite Hg1; ring_simplify; replace (s1 ^ 2) with (1 - c1 * c1) by (rewrite <- S1; ring); replace (s2 ^ 2) with (1 - c2 * c2) by (rewrite <- S2; ring); ring.
  - intros i j Hi Hj. idx2 i; idx2 j; cbn -[Rmult Rplus Rabs]; rnum.
    1: transitivity ((c1 * c2 + s1 * s2) * (c1 * c2 + s1 * s2) + ((s1 * c2 - c1 * s2) * (s1 * c2 - c1 * s2))); [ring|].
    2,3: ring.
    2: transitivity (g * g * ((s1 * c2 - c1 * s2) * (s1 * c2 - c1 * s2) + ((c1 * c2 + s1 * s2) * (c1 * c2 + s1 * s2)))); [ring|rewrite Hg1].
    all: ring_simplify; replace (s1 ^ 2) with (1 - c1 * c1) by (rewrite <- S1; ring); replace (s2 ^ 2) with (1 - c2 * c2) by (rewrite <- S2; ring); ring.
  - intros j Hj. idx2 j; cbn -[Rabs]; [lra|apply Rabs_pos].
  - intros i j Hij Hj. idx2 j; idx2 i; cbn -[Rabs]; try lra; try (exfalso; lia). unfold Rabs. destruct Rcase_abs; lra.
Qed.
