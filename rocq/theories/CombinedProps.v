(** * Property theorems C02, C29, C30, C31, C59, C60: Combined_Solver.solve *)
From Coq Require Import List Arith Bool ZArith QArith Qreals Reals Lra Lia.
From Verif Require Import Num RSum Cheb Tensor PolySpec SystemSpec IntervalModel IntervalProofs Transfer SolverModel SolverTransfer ExtExample SolverProps
  CombinedModel CombinedSpec CombinedProofs CombinedTransfer.
From Verif Require PolyModel PolyCheb PolyEval PolyProps.
Import ListNotations.
Local Open Scope R_scope.

(** the call solve(funcs, a, b, exact=exact, minBoundingIntervalSize=minSize) with a list of functions *)
Notation solveR X approx exact minSize sfuel fuel l a b := (@solveTop R R_num X approx exact minSize sfuel fuel (FMany l) a b).
(** the approximations that the call uses on the boxes it searches *)
Definition approximationsUsed (approx : fobj R -> list R -> list R -> res (tensor R * R)) (P : fobj R -> list R -> list R -> tensor R -> R -> Prop)
  (l : list (fobj R)) (o : cout R) : Prop :=
  forall a b f M e, In (a, b) (cSearched o) -> In f l -> @approxFor R R_num approx f a b = Ok (M, e) -> P f a b M e.

(** ** C02 *)
Theorem C02_solve_loses_no_root :
  forall (n : nat) (X : ext R) (approx : fobj R -> list R -> list R -> res (tensor R * R)) (exact : bool) (minSize : R) (sfuel fuel : nat)
    (funcs : list (fobj R)) (a b : boundArg R) (o : cout R),
    externalsOK n X -> (0 < n)%nat -> length funcs = n -> length (boundOf n a) = n ->
    solveR X approx exact minSize sfuel fuel funcs a b = COk o ->
    approximationsUsed approx (closeOn exact n) funcs o ->
    forall x, inBox (combine (boundOf n a) (boundOf n b)) x -> commonZero funcs x ->
    exists B, In B (cBoxes o) /\ inBox B x.
Proof.
  intros n X approx exact minSize sfuel fuel funcs a b o HX Hn Hl Ha Hs HU. unfold solveTop in Hs. rewrite Hl in Hs. apply csolve_runs in Hs.
  exact (no_loss X approx exact minSize sfuel n funcs HX (conj Hn Hl) fuel _ _ o Hs Ha HU).
Qed.
Print Assumptions C02_solve_loses_no_root.

(** A worked call: f(x) = x on [-2,4].  The approximations are the exact linear polynomial with an error
    bound of the whole width when the box is longer than 4 and of a millionth of it otherwise.  The
    first search cannot shrink its box, so it is split; the root is found in the left part. *)
Section Oracle.
  Context {T} {NT : Num T}.
  Local Open Scope num_scope.
  Definition idApprox (f : fobj T) (a b : list T) : res (tensor T * T) :=
    match a, b with
    | [u], [v] => Ok (mkT [2%nat] [(u + v) / n2; (v - u) / n2], if nltb (nlit 4 1) (v - u) then v - u else (v - u) / nlit 1000000 1)
    | _, _ => Raise
    end.
  Definition minDefault : T := nlit 1 100000.
End Oracle.
Definition idRunQ : cres Q (cout Q) := @csolve Q Q_num (@ext1 Q Q_num) (@idApprox Q Q_num) false (@minDefault Q Q_num) 50 10 [Plain (fun _ => 0#1)] [(-2)#1] [4#1].
Definition idF : fobj R := Plain (fun x => nth 0 x 0).
Lemma id_hom f f' a b : fsim (h := Q2R) f f' -> hres (hte (h := Q2R)) (@idApprox Q Q_num f a b) = @idApprox R R_num f' (map Q2R a) (map Q2R b).
Proof.
  intros _. destruct a as [|u [|? ?]]; [reflexivity| |reflexivity]. destruct b as [|v [|? ?]]; [reflexivity| |reflexivity].
  cbn [idApprox map hres hte]. unfold hte, tmap. cbn [fst snd shp dat map].
  rewrite (h_ltb (NA := Q_num) (NB := R_num) (h := Q2R)). rewrite (h_lit (NA := Q_num) (NB := R_num) (h := Q2R)), (h_sub (NA := Q_num) (NB := R_num) (h := Q2R)).
  destruct (nltb _ _); rewrite !(h_div (NA := Q_num) (NB := R_num) (h := Q2R)), (h_add (NA := Q_num) (NB := R_num) (h := Q2R)), (h_sub (NA := Q_num) (NB := R_num) (h := Q2R)), ?(h_lit (NA := Q_num) (NB := R_num) (h := Q2R)), (h_2 (NA := Q_num) (NB := R_num) (h := Q2R)); reflexivity.
Qed.
Lemma map_Q2R_IZR (z : Z) : map Q2R [z # 1] = [IZR z].
Proof. cbn. unfold Q2R. cbn. f_equal. lra. Qed.
Lemma idRun : @solveTop R R_num (@ext1 R R_num) (@idApprox R R_num) false (@minDefault R R_num) 50 10 (FMany [idF]) (BScalar (-2)) (BScalar 4) = hc (h := Q2R) (hout (h := Q2R)) idRunQ.
Proof.
  unfold idRunQ. rewrite (h_csolve (NA := Q_num) (NB := R_num) (h := Q2R) Q_pos _ (@ext1 R R_num) ext1_hom (@idApprox Q Q_num) (@idApprox R R_num) id_hom _ _ 10 _ [idF]).
  - rewrite !map_Q2R_IZR. unfold minDefault at 2. rewrite (h_lit (NA := Q_num) (NB := R_num) (h := Q2R)). reflexivity.
  - constructor; constructor.
Qed.
Lemma idRunQ_ok : exists o, idRunQ = COk o /\ length (cRoots o) = 1%nat /\ length (cBoxes o) = 1%nat /\
  cSearched o = [([(-2)#1], [4#1]); ([(-2)#1], [25617456419735617 # 25000000000000000]); ([25617456419735617 # 25000000000000000], [4#1])].
Proof. eexists. split; [vm_compute; reflexivity|]. vm_compute. auto. Qed.
Lemma cheb_eval_2 c d x : cheb_eval (mkT [2%nat] [c; d]) [x] = c + d * x.
Proof. unfold cheb_eval, tget. cbn [shp dat map indices flat_map seq app Rsum fold_right basis ravel_index prodn Nat.mul Nat.add nth]. rewrite ?chebT_0, ?chebT_1. ring. Qed.
Lemma id_close u v : u < v -> forall M e, @approxFor R R_num (@idApprox R R_num) idF [u] [v] = Ok (M, e) -> closeOn false 1 idF [u] [v] M e.
Proof.
  intros Huv M e E. cbn [approxFor idF idApprox] in E. inversion E; subst M. clear E. split; [|].
  - split; [split; [reflexivity|repeat constructor]|]. split; [reflexivity|]. repeat constructor.
  - intros y [Hy1 Hy2]. destruct y as [|y [|]]; try discriminate. cbn [Nat.leb]. cbv zeta. unfold boxPoint, idF. cbn [combine map fst snd valueOf nth].
    rewrite cheb_eval_2. rnum. match goal with |- Rabs ?w < _ => replace w with 0 by field end. rewrite Rabs_R0, ?nlit_R.
    destruct (Rltb _ _); [lra|]. rnum. apply Rdiv_lt_0_compat; lra.
Qed.
Example C02_case : exists o,
  externalsOK 1 (@ext1 R R_num) /\ @solveTop R R_num (@ext1 R R_num) (@idApprox R R_num) false (@minDefault R R_num) 50 10 (FMany [idF]) (BScalar (-2)) (BScalar 4) = COk o /\
  approximationsUsed (@idApprox R R_num) (closeOn false 1) [idF] o /\ inBox [(-2, 4)] [0] /\ commonZero [idF] [0] /\
  length (cSearched o) = 3%nat /\ length (cRoots o) = 1%nat /\ length (cBoxes o) = 1%nat.
Proof.
  destruct idRunQ_ok as (o & E & A1 & A2 & A3). exists (hout (h := Q2R) o). split; [apply ext1_ok|]. rewrite idRun, E. split; [reflexivity|].
  unfold hout. cbn [cSearched cRoots cBoxes]. rewrite !map_length. split; [|split; [|split; [|split; [rewrite A3; reflexivity|split; [exact A1|exact A2]]]]].
  - intros a b f M e Hin [<-|[]]. cbn [cSearched] in Hin. rewrite A3 in Hin. cbn [map fst snd] in Hin. revert M e.
    destruct Hin as [Hin|[Hin|[Hin|[]]]]; inversion Hin; subst a b; apply id_close; apply Qlt_Rlt; reflexivity.
  - constructor; [cbn; lra|constructor].
  - intros f [<-|[]]. reflexivity.
Qed.

(** ** C59, C60 *)
(** The returned points come in non-empty groups, one group per returned box, in order; every point
    lies in its box and every box lies in the search box.  In particular there are no points exactly
    when there are no boxes. *)
Theorem C59_points_in_boxes_in_search_box :
  forall (n : nat) (X : ext R) (approx : fobj R -> list R -> list R -> res (tensor R * R)) (exact : bool) (minSize : R) (sfuel fuel : nat)
    (funcs : list (fobj R)) (a b : boundArg R) (o : cout R),
    externalsOK n X -> (0 < n)%nat -> length funcs = n -> length (boundOf n a) = n ->
    solveR X approx exact minSize sfuel fuel funcs a b = COk o ->
    approximationsUsed approx (fun _ _ _ M _ => goodShape exact n M) funcs o ->
    exists groups : list (list (list R)), concat groups = cRoots o /\
      Forall2 (fun B g => subBox B (combine (boundOf n a) (boundOf n b)) /\ g <> [] /\ Forall (fun r => inBox B r) g) (cBoxes o) groups.
Proof.
  intros n X approx exact minSize sfuel fuel funcs a b o HX Hn Hl Ha Hs HU. unfold solveTop in Hs. rewrite Hl in Hs. apply csolve_runs in Hs.
  destruct (runs_grouped X approx exact minSize sfuel n funcs HX (conj Hn Hl) fuel _ _ o Hs Ha HU) as (g & E & HF). exists g. split; auto.
  eapply Forall2_impl_in; [exact HF|]. cbv beta. tauto.
Qed.
Print Assumptions C59_points_in_boxes_in_search_box.
Theorem C59_no_points_iff_no_boxes :
  forall (X : ext R) (approx : fobj R -> list R -> list R -> res (tensor R * R)) (exact : bool) (minSize : R) (sfuel fuel : nat)
    (funcs : list (fobj R)) (a b : boundArg R) (o : cout R),
    solveR X approx exact minSize sfuel fuel funcs a b = COk o -> (cRoots o = [] <-> cBoxes o = []).
Proof. intros. unfold solveTop in H. apply csolve_runs in H. exact (runs_empty _ _ _ _ _ _ _ _ _ _ H). Qed.
Print Assumptions C59_no_points_iff_no_boxes.
(** Every returned box is, along some axis, at most minBoundingIntervalSize long, relative to the
    largest of 1 and the magnitudes of the two search bounds of that axis. *)
Theorem C60_returned_boxes_are_small :
  forall (n : nat) (X : ext R) (approx : fobj R -> list R -> list R -> res (tensor R * R)) (exact : bool) (minSize : R) (sfuel fuel : nat)
    (funcs : list (fobj R)) (a b : boundArg R) (o : cout R),
    externalsOK n X -> (0 < n)%nat -> length funcs = n -> length (boundOf n a) = n -> 0 <= minSize ->
    solveR X approx exact minSize sfuel fuel funcs a b = COk o ->
    approximationsUsed approx (fun _ _ _ M _ => goodShape exact n M) funcs o ->
    forall B, In B (cBoxes o) -> exists d, (d < n)%nat /\
      snd (nth d B (0, 0)) - fst (nth d B (0, 0)) <= minSize * Rmax (Rmax (Rabs (nth d (boundOf n a) 0)) (Rabs (nth d (boundOf n b) 0))) 1.
Proof.
  intros n X approx exact minSize sfuel fuel funcs a b o HX Hn Hl Ha Hm Hs HU B HB. unfold solveTop in Hs. rewrite Hl in Hs. apply csolve_runs in Hs.
  pose proof (runs_ordered _ _ _ _ _ _ _ _ _ _ Hs) as [HL _].
  destruct (runs_grouped X approx exact minSize sfuel n funcs HX (conj Hn Hl) fuel _ _ o Hs Ha HU) as (g & E & HF).
  destruct (Forall2_in_l _ _ _ _ HF HB) as (g' & _ & _ & _ & _ & Hex). specialize (Hex Hm). clear - Hex Ha HL. revert HL Ha Hex. generalize (boundOf n a) (boundOf n b). intros av bv HL Ha Hex.
  apply (Exists_nth _ _) in Hex as (d & p0 & Hd & Hp). rewrite !combine_length in Hd. exists d. split; [lia|].
  rewrite (nth_indep _ p0 ((0, 0), (0, 0))) in Hp by (rewrite !combine_length; lia). 
  assert (HB : length (combine av bv) = length B \/ True) by auto. clear HB.
  assert (EN : forall (l1 : list (R * R)) (l2 : list (R * R)) k, (k < length l1)%nat -> (k < length l2)%nat -> nth k (combine l1 l2) (0, 0, (0, 0)) = (nth k l1 (0, 0), nth k l2 (0, 0))).
  { induction l1 as [|x l1 IH]; intros [|y l2] k H1 H2; cbn in *; try lia. destruct k; auto. apply IH; lia. }
  rewrite EN in Hp by (rewrite ?combine_length; lia). cbn [fst snd] in Hp. rewrite combine_nth in Hp by auto. exact Hp.
Qed.
Print Assumptions C60_returned_boxes_are_small.
Example C59_C60_case : exists o,
  externalsOK 1 (@ext1 R R_num) /\ @solveTop R R_num (@ext1 R R_num) (@idApprox R R_num) false (@minDefault R R_num) 50 10 (FMany [idF]) (BScalar (-2)) (BScalar 4) = COk o /\
  approximationsUsed (@idApprox R R_num) (fun _ _ _ M _ => goodShape false 1 M) [idF] o /\ 0 <= @minDefault R R_num /\ length (cBoxes o) = 1%nat.
Proof.
  destruct C02_case as (o & A1 & A2 & A3 & _ & _ & _ & _ & A4). exists o. split; auto. split; auto. split; [|split; auto].
  - intros a b f M e H1 H2 H3. apply (A3 a b f M e H1 H2 H3).
  - unfold minDefault. rewrite nlit_R. lra.
Qed.

(** ** C29 *)
(** the outcomes of a call that are ValueErrors raised by solve itself *)
Definition isValueError (r : cres R (cout R)) : Prop := r = CNotCallable \/ r = CBadLengths \/ exists a b, r = CInverted a b.
Definition argumentsOK (l : list (fobj R)) (a b : list R) : Prop := Forall (fun f => f <> NotCallable) l /\ ordered a b.
Lemma callable_iff l : forallb isCallable l = true <-> Forall (fun f => f <> NotCallable) l.
Proof.
  rewrite forallb_forall, Forall_forall. split; intros H f Hf; specialize (H f Hf); destruct f; auto; discriminate.
Qed.
(** Anything wrong with the arguments raises ValueError, before any function is evaluated (whatever
    the approximator and the solver would do). *)
Theorem C29_invalid_arguments_raise :
  forall (X : ext R) (approx : fobj R -> list R -> list R -> res (tensor R * R)) (exact : bool) (minSize : R) (sfuel fuel : nat)
    (funcs : list (fobj R)) (a b : boundArg R),
    ~ argumentsOK funcs (boundOf (length funcs) a) (boundOf (length funcs) b) ->
    isValueError (solveR X approx exact minSize sfuel (S fuel) funcs a b).
Proof.
  intros X approx exact minSize sfuel fuel funcs a b H. unfold solveTop. cbn [csolve].
  destruct (existsb _ funcs) eqn:E1; [left; auto|]. destruct (negb _) eqn:E2; [right; left; auto|]. destruct (existsb _ (combine _ _)) eqn:E3; [right; right; eauto|].
  exfalso. apply H. split; [|split].
  - apply Forall_forall. intros f Hf ->. enough (existsb (fun f : fobj R => match f with NotCallable => true | _ => false end) funcs = true) by congruence. apply existsb_exists. eauto.
  - apply negb_false_iff, Nat.eqb_eq in E2. auto.
  - apply order_test; auto.
Qed.
Print Assumptions C29_invalid_arguments_raise.
Example C29_invalid_case : ~ argumentsOK [idF; NotCallable] [0; 0] [1; 1] /\ ~ argumentsOK [idF; idF] [0; 0] [1] /\ ~ argumentsOK [idF; idF] [0; 2] [1; 1].
Proof.
  split; [|split].
  - intros [H _]. apply Forall_cons_iff in H as [_ H]. apply Forall_cons_iff in H as [H _]. auto.
  - intros [_ [H _]]. discriminate.
  - intros [_ [_ H]]. cbn [combine] in H. apply Forall_cons_iff in H as [_ H]. apply Forall_cons_iff in H as [H _]. cbn in H. lra.
Qed.
(** With valid arguments the only ValueError that solve itself can raise comes from one of its own
    recursive calls: some box [a1,b1] was split at 0.51234912839471234 (a1 + b1), a point outside of it
    along some axis, and the part [a2,b2] has its bounds in the wrong order. *)
Definition splitAt (u v : R) : R := (u + v) * (51234912839471234 / 100000000000000000).
Definition splitOutside (n : nat) (a2 b2 : list R) : Prop :=
  exists a1 b1, length a1 = n /\ ordered a1 b1 /\
    Exists (fun p => ~ (fst p <= splitAt (fst p) (snd p) <= snd p)) (combine a1 b1) /\
    Forall2 (fun p q => q = (fst p, splitAt (fst p) (snd p)) \/ q = (splitAt (fst p) (snd p), snd p)) (combine a1 b1) (combine a2 b2).
Lemma splitAt_eq u v : @splitPoint R R_num u v = splitAt u v.
Proof. unfold splitPoint, splitAt. rewrite nlit_R. rnum. reflexivity. Qed.
Lemma bad_outside n a2 b2 : badPart n a2 b2 -> splitOutside n a2 b2.
Proof.
  intros (a1 & b1 & val & H1 & H2 & H3 & H4 & H5). exists a1, b1. split; auto. split; auto. split.
  - apply Exists_Forall_neg; [|intros H; apply H5; eapply Forall_impl; [|exact H]; cbv beta; intros p Hp; rewrite <- !splitAt_eq in Hp; exact Hp].
    intros p. destruct (Rle_dec (fst p) (splitAt (fst p) (snd p))), (Rle_dec (splitAt (fst p) (snd p)) (snd p)); tauto.
  - pose proof (f_equal fst H4) as F1. pose proof (f_equal snd H4) as F2. cbn [fst snd] in F1, F2. subst a2 b2.
    clear H4 H5. destruct H2 as [H2 _]. rewrite <- H1 in H3. clear H1. revert b1 val H2 H3. induction a1 as [|u a1 IH]; intros [|v b1] [|c val] H2 H3; try discriminate; [constructor|].
    rewrite split_cons. cbn [fst snd combine]. constructor; [|apply IH; auto]. cbn [fst snd]. rewrite splitAt_eq. destruct c; auto.
Qed.
Theorem C29_valid_arguments_are_accepted :
  forall (n : nat) (X : ext R) (approx : fobj R -> list R -> list R -> res (tensor R * R)) (exact : bool) (minSize : R) (sfuel fuel : nat)
    (funcs : list (fobj R)) (a b : boundArg R),
    externalsOK n X -> (0 < n)%nat -> length funcs = n -> length (boundOf n a) = n -> argumentsOK funcs (boundOf n a) (boundOf n b) ->
    (forall f a' b' M e, In f funcs -> ordered a' b' -> length a' = n -> @approxFor R R_num approx f a' b' = Ok (M, e) -> goodShape exact n M) ->
    isValueError (solveR X approx exact minSize sfuel fuel funcs a b) ->
    exists a2 b2, solveR X approx exact minSize sfuel fuel funcs a b = CInverted a2 b2 /\ splitOutside n a2 b2.
Proof.
  intros n X approx exact minSize sfuel fuel funcs a b HX Hn Hl Ha [Hc Ho] Hsh. unfold solveTop. rewrite Hl. apply callable_iff in Hc.
  pose proof (stops X approx exact minSize sfuel n funcs HX (conj Hn Hl) Hsh Hc fuel _ _ Ho Ha) as HI.
  intros [E|[E|(a2 & b2 & E)]]; rewrite E in *; [contradiction|contradiction|]. exists a2, b2. split; auto. apply bad_outside; auto.
Qed.
Print Assumptions C29_valid_arguments_are_accepted.
Example C29_valid_case : externalsOK 1 (@ext1 R R_num) /\ argumentsOK [idF] [-2] [4] /\
  (forall f a' b' M e, In f [idF] -> ordered a' b' -> length a' = 1%nat -> @approxFor R R_num (@idApprox R R_num) f a' b' = Ok (M, e) -> goodShape false 1 M).
Proof.
  split; [apply ext1_ok|]. split.
  - split; [constructor; [discriminate|constructor]|]. split; [reflexivity|]. constructor; [cbn; lra|constructor].
  - intros f a b M e [<-|[]] [L _] Ha E. destruct a as [|u [|]]; try discriminate. destruct b as [|v [|]]; try discriminate. cbn [approxFor idF idApprox] in E. inversion E.
    split; [split; [reflexivity|repeat constructor]|]. split; [reflexivity|]. repeat constructor.
Qed.
(** A number given as a bound stands for an array of that number, one entry per function; a single
    function stands for a list with that function. *)
Theorem C29_scalars_are_broadcast :
  forall (X : ext R) (approx : fobj R -> list R -> list R -> res (tensor R * R)) (exact : bool) (minSize : R) (sfuel fuel : nat)
    (funcs : list (fobj R)) (a b : boundArg R) (la lb : list R),
    (forall v, a = BScalar v -> length la = length funcs /\ Forall (eq v) la) -> (forall l, a = BVec l -> la = l) ->
    (forall v, b = BScalar v -> length lb = length funcs /\ Forall (eq v) lb) -> (forall l, b = BVec l -> lb = l) ->
    solveR X approx exact minSize sfuel fuel funcs a b = solveR X approx exact minSize sfuel fuel funcs (BVec la) (BVec lb) /\
    forall f, funcs = [f] -> @solveTop R R_num X approx exact minSize sfuel fuel (FOne f) a b = solveR X approx exact minSize sfuel fuel funcs a b.
Proof.
  intros X approx exact minSize sfuel fuel funcs a b la lb A1 A2 B1 B2.
  assert (E : forall (c : boundArg R) (lc : list R), (forall v, c = BScalar v -> length lc = length funcs /\ Forall (eq v) lc) -> (forall l, c = BVec l -> lc = l) -> boundOf (length funcs) c = lc).
  { intros [v|l] lc H1 H2; cbn [boundOf]; [|symmetry; auto]. destruct (H1 v eq_refl) as [<- HF]. clear - HF. induction HF; cbn; f_equal; auto. }
  split; [unfold solveTop; cbn [boundOf]; rewrite (E a la), (E b lb); auto|]. intros f ->. reflexivity.
Qed.
Print Assumptions C29_scalars_are_broadcast.
Example C29_scalar_case : length [-2; -2] = length [idF; idF] /\ Forall (eq (-2)) [-2; -2].
Proof. split; auto. Qed.

(** ** C30 *)
(** the split point is inside the interval exactly under this condition; it is when 0 is *)
Theorem C30_split_point_inside_iff :
  forall a b, a <= b ->
    (a <= splitAt a b <= b <-> 48765087160528766 * a <= 51234912839471234 * b /\ 51234912839471234 * a <= 48765087160528766 * b) /\
    (a <= 0 <= b -> a <= splitAt a b <= b).
Proof. intros a b Hab. unfold splitAt. split; [split; intros; lra|]. intros H. lra. Qed.
Print Assumptions C30_split_point_inside_iff.
Example C30_split_case : -2 <= splitAt (-2) 4 <= 4 /\ ~ (100 <= splitAt 100 101 <= 101).
Proof. unfold splitAt. lra. Qed.
(** A call that returns has only searched boxes inside the search box. *)
Theorem C30_returning_calls_search_inside :
  forall (n : nat) (X : ext R) (approx : fobj R -> list R -> list R -> res (tensor R * R)) (exact : bool) (minSize : R) (sfuel fuel : nat)
    (funcs : list (fobj R)) (a b : boundArg R) (o : cout R),
    externalsOK n X -> (0 < n)%nat -> length funcs = n -> length (boundOf n a) = n ->
    solveR X approx exact minSize sfuel fuel funcs a b = COk o ->
    approximationsUsed approx (fun _ _ _ M _ => goodShape exact n M) funcs o ->
    forall a' b', In (a', b') (cSearched o) -> length a' = length b' /\ subBox (combine a' b') (combine (boundOf n a) (boundOf n b)).
Proof.
  intros n X approx exact minSize sfuel fuel funcs a b o HX Hn Hl Ha Hs HU a' b' Hin. unfold solveTop in Hs. rewrite Hl in Hs. apply csolve_runs in Hs.
  destruct (searched_in X approx exact minSize sfuel n funcs HX (conj Hn Hl) fuel _ _ o Hs Ha HU a' b' Hin) as [[H1 _] H2]. auto.
Qed.
Print Assumptions C30_returning_calls_search_inside.
(** On [100,101], with valid arguments, functions and approximations within their error bounds on
    every box, solve raises ValueError: it has searched [100, 102.98..] and then calls itself on
    [102.98.., 101].  The function is 2x - 198, which has no zero there. *)
Section Oracle2.
  Context {T} {NT : Num T}.
  Local Open Scope num_scope.
  Definition shApprox (f : fobj T) (a b : list T) : res (tensor T * T) :=
    match a, b with
    | [u], [v] => Ok (mkT [2%nat] [(u + v) - nlit 198 1; v - u], if nltb (v - u) (nlit 3 2) then nlit 5 1 else n1)
    | _, _ => Raise
    end.
End Oracle2.
Definition shF : fobj R := Plain (fun x => 2 * nth 0 x 0 - 198).
Definition shRunQ : cres Q (cout Q) := @csolve Q Q_num (@ext1 Q Q_num) (@shApprox Q Q_num) false (@minDefault Q Q_num) 50 10 [Plain (fun _ => 0#1)] [100#1] [101#1].
Lemma sh_hom f f' a b : fsim (h := Q2R) f f' -> hres (hte (h := Q2R)) (@shApprox Q Q_num f a b) = @shApprox R R_num f' (map Q2R a) (map Q2R b).
Proof.
  intros _. destruct a as [|u [|? ?]]; [reflexivity| |reflexivity]. destruct b as [|v [|? ?]]; [reflexivity| |reflexivity].
  cbn [shApprox map hres hte]. unfold hte, tmap. cbn [fst snd shp dat map].
  rewrite (h_ltb (NA := Q_num) (NB := R_num) (h := Q2R)). rewrite (h_lit (NA := Q_num) (NB := R_num) (h := Q2R)), !(h_sub (NA := Q_num) (NB := R_num) (h := Q2R)).
  destruct (nltb _ _); rewrite (h_add (NA := Q_num) (NB := R_num) (h := Q2R)), ?(h_lit (NA := Q_num) (NB := R_num) (h := Q2R)), ?(h_1 (NA := Q_num) (NB := R_num) (h := Q2R)); reflexivity.
Qed.
Theorem C30_split_stays_in_box_refuted :
  exists (X : ext R) (approx : fobj R -> list R -> list R -> res (tensor R * R)) (f : list R -> R),
    externalsOK 1 X /\
    (forall u v M e, u <= v -> @approxFor R R_num approx (Plain f) [u] [v] = Ok (M, e) -> closeOn false 1 (Plain f) [u] [v] M e) /\
    @solveTop R R_num X approx false (1 / 100000) 50 10 (FMany [Plain f]) (BVec [100]) (BVec [101]) = CInverted [splitAt 100 101] [101].
Proof.
  exists (@ext1 R R_num), (@shApprox R R_num), (fun x => 2 * nth 0 x 0 - 198). split; [apply ext1_ok|]. split.
  - intros u v M e Huv E. cbn [approxFor shApprox] in E. inversion E; subst M. clear E. split; [|].
    + split; [split; [reflexivity|repeat constructor]|]. split; [reflexivity|]. repeat constructor.
    + intros y [Hy1 Hy2]. destruct y as [|y [|]]; try discriminate. cbn [Nat.leb]. cbv zeta. unfold boxPoint. cbn [combine map fst snd valueOf nth].
      rewrite cheb_eval_2. rnum. rewrite ?nlit_R. match goal with |- Rabs ?w < _ => replace w with 0 by field end. rewrite Rabs_R0.
      destruct (Rltb _ _); lra.
  - assert (E : shRunQ = CInverted [5149108740366859017 # 50000000000000000] [101#1]) by (vm_compute; reflexivity).
    assert (ER : hc (h := Q2R) (hout (h := Q2R)) shRunQ = @solveTop R R_num (@ext1 R R_num) (@shApprox R R_num) false (1 / 100000) 50 10 (FMany [shF]) (BVec [100]) (BVec [101])).
    { unfold shRunQ. rewrite (h_csolve (NA := Q_num) (NB := R_num) (h := Q2R) Q_pos _ (@ext1 R R_num) ext1_hom (@shApprox Q Q_num) (@shApprox R R_num) sh_hom _ _ 10 _ [shF]).
      - rewrite !map_Q2R_IZR. unfold minDefault. rewrite (h_lit (NA := Q_num) (NB := R_num) (h := Q2R)), nlit_R. reflexivity.
      - constructor; constructor. }
    rewrite E in ER. cbn [hc] in ER. etransitivity; [symmetry; exact ER|]. rewrite (map_Q2R_IZR 101). f_equal. unfold splitAt, Q2R. cbn. f_equal. lra.
Qed.
Print Assumptions C30_split_stays_in_box_refuted.

(** ** C31 *)
(** On the exact unit box the approximations made for polynomial objects are the objects themselves:
    they are close (with the error 2^-52 that is reported) whenever the object has a good shape. *)
Theorem C31_unit_box_is_exact :
  forall (exact : bool) (n : nat) (approx : fobj R -> list R -> list R -> res (tensor R * R)) (f : fobj R) (t M : tensor R) (e : R),
    f = MCheb t \/ f = MPower t -> goodShape exact n t ->
    @approxFor R R_num approx f (repeat (-1) n) (repeat 1 n) = Ok (M, e) ->
    closeOn exact n f (repeat (-1) n) (repeat 1 n) M e.
Proof.
  intros exact n approx f t M e Hf Ht E.
  assert (HU : @nearUnit R R_num (repeat (-1) n) (repeat 1 n) = true).
  { unfold nearUnit. apply andb_true_intro. split; apply forallb_forall; intros v Hv; apply repeat_spec in Hv; subst v; unfold close1; apply Rleb_true; rewrite !nlit_R; rnum.
    - replace (-1 - - (1)) with 0 by ring. rewrite Rabs_R0, Rabs_Ropp, Rabs_R1. lra.
    - replace (1 - 1) with 0 by ring. rewrite Rabs_R0, Rabs_R1. lra. }
  assert (HP : forall y, in_cube n y -> boxPoint (repeat (-1) n) (repeat 1 n) y = y).
  { intros y [Hy _]. clear - Hy. subst n. unfold boxPoint. induction y as [|v y IH]; cbn [length repeat combine map fst snd]; auto. f_equal; auto. field. }
  assert (Hpos : 0 < @nlit R R_num 1 4503599627370496) by (rewrite nlit_R; lra).
  assert (K : forall g : list R -> R, (forall y, in_cube n y -> g y = cheb_eval M y) -> e = @nlit R R_num 1 4503599627370496 ->
     forall y, in_cube n y -> let d := Rabs (g (boxPoint (repeat (-1) n) (repeat 1 n) y) - cheb_eval M y) in if (n <=? 3)%nat then d < e else d <= e).
  { intros g Hg -> y Hy. cbv zeta. rewrite (HP y Hy), (Hg y Hy), Rminus_diag_eq, Rabs_R0 by auto. destruct (n <=? 3)%nat; lra. }
  destruct Hf as [-> | ->]; cbn [approxFor] in E; rewrite HU in E; apply (f_equal (fun r => match r with Ok p => p | _ => (M, e) end)) in E; apply (f_equal fst) in E as H0; apply (f_equal snd) in E as H1; cbn [fst snd] in H0, H1.
  - rewrite <- H0 in *. split; [auto|]. intros y Hy. exact (K (cheb_eval t) (fun _ _ => eq_refl) (eq_sym H1) y Hy).
  - destruct Ht as (W & D & S).
    assert (S' : wf (@PolyModel.toCheb R R_num t) /\ shp (@PolyModel.toCheb R R_num t) = shp t).
    { destruct (PolyCheb.toCheb_ok t (repeat 0 n) W) as (A1 & A2 & _); [rewrite repeat_length; auto|]. auto. }
    destruct S' as [S1 S2]. rewrite H0 in S1, S2. split.
    + split; auto. unfold ndim. rewrite S2. auto.
    + intros y0 Hy0. refine (K (power_eval t) _ (eq_sym H1) y0 Hy0). intros y Hy. rewrite <- H0. symmetry. apply PolyProps.C43_to_cheb_is_exact; auto. rewrite D. apply Hy.
Qed.
Print Assumptions C31_unit_box_is_exact.
Example C31_unit_case : goodShape false 2 (mkT [2; 3]%nat [0; 1; 0; 2; 0; 1]) /\
  @approxFor R R_num (fun _ _ _ => Raise) (MCheb (mkT [2; 3]%nat [0; 1; 0; 2; 0; 1])) (repeat (-1) 2) (repeat 1 2) = Ok (mkT [2; 3]%nat [0; 1; 0; 2; 0; 1], @nlit R R_num 1 4503599627370496).
Proof.
  split.
  - split; [split; [reflexivity|repeat constructor; lia]|]. split; [reflexivity|]. repeat constructor.
  - cbn [approxFor]. replace (nearUnit _ _) with true; [reflexivity|]. symmetry. unfold nearUnit. cbn [repeat forallb]. unfold close1. rewrite !andb_true_r. repeat (apply andb_true_intro; split); apply Rleb_true; rewrite !nlit_R; rnum.
    all: try (replace (-1 - - (1)) with 0 by ring; rewrite Rabs_R0, Rabs_Ropp, Rabs_R1; lra).
    all: replace (1 - 1) with 0 by ring; rewrite Rabs_R0, Rabs_R1; lra.
Qed.

(** Bounds that are only close to the unit box: on [-1, 1.000001]
    - MultiCheb x - 1.0000005 has its zero in the box, and solve returns nothing;
    - MultiCheb x is reported to have a zero at 0.0000005 only, in a box that does not contain 0. *)
Definition ncQ (c : Q) : cres Q (cout Q) := @csolve Q Q_num (@ext1 Q Q_num) (fun _ _ _ => Raise) false (@minDefault Q Q_num) 50 10 [MCheb (mkT [2%nat] [c; 1#1])] [(-1)#1] [1000001 # 1000000].
Lemma nc_run c : @solveTop R R_num (@ext1 R R_num) (fun _ _ _ => Raise) false (1 / 100000) 50 10 (FMany [MCheb (mkT [2%nat] [Q2R c; Q2R (1#1)])]) (BVec [-1]) (BVec [1000001 / 1000000]) = hc (h := Q2R) (hout (h := Q2R)) (ncQ c).
Proof.
  unfold ncQ. rewrite (h_csolve (NA := Q_num) (NB := R_num) (h := Q2R) Q_pos _ (@ext1 R R_num) ext1_hom (fun _ _ _ => Raise) (fun _ _ _ => Raise) ltac:(intros; reflexivity) _ _ 10 _ [MCheb (mkT [2%nat] [Q2R c; Q2R (1#1)])]).
  - rewrite !map_Q2R_IZR. unfold minDefault. rewrite (h_lit (NA := Q_num) (NB := R_num) (h := Q2R)), nlit_R. reflexivity.
  - constructor; [|constructor]. exact (sim_cheb (mkT [2%nat] [c; 1#1])).
Qed.
Theorem C31_nearly_unit_box_refuted :
  exists (X : ext R), externalsOK 1 X /\
   (exists t x o, @solveTop R R_num X (fun _ _ _ => Raise) false (1 / 100000) 50 10 (FMany [MCheb t]) (BVec [-1]) (BVec [1000001 / 1000000]) = COk o /\
      -1 <= x <= 1000001 / 1000000 /\ cheb_eval t [x] = 0 /\ cBoxes o = [] /\ cRoots o = []) /\
   (exists t r B o, @solveTop R R_num X (fun _ _ _ => Raise) false (1 / 100000) 50 10 (FMany [MCheb t]) (BVec [-1]) (BVec [1000001 / 1000000]) = COk o /\
      (forall x, cheb_eval t [x] = x) /\ cRoots o = [[r]] /\ r = 5 / 10000000 /\ cBoxes o = [B] /\ ~ inBox B [0]).
Proof.
  exists (@ext1 R R_num). split; [apply ext1_ok|]. split.
  - assert (E : ncQ (- (10000005 # 10000000)) = COk (mkOut [] [] [([(-1)#1], [1000001 # 1000000])])) by (vm_compute; reflexivity).
    exists (mkT [2%nat] [Q2R (- (10000005 # 10000000)); Q2R (1#1)]), (10000005 / 10000000). eexists. rewrite nc_run, E. split; [reflexivity|]. split; [lra|]. split; [|split; reflexivity].
    rewrite cheb_eval_2. unfold Q2R. cbn. lra.
  - assert (E : exists lo hi s, ncQ (0#1) = COk (mkOut [[1 # 2000000]] [[(lo, hi)]] s) /\ negb (Qle_bool lo (0#1)) = true).
    { eexists _, _, _. split; [vm_compute; reflexivity|]. reflexivity. }
    destruct E as (lo & hi & s & E & Hlo). exists (mkT [2%nat] [Q2R (0#1); Q2R (1#1)]), (Q2R (1 # 2000000)), [(Q2R lo, Q2R hi)]. eexists. rewrite nc_run, E. split; [reflexivity|].
    split; [intros x; rewrite cheb_eval_2; unfold Q2R; cbn; lra|]. split; [reflexivity|]. split; [unfold Q2R; cbn; lra|]. split; [reflexivity|].
    intros H. unfold inBox in H. inversion H; subst. match goal with K : fst _ <= 0 <= _ |- _ => destruct K as [H1 _] end. cbn [fst] in H1. rewrite Q2R_ltb in Hlo. apply Rltb_true in Hlo. unfold Q2R at 1 in Hlo. cbn in Hlo. lra.
Qed.
Print Assumptions C31_nearly_unit_box_refuted.
