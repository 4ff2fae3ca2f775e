(** * Properties C67-C70: zeros of one polynomial in one variable (OneDimension.py) *)
From Coq Require Import List Arith Reals ZArith Lia Lra IndefiniteDescription.
From Coquelicot Require Import Complex.
From Verif Require Import Num OneDSpec OneDModel OneDProofs OneDLink.
Import ListNotations.
Local Open Scope R_scope.
Local Open Scope C_scope.

(** The contracts of numpy's eigvals and scipy's eig, used below for every matrix, can be met. *)
Lemma exact_eigenvalue_routines_exist :
  exists eigvals eigLeft, (forall n M, spectrum n M (eigvals n M)) /\ (forall n M, leftSpectrum n M (eigLeft n M)).
Proof.
  exists (fun n M => proj1_sig (constructive_indefinite_description _ (spectrum_exists n M))).
  exists (fun n M => proj1_sig (constructive_indefinite_description _ (leftSpectrum_exists n M))).
  split; intros n M; destruct (constructive_indefinite_description _ _); auto.
Qed.

(** C67: solve on a power polynomial whose last coefficient is not zero returns exactly its complex zeros
    (no inf or nan, nothing else), for both matrices and both ways to read the zeros. *)
Theorem C67_power_zeros :
  forall eigvals eigLeft (coeff : list R) (MSmatrix : Z) (useEigvals : bool),
    last coeff 0%R <> 0%R -> (MSmatrix = 0 \/ MSmatrix = -1)%Z ->
    (forall n M, spectrum n M (eigvals n M)) -> (forall n M, leftSpectrum n M (eigLeft n M)) ->
    exists l, solve1D eigvals eigLeft Power Floats coeff MSmatrix useEigvals = Other (Zeros l) /\
      forall o, In o l <-> exists z, o = Some z /\ powerValue coeff z = 0.
Proof. exact solve_power_exact. Qed.
Print Assumptions C67_power_zeros.

(** the zero at the origin is listed with its multiplicity *)
Theorem C67_multiplicity_at_origin :
  forall eigvals eigLeft (coeff : list R) (MSmatrix : Z) (useEigvals : bool),
    last coeff 0%R <> 0%R -> (MSmatrix = 0 \/ MSmatrix = -1)%Z ->
    (forall n M, spectrum n M (eigvals n M)) -> (forall n M, leftSpectrum n M (eigLeft n M)) ->
    exists k q l, solve1D eigvals eigLeft Power Floats coeff MSmatrix useEigvals = Other (Zeros (repeat (Some (RtoC 0)) k ++ l)) /\
      ~ In (Some (RtoC 0)) l /\ (forall z, powerValue coeff z = cpow z k * powerValue q z) /\ powerValue q 0 <> 0.
Proof. exact solve_power_split. Qed.
Print Assumptions C67_multiplicity_at_origin.

(** with a zero last coefficient (clean_zeros=False) the origin is reported although it is not a zero *)
Theorem C67_zero_last_coefficient_refuted :
  exists coeff, forall eigvals eigLeft MSmatrix useEigvals, (MSmatrix = 0 \/ MSmatrix = -1)%Z ->
    exists l, solve1D eigvals eigLeft Power Floats coeff MSmatrix useEigvals = Other (Zeros l) /\
      In (Some (RtoC 0)) l /\ powerValue coeff 0 <> 0.
Proof.
  exists [1%R; 0%R]. intros eigvals eigLeft ms u Hms. exists [Some (RtoC 0)].
  assert (Et : trimZeros [1%R; 0%R] = [1%R]).
  { unfold trimZeros. simpl. destruct (Req_EM_T 1 0); [lra|]. simpl. destruct (Req_EM_T 0 0); [|lra]. destruct (Req_EM_T 1 0); [lra|]. reflexivity. }
  split; [|split; [left; reflexivity|]].
  - unfold solve1D. rewrite Et. destruct Hms as [->| ->]; reflexivity.
  - unfold powerValue. simpl. intros E. apply C1_nz. etransitivity; [|exact E]. ring.
Qed.
Print Assumptions C67_zero_last_coefficient_refuted.

(** x^3 - x: 1 is found, 2 is not *)
Example C67_case :
  exists eigvals eigLeft, (forall n M, spectrum n M (eigvals n M)) /\ (forall n M, leftSpectrum n M (eigLeft n M)) /\
    exists l, solve1D eigvals eigLeft Power Floats [0; -1; 0; 1]%R (-1) false = Other (Zeros l) /\
      In (Some (RtoC 0)) l /\ In (Some (RtoC 1)) l /\ In (Some (RtoC (-1))) l /\ ~ In (Some (RtoC 2)) l.
Proof.
  destruct exact_eigenvalue_routines_exist as [e [f [He Hf]]]. exists e, f. split; auto. split; auto.
  destruct (C67_power_zeros e f [0; -1; 0; 1]%R (-1) false ltac:(simpl; lra) ltac:(auto) He Hf) as [l [E H]].
  exists l. split; auto. unfold powerValue in H. simpl in H.
  repeat split; try (apply H; eexists; split; [reflexivity|]; unfold Cplus, Cmult, RtoC; simpl; f_equal; lra).
  intros Hin. apply H in Hin. destruct Hin as [z [Ez Hz]]. injection Ez as <-. unfold Cplus, Cmult, RtoC in Hz. simpl in Hz.
  injection Hz. lra.
Qed.

(** C68: solve on a Chebyshev series, default matrix *)
Theorem C68_chebyshev_zeros :
  forall eigvals eigLeft (coeff : list R) (useEigvals : bool),
    last coeff 0%R <> 0%R ->
    (forall n M, spectrum n M (eigvals n M)) -> (forall n M, leftSpectrum n M (eigLeft n M)) ->
    exists l, solve1D eigvals eigLeft Chebyshev Floats coeff 0 useEigvals = Other (Zeros l) /\
      forall o, In o l <-> exists z, o = Some z /\ chebValue coeff z = 0.
Proof.
  intros e f coeff u H He Hf. destruct (multCheb_exact e f coeff u H He Hf) as [l [E Hl]].
  exists l. split; [|exact Hl]. unfold solve1D. cbn [Z.eqb orb negb]. now rewrite E.
Qed.
Print Assumptions C68_chebyshev_zeros.

(** T_2 + 1 = 2 x^2 *)
Example C68_case :
  exists eigvals eigLeft, (forall n M, spectrum n M (eigvals n M)) /\ (forall n M, leftSpectrum n M (eigLeft n M)) /\
    exists l, solve1D eigvals eigLeft Chebyshev Floats [1; 0; 1]%R 0 false = Other (Zeros l) /\
      In (Some (RtoC 0)) l /\ ~ In (Some (RtoC 1)) l.
Proof.
  destruct exact_eigenvalue_routines_exist as [e [f [He Hf]]]. exists e, f. split; auto. split; auto.
  destruct (C68_chebyshev_zeros e f [1; 0; 1]%R false ltac:(simpl; lra) He Hf) as [l [E H]].
  exists l. split; auto. unfold chebValue, chebT in H. simpl in H. split.
  - apply H. eexists. split; [reflexivity|]. unfold Cplus, Cminus, Copp, Cmult, RtoC; simpl; f_equal; lra.
  - intros Hin. apply H in Hin. destruct Hin as [z [Ez Hz]]. injection Ez as <-. unfold Cplus, Cminus, Copp, Cmult, RtoC in Hz. simpl in Hz.
    injection Hz. lra.
Qed.

(** C69: solve on a Chebyshev series with the division matrix: exactly the zeros when the origin is not one of them *)
Theorem C69_division_matrix_zeros :
  forall eigvals eigLeft (coeff : list R) (useEigvals : bool),
    last coeff 0%R <> 0%R -> (2 <= length coeff)%nat -> chebValue coeff 0 <> 0 ->
    (forall n M, spectrum n M (eigvals n M)) -> (forall n M, leftSpectrum n M (eigLeft n M)) ->
    exists l, solve1D eigvals eigLeft Chebyshev Floats coeff (-1) useEigvals = Other (Zeros l) /\
      forall o, In o l <-> exists z, o = Some z /\ chebValue coeff z = 0.
Proof.
  intros e f coeff u H Hlen H0 He Hf. destruct (divCheb_exact e f coeff u H Hlen H0 He Hf) as [l [E Hl]].
  exists l. split; [|exact Hl]. unfold solve1D. cbn [Z.eqb orb negb]. now rewrite E.
Qed.
Print Assumptions C69_division_matrix_zeros.

(** when the origin is a zero no other zero is ever returned, whatever eigvals returns *)
Theorem C69_zero_at_origin_refuted :
  forall eigvals eigLeft (coeff : list R),
    last coeff 0%R <> 0%R -> (3 <= length coeff)%nat -> chebValue coeff 0 = 0 ->
    exists l, solve1D eigvals eigLeft Chebyshev Floats coeff (-1) true = Other (Zeros l) /\
      forall o, In o l -> o = None \/ o = Some (RtoC 0).
Proof.
  intros e f coeff H Hlen H0. destruct (divCheb_zero_at_origin e f coeff H Hlen H0) as [l [E Hl]].
  exists l. split; [|exact Hl]. unfold solve1D. cbn [Z.eqb orb negb]. now rewrite E.
Qed.
Print Assumptions C69_zero_at_origin_refuted.

(** a constant raises IndexError, where the default matrix returns no zeros *)
Theorem C69_constant_refuted :
  forall eigvals eigLeft d c useEigvals,
    solve1D eigvals eigLeft Chebyshev d [c] (-1) useEigvals = Other IndexError /\
    solve1D eigvals eigLeft Chebyshev d [c] 0 useEigvals = Other (Zeros []).
Proof. intros. split; reflexivity. Qed.
Print Assumptions C69_constant_refuted.

(** T_2 + 3/2 = 2 x^2 + 1/2 has the zeros +-i/2; x^2 - x has the zero 1, which is lost *)
Example C69_case :
  (exists eigvals eigLeft, (forall n M, spectrum n M (eigvals n M)) /\ (forall n M, leftSpectrum n M (eigLeft n M)) /\
    exists l, solve1D eigvals eigLeft Chebyshev Floats [3 / 2; 0; 1]%R (-1) true = Other (Zeros l) /\ In (Some (0, 1 / 2)%R) l) /\
  (chebValue [1 / 2; -1; 1 / 2]%R 1 = 0 /\ forall eigvals eigLeft,
    exists l, solve1D eigvals eigLeft Chebyshev Floats [1 / 2; -1; 1 / 2]%R (-1) true = Other (Zeros l) /\ ~ In (Some (RtoC 1)) l).
Proof.
  split.
  - destruct exact_eigenvalue_routines_exist as [e [f [He Hf]]]. exists e, f. split; auto. split; auto.
    destruct (C69_division_matrix_zeros e f [3 / 2; 0; 1]%R true) as [l [E H]]; auto; try (simpl; lra || lia).
    { unfold chebValue, chebT. simpl. unfold Cplus, Cminus, Copp, Cmult, RtoC; simpl. intros E. injection E. lra. }
    exists l. split; auto. apply H. eexists. split; [reflexivity|]. unfold chebValue, chebT. simpl.
    unfold Cplus, Cminus, Copp, Cmult, RtoC; simpl; f_equal; lra.
  - split.
    + unfold chebValue, chebT. simpl. unfold Cplus, Cminus, Copp, Cmult, RtoC; simpl; f_equal; lra.
    + intros e f. destruct (C69_zero_at_origin_refuted e f [1 / 2; -1; 1 / 2]%R) as [l [E H]]; try (simpl; lra || lia).
      * unfold chebValue, chebT. simpl. unfold Cplus, Cminus, Copp, Cmult, RtoC; simpl; f_equal; lra.
      * exists l. split; auto. intros Hin. destruct (H _ Hin) as [|Hs]; [discriminate|]. injection Hs. lra.
Qed.

(** C70: other arguments.  MSmatrix must be 0 or -1; an integer coefficient array of degree two or more is refused
    (Polynomial.__init__ does not convert it); a Chebyshev series with a zero last coefficient is refused. *)
Theorem C70_matrix_choice :
  forall eigvals eigLeft k d coeff MSmatrix useEigvals,
    solve1D eigvals eigLeft k d coeff MSmatrix useEigvals = ValueError <-> (MSmatrix <> 0 /\ MSmatrix <> -1)%Z.
Proof.
  intros e f k d coeff ms u. unfold solve1D. destruct (Z.eqb_spec ms (-1)) as [->|H1]; [|destruct (Z.eqb_spec ms 0) as [->|H2]]; cbn [orb negb].
  - split; [|lia]. destruct k; [|discriminate]. cbn [Z.eqb]. destruct (divPower _ _ _ _ _); discriminate.
  - split; [|lia]. destruct k; [|discriminate]. cbn [Z.eqb]. destruct (multPower _ _ _ _ _); discriminate.
  - tauto.
Qed.
Print Assumptions C70_matrix_choice.

Theorem C70_integer_coefficients_refuted :
  forall eigvals eigLeft k (coeff : list R) MSmatrix useEigvals,
    last coeff 0%R <> 0%R -> nth 0 coeff 0%R <> 0%R -> (3 <= length coeff)%nat -> (MSmatrix = 0 \/ MSmatrix = -1)%Z ->
    solve1D eigvals eigLeft k Ints coeff MSmatrix useEigvals = Other TypeError.
Proof. exact ints_TypeError. Qed.
Print Assumptions C70_integer_coefficients_refuted.

Theorem C70_zero_last_chebyshev_coefficient :
  forall eigvals eigLeft (coeff : list R) useEigvals,
    last coeff 0%R = 0%R -> (3 <= length coeff)%nat ->
    solve1D eigvals eigLeft Chebyshev Floats coeff 0 useEigvals = Other NotFinite.
Proof. intros e f coeff u H Hl. unfold solve1D. cbn [Z.eqb orb negb]. now rewrite multCheb_last_zero. Qed.
Print Assumptions C70_zero_last_chebyshev_coefficient.

(** x^2 + 3x + 2 given with integers; 1 + T_1 with a padded zero *)
Example C70_case : forall eigvals eigLeft,
  solve1D eigvals eigLeft Power Ints [2; 3; 1]%R 0 true = Other TypeError /\
  solve1D eigvals eigLeft Chebyshev Floats [1; 1; 0]%R 0 true = Other NotFinite /\
  solve1D eigvals eigLeft Power Floats [2; 3; 1]%R 1 true = ValueError.
Proof.
  intros e f. split; [apply C70_integer_coefficients_refuted; simpl; auto; try lra; lia|].
  split; [apply C70_zero_last_chebyshev_coefficient; simpl; auto; lia|]. apply C70_matrix_choice. lia.
Qed.
