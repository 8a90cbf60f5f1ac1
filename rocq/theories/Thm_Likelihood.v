(** Linear fits and marginal likelihoods: properties C22-C25. *)
From Coq Require Import Reals List Bool Arith Lia Lra.
From Verif Require Import Base_R Base_List M_Likelihood S_Integral S_Likelihood P_LinFit P_Gauss P_Marginal P_MarginalGen.
Import ListNotations.
Local Open Scope R_scope.

(** ** C22 *)
(** Array errors, at least two different abscissae: the returned line is the unique minimiser of the documented
    weighted sum of squares, the returned chi-squared is the minimum, and the two standard errors are exactly the
    shifts of one parameter that raise the minimum over the other by one. *)
Theorem C22_unique_optimum_partial : forall xs ys errs i j,
  length xs = length ys -> length errs = length xs ->
  (i < length xs)%nat -> (j < length xs)%nat -> nth i xs 0 <> nth j xs 0 ->
  exists f be ae, linear_chi2 xs ys (ErrArray errs) = Ok (Some f) /\ fit_be f = Some be /\ fit_ae f = Some ae /\
    0 < be /\ 0 < ae /\
    fit_chi2 f = chi2_of (points errs xs ys) (fit_a f) (fit_b f) /\
    (forall a b, (a, b) <> (fit_a f, fit_b f) -> fit_chi2 f < chi2_of (points errs xs ys) a b) /\
    (forall s, s = 1 \/ s = -1 ->
      (forall a, fit_chi2 f + 1 <= chi2_of (points errs xs ys) a (fit_b f + s * be)) /\
      (exists a, chi2_of (points errs xs ys) a (fit_b f + s * be) = fit_chi2 f + 1)) /\
    (forall s, s = 1 \/ s = -1 ->
      (forall b, fit_chi2 f + 1 <= chi2_of (points errs xs ys) (fit_a f + s * ae) b) /\
      (exists b, chi2_of (points errs xs ys) (fit_a f + s * ae) b = fit_chi2 f + 1)).
Proof. exact array_fit. Qed.
(** All abscissae equal: no number is returned (0/0). *)
Theorem C22_degenerate : forall xs ys errs c, length xs = length ys -> length errs = length xs ->
  (forall x, In x xs -> x = c) -> linear_chi2 xs ys (ErrArray errs) = Ok None.
Proof. exact degenerate_fit. Qed.
(** The documented default err=0.0 cannot be used: python's 1.0/(0.0**2) raises before the where. *)
Theorem C22_default_refuted : forall xs ys, length xs = length ys -> linear_chi2_default xs ys = Raise ZeroDivisionError.
Proof. exact scalar_default. Qed.
(** "A scalar broadcasts to all points" is false: the sum of the weights is not multiplied by the number of
    points, so exact data y = 1 are fitted by a line with chi-squared 15/2, and the slope error is NaN. *)
Theorem C22_scalar_err_refuted : exists f, linear_chi2 [0; 1; 2] [1; 1; 1] (ErrScalar 1) = Ok (Some f) /\ fit_be f = None /\
  chi2_of (points [1; 1; 1] [0; 1; 2] [1; 1; 1]) 1 0 = 0 /\ fit_chi2 f = 15 / 2 /\
  fit_chi2 f = chi2_of (points [1; 1; 1] [0; 1; 2] [1; 1; 1]) (fit_a f) (fit_b f).
Proof. exact scalar_wrong. Qed.
Example C22_example : exists f, linear_chi2 [0; 1; 2] [1; 3; 5] (ErrArray [1; 1; 1]) = Ok (Some f) /\ fit_a f = 1 /\ fit_b f = 2.
Proof.
  destruct (array_fit [0; 1; 2] [1; 3; 5] [1; 1; 1] 0 1) as (f & be & ae & H & _ & _ & _ & _ & V & U & _);
    [reflexivity|reflexivity|simpl; lia|simpl; lia|simpl; lra|].
  exists f. split; [exact H|].
  assert (W : doc_weight 1 = 1) by (unfold doc_weight; destruct (Rlt_dec 0 1); [field|lra]).
  assert (N : 0 <= fit_chi2 f).
  { rewrite V. simpl. rewrite W. pose proof (pow2_ge_0 (1 - (fit_a f + fit_b f * 0))).
    pose proof (pow2_ge_0 (3 - (fit_a f + fit_b f * 1))). pose proof (pow2_ge_0 (5 - (fit_a f + fit_b f * 2))). simpl in *. lra. }
  destruct (Req_dec (fit_a f) 1) as [e1|n1]; [destruct (Req_dec (fit_b f) 2) as [e2|n2]; [split; assumption|]|];
    exfalso; specialize (U 1 2); simpl in U; rewrite W in U;
    (assert (K : (1, 2) <> (fit_a f, fit_b f)) by (intros Q; injection Q; intros; lra)); specialize (U K); lra.
Qed.

(** ** C23 *)
Theorem C23_diagonal_agrees : forall solve flux M s2 sfs sfb, length M = length flux -> length s2 = length flux ->
  (forall v, In v s2 -> 0 < v) -> 0 < sfs -> 0 < sfb -> solves (diagonal s2) (length s2) (solve (diagonal s2)) ->
  nll_ulens_general solve flux M (diagonal s2) (0, 0) ((sfs, 0), (0, sfb)) = nll_ulens flux M s2 sfs sfb.
Proof. exact diag_agree. Qed.
(** A correct solver exists: division by the diagonal. *)
Example C23_example : solves (diagonal [2; 4]) 2 (fun v => [nth 0 v 0 / 2; nth 1 v 0 / 4]).
Proof.
  intros v L. split; [reflexivity|]. intros [|[|i]] Hi; [| |lia]; cbv [isum entry diagonal]; simpl; field.
Qed.

(** ** C24 *)
(** The returned number is minus the logarithm of the integral of data density times prior over both fluxes,
    up to the data-independent constant (n/2) ln(2 pi), which the code leaves out. *)
Theorem C24_marginal_partial : forall flux M s2 sfs sfb, length M = length flux -> length s2 = length flux ->
  (forall v, In v s2 -> 0 < v) -> 0 < sfs -> 0 < sfb ->
  exists Z, 0 < Z /\
    improper2 (fun fs fb => data_pdf flux M s2 fs fb * (normal_pdf 0 sfs fs * normal_pdf 0 sfb fb)) Z /\
    nll_ulens flux M s2 sfs sfb = - ln Z - INR (length flux) / 2 * ln (2 * PI).
Proof. exact marginal_diag. Qed.
(** The same for a full covariance matrix and an arbitrary normal prior. *)
Theorem C24_marginal_general_partial : forall solve n flux M Cov P mu l11 l12 l22,
  length flux = n -> length M = n ->
  symmetric Cov -> pos_def Cov n -> inverse_of Cov P n -> length Cov = n -> det n Cov <> 0 ->
  solves Cov n (solve Cov) -> 0 < l11 -> 0 < l11 * l22 - l12 * l12 ->
  exists Z, 0 < Z /\
    improper2 (fun fs fb => mvn_pdf n P (Rabs (det n Cov)) (residual flux M fs fb) * bvn_pdf mu l11 l12 l22 fs fb) Z /\
    nll_ulens_general solve flux M Cov mu ((l11, l12), (l12, l22)) = - ln Z - INR n / 2 * ln (2 * PI).
Proof. exact marginal_general. Qed.
(** The marginal is unique, so [Z] above is the integral. *)
Theorem C24_integral_unique : forall f v w, improper2 f v -> improper2 f w -> v = w.
Proof. exact improper2_unique. Qed.
(** The normal density integrates to one, so the densities above are normalised. *)
Example C24_example : improper (normal_pdf 3 4) 1.
Proof.
  pose proof (gauss_quad (/ 4) (3 / 4) ltac:(lra)) as G.
  apply (improper_scal _ _ (exp (- (9 / 8)) / sqrt (2 * PI * 4))) in G.
  pose proof PI_RGT_0 as HP.
  assert (S1 : 0 < sqrt (2 * PI * 4)) by (apply sqrt_lt_R0; lra).
  assert (E1 : exp (- (9 / 8)) * exp (3 / 4 * (3 / 4) / / 4 / 2) = 1).
  { rewrite <- exp_plus. replace (- (9 / 8) + 3 / 4 * (3 / 4) / / 4 / 2) with 0 by field. apply exp_0. }
  assert (E2 : exp (- (9 / 8)) / sqrt (2 * PI * 4) * (sqrt (2 * PI / / 4) * exp (3 / 4 * (3 / 4) / / 4 / 2)) = 1).
  { replace (2 * PI / / 4) with (2 * PI * 4) by field. rewrite <- E1. field. lra. }
  rewrite E2 in G. revert G. apply improper_ext. intros x. unfold normal_pdf.
  replace (- ((x - 3) * (x - 3)) / (2 * 4)) with (- (9 / 8) + - (/ 4 * (x * x) - 2 * (3 / 4) * x) / 2) by field.
  rewrite exp_plus. unfold Rdiv. ring.
Qed.

(** A covariance meeting the hypotheses of the general form. *)
Example C24_general_example :
  let Cov := [[2; 1]; [1; 2]] in let P := [[2 / 3; - (1 / 3)]; [- (1 / 3); 2 / 3]] in
  symmetric Cov /\ pos_def Cov 2 /\ inverse_of Cov P 2 /\ det 2 Cov = 3 /\
  solves Cov 2 (fun v => [(2 * nth 0 v 0 - nth 1 v 0) / 3; (2 * nth 1 v 0 - nth 0 v 0) / 3]).
Proof.
  cbv zeta. split; [|split; [|split; [|split]]].
  - intros [|[|[|i]]] [|[|[|j]]]; try reflexivity; unfold entry; simpl; try (destruct j; reflexivity); destruct i; try reflexivity; destruct j; reflexivity.
  - intros v (i & Hi & N). cbv [quad isum entry]. simpl.
    assert (0 < v 0%nat * v 0%nat + v 1%nat * v 1%nat).
    { destruct i as [|[|i]]; [| |lia]; nra. }
    nra.
  - split; [split; [reflexivity|intros r [<-|[<-|[]]]; reflexivity]|].
    intros [|[|i]] [|[|j]] Hi Hj; try lia; cbv [isum entry]; simpl; field.
  - cbn. ring.
  - intros v L. split; [reflexivity|]. intros [|[|i]] Hi; [| |lia]; cbv [isum entry]; simpl; field.
Qed.

(** ** C25 *)
(** Every quotient and logarithm of nll_ulens has a positive argument, the quadratic form is non-negative, and the
    result is at least half the log-determinant of the noise covariance. *)
Theorem C25_well_defined : forall flux M s2 sfs sfb, length M = length flux -> length s2 = length flux ->
  (forall v, In v s2 -> 0 < v) -> 0 < sfs -> 0 < sfb ->
  let u := map fst M in let w := map snd M in
  let a11 := / sfs + wdot u u s2 in let a22 := / sfb + wdot w w s2 in let a12 := wdot u w s2 in
  let D := a11 * a22 - a12 * a12 in
  let q := wdot flux flux s2 - (a22 * wdot u flux s2 ^ 2 - 2 * a12 * wdot u flux s2 * wdot w flux s2 + a11 * wdot w flux s2 ^ 2) / D in
  0 < a11 /\ 0 < a22 /\ / (sfs * sfb) <= D /\ 0 <= q /\
  nll_ulens flux M s2 sfs sfb = (q + sumR (map ln s2) + ln sfs + ln sfb + ln D) / 2 /\
  sumR (map ln s2) / 2 <= nll_ulens flux M s2 sfs sfb.
Proof. exact well_defined. Qed.
Example C25_example : nll_ulens [] [] [] 1 1 = 0.
Proof.
  unfold nll_ulens, dot. cbn. replace ((1 / 1 + 0) * (1 / 1 + 0) - 0 * 0) with 1 by field. rewrite ln_1. field.
Qed.

Print Assumptions C22_unique_optimum_partial.
Print Assumptions C22_degenerate.
Print Assumptions C22_default_refuted.
Print Assumptions C22_scalar_err_refuted.
Print Assumptions C23_diagonal_agrees.
Print Assumptions C24_marginal_partial.
Print Assumptions C24_marginal_general_partial.
Print Assumptions C24_integral_unique.
Print Assumptions C25_well_defined.
