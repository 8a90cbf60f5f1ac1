(** Model of src/microjax/likelihood.py *)
From Coq Require Import Reals List Bool Arith.
From Verif Require Import Base_R Base_List.
Import ListNotations.
Local Open Scope R_scope.

(** jnp.dot of two vectors of equal length; matrix-vector product of a list of rows *)
Definition dot (u v : list R) : R := sumR (map (fun p => fst p * snd p) (combine u v)).
Definition matvec (m : list (list R)) (v : list R) : list R := map (fun row => dot row v) m.

(** The [err] argument of [linear_chi2]: a python float, or an array with one entry per point. *)
Inductive err_arg := ErrScalar (e : R) | ErrArray (l : list R).
Record linfit := { fit_b : R; fit_be : option R; fit_a : R; fit_ae : option R; fit_chi2 : R }.
(** jnp.sqrt, NaN ([None]) below zero *)
Definition osqrt (x : R) : option R := if Rleb 0 x then Some (sqrt x) else None.

(** likelihood.py:65 [wt], one entry *)
Definition fit_weight (e : R) : R := if Rltb 0 e then 1 / (e ^ 2) else 1.

(** likelihood.py:65-80 once the weights are known. [sumw] is passed separately because jnp.sum(wt) of a
    scalar is the scalar itself, while every other sum runs over the broadcast product. [None] stands for the
    non-finite numbers produced by det = 0. *)
Definition linear_fit (sumw : R) (wt xs ys : list R) : option linfit :=
  let sumx := sumR (map (fun p => fst p * snd p) (combine wt xs)) in
  let sumy := sumR (map (fun p => fst p * snd p) (combine wt ys)) in
  let sumxx := sumR (map (fun p => fst p * snd p * snd p) (combine wt xs)) in
  let sumxy := sumR (map (fun p => fst p * fst (snd p) * snd (snd p)) (combine wt (combine xs ys))) in
  let det := sumw * sumxx - sumx * sumx in
  if Reqb det 0 then None else
  let a := (sumxx * sumy - sumx * sumxy) / det in
  let b := (sumw * sumxy - sumx * sumy) / det in
  let chi2 := sumR (map (fun p => fst p * (snd (snd p) - a - b * fst (snd p)) ^ 2) (combine wt (combine xs ys))) in
  let ae := osqrt (sumxx / det) in
  let be := osqrt (sumw / det) in
  Some {| fit_b := b; fit_be := be; fit_a := a; fit_ae := ae; fit_chi2 := chi2 |}.

(** likelihood.py:30-80 [linear_chi2]. For a python float err, [1.0 / (err ** 2)] is evaluated by python before
    jnp.where, so err = 0.0 raises; the weight is a scalar. Arrays must have one entry per point. *)
Definition linear_chi2 (xs ys : list R) (err : err_arg) : res (option linfit) :=
  if negb (length xs =? length ys)%nat then Raise ValueError else
  match err with
  | ErrScalar e =>
      if Reqb e 0 then Raise ZeroDivisionError
      else let w := fit_weight e in Ok (linear_fit w (repeat w (length xs)) xs ys)
  | ErrArray l =>
      if negb (length l =? length xs)%nat then Raise ValueError
      else let wt := map fit_weight l in Ok (linear_fit (sumR wt) wt xs ys)
  end.
(** likelihood.py:30 the default argument *)
Definition linear_chi2_default (xs ys : list R) : res (option linfit) := linear_chi2 xs ys (ErrScalar 0).

(** likelihood.py:83-160 [nll_ulens]; [M] is the list of rows of the (n,2) design matrix *)
Definition nll_ulens (flux : list R) (M : list (R * R)) (sigma2_obs : list R) (sigma2_fs sigma2_fb : R) : R :=
  let lambda_fs := 1 / sigma2_fs in
  let lambda_fb := 1 / sigma2_fb in
  let M0 := map fst M in
  let M1 := map snd M in
  let Cinv_M0 := map (fun p => fst p / snd p) (combine M0 sigma2_obs) in
  let Cinv_M1 := map (fun p => fst p / snd p) (combine M1 sigma2_obs) in
  let a11 := lambda_fs + dot M0 Cinv_M0 in
  let a22 := lambda_fb + dot M1 Cinv_M1 in
  let a12 := dot M0 Cinv_M1 in
  let Cinv_flux := map (fun p => fst p / snd p) (combine flux sigma2_obs) in
  let b1 := dot M0 Cinv_flux in
  let b2 := dot M1 Cinv_flux in
  let detA := a11 * a22 - a12 * a12 in
  let invA00 := a22 / detA in
  let invA11 := a11 / detA in
  let invA01 := - a12 / detA in
  let mu_fs := invA00 * b1 + invA01 * b2 in
  let mu_fb := invA01 * b1 + invA11 * b2 in
  let mahalanobis := dot flux Cinv_flux - (mu_fs * b1 + mu_fb * b2) in
  let logdet_C := sumR (map ln sigma2_obs) in
  let logdet_Lambda := ln sigma2_fs + ln sigma2_fb in
  let logdet_A := ln detA in
  0.5 * (mahalanobis + logdet_C + logdet_Lambda + logdet_A).

(** Determinant of an n x n list of rows (what [jnp.linalg.slogdet] computes), by expansion along the first row. *)
Definition drop_nth {A} (j : nat) (l : list A) : list A := firstn j l ++ skipn (S j) l.
Fixpoint det (n : nat) (m : list (list R)) : R :=
  match n, m with
  | S k, row :: rest =>
      sumR (map (fun j => (-1) ^ j * nth j row 0 * det k (map (drop_nth j) rest)) (seq 0 (S k)))
  | _, _ => 1
  end.
(** log|det|, second component of [slogdet] *)
Definition logabsdet (m : list (list R)) : R := ln (Rabs (det (length m) m)).

(** likelihood.py:162-228 [nll_ulens_general]; [solve] is jax.scipy.linalg.solve, applied to each column of [M] *)
Definition nll_ulens_general (solve : list (list R) -> list R -> list R)
    (flux : list R) (M : list (R * R)) (Cov : list (list R)) (mu : R * R) (Lambda : (R * R) * (R * R)) : R :=
  let '((l11, l12), (l21, l22)) := Lambda in
  let detL := l11 * l22 - l12 * l21 in
  let i11 := l22 / detL in let i12 := - l12 / detL in
  let i21 := - l21 / detL in let i22 := l11 / detL in
  let M0 := map fst M in let M1 := map snd M in
  let Cinv_M0 := solve Cov M0 in let Cinv_M1 := solve Cov M1 in
  let a11 := i11 + dot M0 Cinv_M0 in let a12 := i12 + dot M0 Cinv_M1 in
  let a21 := i21 + dot M1 Cinv_M0 in let a22 := i22 + dot M1 Cinv_M1 in
  let r := map (fun p => fst p - (fst (snd p) * fst mu + snd (snd p) * snd mu)) (combine flux M) in
  let Cinv_r := solve Cov r in
  let b1 := dot M0 Cinv_r in let b2 := dot M1 Cinv_r in
  let detA := a11 * a22 - a12 * a21 in
  let m1 := (a22 * b1 - a12 * b2) / detA in
  let m2 := (a11 * b2 - a21 * b1) / detA in
  let mahal := dot r Cinv_r - (b1 * m1 + b2 * m2) in
  0.5 * (mahal + logabsdet Cov + logabsdet [[l11; l12]; [l21; l22]] + logabsdet [[a11; a12]; [a21; a22]]).
