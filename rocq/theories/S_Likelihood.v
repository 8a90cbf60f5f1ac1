(** Specification for the likelihood module: least squares, Gaussian densities and their marginals. *)
From Coq Require Import Reals List.
From Verif Require Import S_Integral.
Import ListNotations.
Local Open Scope R_scope.

(** Weighted sum of squared residuals of the line [a + b x]. *)
Fixpoint chi2_of (pts : list (R * R * R)) (a b : R) : R :=
  match pts with
  | [] => 0
  | (w, x, y) :: t => w * (y - (a + b * x)) ^ 2 + chi2_of t a b
  end.
(** Documented weights: 1/err^2 for positive err, otherwise 1. *)
Definition doc_weight (e : R) : R := if Rlt_dec 0 e then / (e * e) else 1.
Fixpoint points (errs xs ys : list R) : list (R * R * R) :=
  match errs, xs, ys with
  | e :: es, x :: xt, y :: yt => (doc_weight e, x, y) :: points es xt yt
  | _, _, _ => []
  end.

(** Normal density with mean m and variance v. *)
Definition normal_pdf (m v x : R) : R := exp (- ((x - m) * (x - m)) / (2 * v)) / sqrt (2 * PI * v).
(** Density of independent measurements given source flux fs and blend flux fb. *)
Fixpoint data_pdf (flux : list R) (M : list (R * R)) (s2 : list R) (fs fb : R) : R :=
  match flux, M, s2 with
  | f :: ft, (m, k) :: mt, v :: vt => normal_pdf (fs * m + fb * k) v f * data_pdf ft mt vt fs fb
  | _, _, _ => 1
  end.

(** Finite sums over indices and matrices as index functions. *)
Fixpoint isum (n : nat) (f : nat -> R) : R := match n with O => 0 | S k => isum k f + f k end.
Definition entry (m : list (list R)) (i j : nat) : R := nth j (nth i m []) 0.
Definition square (m : list (list R)) (n : nat) : Prop := length m = n /\ forall r, In r m -> length r = n.
Definition symmetric (m : list (list R)) : Prop := forall i j, entry m i j = entry m j i.
Definition quad (m : list (list R)) (n : nat) (v : nat -> R) : R :=
  isum n (fun i => isum n (fun j => v i * entry m i j * v j)).
Definition pos_def (m : list (list R)) (n : nat) : Prop :=
  forall v, (exists i, (i < n)%nat /\ v i <> 0) -> 0 < quad m n v.
(** [p] is the inverse of [m]. *)
Definition inverse_of (m p : list (list R)) (n : nat) : Prop :=
  square p n /\ forall i j, (i < n)%nat -> (j < n)%nat ->
    isum n (fun k => entry m i k * entry p k j) = if Nat.eq_dec i j then 1 else 0.
(** Diagonal matrix. *)
Definition diagonal (d : list R) : list (list R) :=
  map (fun i => map (fun j => if Nat.eq_dec i j then nth i d 0 else 0) (seq 0 (length d))) (seq 0 (length d)).
(** A linear solver is correct on [m]. *)
Definition solves (m : list (list R)) (n : nat) (sol : list R -> list R) : Prop :=
  forall v, length v = n -> length (sol v) = n /\
    forall i, (i < n)%nat -> isum n (fun j => entry m i j * nth j (sol v) 0) = nth i v 0.
(** Multivariate normal density of residual [r] for a covariance with inverse [p] and determinant [d]. *)
Definition mvn_pdf (n : nat) (p : list (list R)) (d : R) (r : nat -> R) : R :=
  exp (- quad p n r / 2) / sqrt ((2 * PI) ^ n * d).
(** Bivariate normal density with mean [mu] and covariance ((l11,l12),(l12,l22)). *)
Definition bvn_pdf (mu : R * R) (l11 l12 l22 x y : R) : R :=
  let D := l11 * l22 - l12 * l12 in
  let u := x - fst mu in let v := y - snd mu in
  exp (- ((l22 * (u * u) - 2 * l12 * (u * v) + l11 * (v * v)) / D) / 2) / (2 * PI * sqrt D).
(** Residual of the model fs * m_i + fb * k_i. *)
Definition residual (flux : list R) (M : list (R * R)) (fs fb : R) (i : nat) : R :=
  nth i flux 0 - (fs * fst (nth i M (0, 0)) + fb * snd (nth i M (0, 0))).
(** Inverse-variance weighted inner product. *)
Fixpoint wdot (u v s2 : list R) : R :=
  match u, v, s2 with
  | a :: ut, b :: vt, s :: st => a * b / s + wdot ut vt st
  | _, _, _ => 0
  end.
