(** Vocabulary for the gamma function (C69), independent of the model: Gauss's limit
    [Gamma (z) = lim n! n^z / (z (z + 1) ... (z + n))]. *)
From Coq Require Import Reals Arith.
From Coquelicot Require Import Complex.
Local Open Scope R_scope.

Definition clim (u : nat -> C) (l : C) : Prop := forall eps, 0 < eps -> exists N, forall n, (N <= n)%nat -> Cmod (u n - l)%C < eps.
(** x^z for x > 0 *)
Definition rpow (x : R) (z : C) : C := (exp (Re z * ln x) * cos (Im z * ln x), exp (Re z * ln x) * sin (Im z * ln x)).
Fixpoint rising (n : nat) (z : C) : C := match n with 0%nat => z | S m => (rising m z * (z + RtoC (INR (S m))))%C end.
Definition gauss (z : C) (n : nat) : C := (RtoC (INR (fact n)) * rpow (INR n) z / rising n z)%C.
Definition is_Gamma (z g : C) : Prop := clim (gauss z) g.
(** [v] is the quotient of the gamma functions at [a] and [b], times [c], to the relative accuracy [e] *)
Definition gamma_ratio_by (c a b : C) (e : R) (v : C) : Prop :=
  exists ga gb, is_Gamma a ga /\ is_Gamma b gb /\ ga <> RtoC 0 /\ gb <> RtoC 0 /\ Cmod (v - c * (ga / gb))%C <= e * Cmod (c * (ga / gb))%C.
(** the vertical lines through the poles are avoided *)
Definition off_lines (a : C) : Prop := forall n, Re a <> - INR n.
(** the range in which the kernel with [q = z - h] of a Bessel function of order [l] is covered: either the order and the
    frequency are moderate, or the bias is close to [h] and both arguments are in the right half plane *)
Definition kernel_range (l h : R) (z : C) : Prop :=
  Rabs (Im z) + Rabs (l + 1 / 2) <= 200 \/ (- 1 / 2 <= l /\ Rabs (Re z - h) <= 2.5 /\ Rabs (Re z - h) < l + 1.5).
