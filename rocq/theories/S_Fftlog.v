(** Specification: geometric grids and complex powers of positive reals. *)
From Coq Require Import Reals List.
From Coquelicot Require Import Complex.
From Verif Require Import Base_R Base_C Base_List.
Import ListNotations.
Local Open Scope R_scope.

(** a geometric grid of [n] points, starting at [a] with ratio [r] *)
Definition geom (a r : R) (n : nat) : list (option R) := map (fun i => Some (a * Rpower r (INR i))) (seq 0 n).
(** positive reals to complex powers *)
Definition cpw (x : R) (z : C) : C := (RtoC (Rpower x (Re z)) * cexpi (Im z * ln x))%C.
(** the same grid as real numbers, pointwise products, and the discrete spectrum of [x f(x)] *)
Definition rgeom (a r : R) (n : nat) : list R := map (fun i => a * Rpower r (INR i)) (seq 0 n).
Definition x2_times (x f : list R) : list R := map (fun '(x, v) => x ^ 2 * v) (combine x f).
Definition spectrum (x f : list R) (m : nat) : C :=
  sumC (map (fun i => RtoC (nth i x 0 * nth i f 0) * cexpi (- (2 * PI * INR i * INR m / INR (length x))))%C (seq 0 (length x))).
(** pointwise products, and combinations of the powers [y ^ - (nu + i eta m)], [m <= L] *)
Definition times (x f : list R) : list R := map (fun '(x, v) => x * v) (combine x f).
Definition power_sum (a : nat -> C) (nu eta : R) (L : nat) (y : R) : R :=
  sumR (map (fun m => Re (a m * cpw y (- nu, - (eta * INR m))%R)%C) (seq 0 (S L))).
