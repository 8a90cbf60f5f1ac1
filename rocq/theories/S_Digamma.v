(** Vocabulary for the derivative of the gamma function (C71), independent of the model. *)
From Coq Require Import Reals Arith.
From Coquelicot Require Import Complex.
From Verif Require Import S_Gamma.
Local Open Scope R_scope.

(** 1 / z + 1 / (z + 1) + ... + 1 / (z + n) *)
Fixpoint harmonic (n : nat) (z : C) : C := match n with 0%nat => (/ z)%C | S m => (harmonic m z + / (z + RtoC (INR (S m))))%C end.
(** the digamma function as Gauss's limit [ln n - 1 / z - ... - 1 / (z + n)] *)
Definition is_Digamma (z p : C) : Prop := clim (fun n => RtoC (ln (INR n)) - harmonic n z)%C p.
(** the poles of the gamma function *)
Definition pole (z : C) : Prop := exists n, z = RtoC (- INR n).
(** the gamma function has the complex derivative [d] at [z] *)
Definition Gamma_derivative (z d : C) : Prop :=
  exists g, is_Gamma z g /\ forall eps, 0 < eps -> exists delta, 0 < delta /\
    forall h, Cmod h < delta -> exists gh, is_Gamma (z + h)%C gh /\ Cmod (gh - g - h * d)%C <= eps * Cmod h.
