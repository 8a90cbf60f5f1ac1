(** Vocabulary for the limb-darkening laws of any order (C65), independent of the model. *)
From Coq Require Import Reals.
From Coquelicot Require Import Coquelicot.
From Verif Require Import S_Gamma.
Local Open Scope R_scope.

(** brightness: the [n]-th power of the cosine of the viewing angle *)
Definition cos_power (n : nat) (rho r : R) : R := sqrt (1 - (r / rho) ^ 2) ^ n.
(** the gamma function on the positive axis, by Gauss's limit *)
Definition gammaR (x : R) : R := real (Lim_seq (fun n => Re (gauss (RtoC x) n))).
(** the Bessel function of the first kind of order [nu], by its series *)
Definition bessel_nu (nu x : R) : R := Series (fun k => (-1) ^ k / (INR (fact k) * gammaR (INR k + nu + 1)) * Rpower (x / 2) (2 * INR k + nu)).
