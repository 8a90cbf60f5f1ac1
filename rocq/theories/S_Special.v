(** Specification for the special functions: the complete elliptic integrals, and Gauss's two-parameter forms. *)
From Coq Require Import Reals.
From Coquelicot Require Import Coquelicot.
Local Open Scope R_scope.

(** Legendre's complete integrals with parameter [m] (the square of the modulus) *)
Definition ellint_K (m : R) : R := RInt (fun t => 1 / sqrt (1 - m * sin t ^ 2)) 0 (PI / 2).
Definition ellint_E (m : R) : R := RInt (fun t => sqrt (1 - m * sin t ^ 2)) 0 (PI / 2).
