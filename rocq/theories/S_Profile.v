(** Specification: Fourier transform of a circular source.  The transform of a function of the radius does not depend on the
    direction of the wave vector, which points along the first axis here. *)
From Coq Require Import Reals.
From Coquelicot Require Import Coquelicot.
Local Open Scope R_scope.

(** flux of the brightness [S] (a function of the radius) in the strip of the disc of radius [rho] at the first coordinate [t] *)
Definition strip (S : R -> R) (rho t : R) : R := RInt (fun y => S (sqrt (t ^ 2 + y ^ 2))) (- sqrt (rho ^ 2 - t ^ 2)) (sqrt (rho ^ 2 - t ^ 2)).
(** transform at the wavenumber [k], divided by the flux of the source *)
Definition transform (S : R -> R) (rho k : R) : R := RInt (fun t => strip S rho t * cos (k * t)) (- rho) rho / RInt (strip S rho) (- rho) rho.

(** brightness profiles: uniform, square root and square of the cosine of the viewing angle, linear limb darkening *)
Definition uniform (rho r : R) : R := 1.
Definition root (rho r : R) : R := sqrt (1 - (r / rho) ^ 2).
Definition quadratic (rho r : R) : R := 1 - (r / rho) ^ 2.
Definition linear (a1 rho r : R) : R := 1 - a1 * (1 - sqrt (1 - (r / rho) ^ 2)).

(** the Bessel functions of order 1 and 2 by Poisson's integral *)
Definition bessel1 (x : R) : R := x / PI * RInt (fun t => sqrt (1 - t ^ 2) * cos (x * t)) (-1) 1.
Definition bessel2 (x : R) : R := x ^ 2 / (3 * PI) * RInt (fun t => sqrt (1 - t ^ 2) ^ 3 * cos (x * t)) (-1) 1.
