(** Specification: profile-weighted averages over the source disc, in polar coordinates. *)
From Coq Require Import Reals.
From Coquelicot Require Import Coquelicot.
From Verif Require Import M_MagFft.
Local Open Scope R_scope.

(** average over the disc of radius [rho] centred on the lens, with radial brightness [s]: the area element is
    [2 pi u du], and the factor [2 pi] cancels *)
Definition central_average (s : R -> R) (rho : R) : R :=
  RInt (fun u => s u * A_point u * u) 0 rho / RInt (fun u => s u * u) 0 rho.
(** radial profiles: [(1 - (u/rho)^2)^(n/2)] and the linear limb-darkening law *)
Definition profile_uniform (rho u : R) : R := 1.
Definition profile_root (rho u : R) : R := sqrt (1 - (u / rho) ^ 2).
Definition profile_quadratic (rho u : R) : R := 1 - (u / rho) ^ 2.
Definition profile_linear (a1 rho u : R) : R := 1 - a1 * (1 - sqrt (1 - (u / rho) ^ 2)).
