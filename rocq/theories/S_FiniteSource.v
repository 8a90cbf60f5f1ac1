(** Specification: magnification of an extended source behind one lens, as the average of the point-source magnification over
    the source. *)
From Coq Require Import Reals.
From Coquelicot Require Import Coquelicot.
Local Open Scope R_scope.

(** point-source magnification at the distance [sqrt v] from the lens *)
Definition mag_sq (v : R) : R := (v + 2) / sqrt (v * (v + 4)).
(** the same at the position [(x, y)] *)
Definition magn (x y : R) : R := mag_sq (x ^ 2 + y ^ 2).
(** mean of [F] over the circle of radius [t] around the source centre [(x, y)] *)
Definition circle_mean (F : R -> R -> R) (x y t : R) : R := / (2 * PI) * RInt (fun a => F (x + t * cos a) (y + t * sin a)) 0 (2 * PI).
(** mean over the source of radius [rho] with surface brightness [S] *)
Definition source_mean (F : R -> R -> R) (S : R -> R) (x y rho : R) : R :=
  RInt (fun t => circle_mean F x y t * (S t * t)) 0 rho / RInt (fun t => S t * t) 0 rho.
