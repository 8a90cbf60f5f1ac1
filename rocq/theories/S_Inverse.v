(** Specification: area sums on polar grids. *)
From Coq Require Import Reals List ZArith.
From Coquelicot Require Import Hierarchy RInt Complex.
From Verif Require Import Base_List S_PointSource.
Import ListNotations.
Local Open Scope R_scope.

(** position number [i] of [n] equally spaced positions from [lo] to [hi], and their distance *)
Definition spaced (lo hi : R) (n i : nat) : R := lo + INR i * ((hi - lo) / INR (n - 1)).
Definition spacing (lo hi : R) (n : nat) : R := (hi - lo) / INR (n - 1).
Definition polar (r t : R) : C := (r * cos t, r * sin t).

(** a region of the image plane: a range of radii and a range of angles *)
Definition sector := ((R * R) * (R * R))%type.
(** the grid point in row [j] and at angle number [i] of a sector divided into [nr] radii and [nt] angles *)
Definition grid_point (g : sector) (nr nt j i : nat) : C :=
  let '((r_lo, r_hi), (t_lo, t_hi)) := g in polar (spaced r_lo r_hi nr j) (spaced t_lo t_hi nt i).
Definition no_sector : sector := ((0, 0), (0, 0)).
(** sum of the cell areas [r dr dt], each with a weight, over all sectors, rows and the first [m] cells of each row *)
Definition cell_area (g : sector) (nr nt j : nat) : R :=
  let '((r_lo, r_hi), (t_lo, t_hi)) := g in spaced r_lo r_hi nr j * spacing r_lo r_hi nr * spacing t_lo t_hi nt.
Definition area_sum (gs : list sector) (nr nt m : nat) (W : nat -> nat -> nat -> R) : R :=
  sumR (map (fun n => sumR (map (fun j => cell_area (nth n gs no_sector) nr nt j * sumR (map (W n j) (seq 0 m))) (seq 0 nr))) (seq 0 (length gs))).

(** [z] is seen through the lens in front of the disc of radius [rho] around [w] *)
Definition seen (L : lens_system) (w : C) (rho : R) (z : C) : Prop := Cmod (lens_map L z - w)%C < rho.

(** 1 where the disc is seen, 0 elsewhere *)
Definition seen_at (L : lens_system) (w : C) (rho : R) (z : C) : R := if Rlt_dec (Cmod (lens_map L z - w)%C) rho then 1 else 0.
(** [a] is the integral of [f] over the sector, in polar coordinates: along each ray, then over the angles *)
Definition plane_integral (f : C -> R) (g : sector) (a : R) : Prop :=
  let '((r_lo, r_hi), (t_lo, t_hi)) := g in
  exists ray, (forall t, is_RInt (fun r => r * f (polar r t)) r_lo r_hi (ray t)) /\ is_RInt ray t_lo t_hi a.
(** [a] is the area, inside the sector, of the part of the image plane where the disc is seen *)
Definition seen_area (L : lens_system) (w : C) (rho : R) (g : sector) (a : R) : Prop := plane_integral (seen_at L w rho) g a.
(** surface brightness of the image plane: that of the point of the disc seen there, linearly limb-darkened, of unit flux for radius 1 *)
Definition brightness_at (L : lens_system) (w : C) (rho u1 : R) (z : C) : R :=
  if Rlt_dec (Cmod (lens_map L z - w)%C) rho then 3 / (PI * (3 - u1)) * (1 - u1 * (1 - sqrt (1 - (Cmod (lens_map L z - w)%C / rho) ^ 2))) else 0.
(** [a] is the flux received from the sector *)
Definition seen_flux (L : lens_system) (w : C) (rho u1 : R) (g : sector) (a : R) : Prop := plane_integral (brightness_at L w rho u1) g a.
(** [A] is the area of all images of the disc together *)
Definition image_area (L : lens_system) (w : C) (rho A : R) : Prop :=
  exists R0, (forall z, off_masses L z -> R0 <= Cmod z -> ~ seen L w rho z) /\ seen_area L w rho ((0, R0), (0, 2 * PI)) A.
(** [A] is the flux of all images of the disc together *)
Definition image_flux (L : lens_system) (w : C) (rho u1 A : R) : Prop :=
  exists R0, (forall z, off_masses L z -> R0 <= Cmod z -> ~ seen L w rho z) /\ seen_flux L w rho u1 ((0, R0), (0, 2 * PI)) A.
(** the sectors contain the point at distance [r] and angle [t] just once, angles counted modulo a full turn *)
Definition inside_sector (g : sector) (r t : R) : Prop := let '((r_lo, r_hi), (t_lo, t_hi)) := g in r_lo < r < r_hi /\ t_lo < t < t_hi.
Definition once (gs : list sector) (r t : R) : Prop :=
  exists! ik : nat * Z, (fst ik < length gs)%nat /\ inside_sector (nth (fst ik) gs no_sector) r (t + 2 * PI * IZR (snd ik)).
Definition ordered_sector (g : sector) : Prop := let '((r_lo, r_hi), (t_lo, t_hi)) := g in 0 <= r_lo <= r_hi /\ t_lo <= t_hi.
(** not on the edge of a sector *)
Definition off_edges (gs : list sector) (r t : R) : Prop := forall g (k : Z), In g gs ->
  let '((r_lo, r_hi), (t_lo, t_hi)) := g in r <> r_lo /\ r <> r_hi /\ t + 2 * PI * IZR k <> t_lo /\ t + 2 * PI * IZR k <> t_hi.
Definition scanned (gs : list sector) (r t : R) : Prop :=
  exists ik : nat * Z, (fst ik < length gs)%nat /\ inside_sector (nth (fst ik) gs no_sector) r (t + 2 * PI * IZR (snd ik)).
Definition at_most_once (gs : list sector) (r t : R) : Prop := forall ik ik' : nat * Z, (fst ik < length gs)%nat -> (fst ik' < length gs)%nat ->
  inside_sector (nth (fst ik) gs no_sector) r (t + 2 * PI * IZR (snd ik)) -> inside_sector (nth (fst ik') gs no_sector) r (t + 2 * PI * IZR (snd ik')) -> ik = ik'.
