(** Model of src/microjax/inverse_ray/limb_darkening.py, src/microjax/inverse_ray/boundary.py and of the
    brightness profile of src/microjax/caustics/integrate.py. A custom-JVP rule is a function from primals and
    tangents to (primal_out, tangent_out). *)
From Coq Require Import Reals List Bool ZArith.
From Coquelicot Require Import Complex.
From Verif Require Import Base_R Base_List M_PointSource.
Import ListNotations.
Local Open Scope R_scope.

(** jax.nn.sigmoid *)
Definition sigmoid (x : R) : R := 1 / (1 + exp (- x)).

(** limb_darkening.py:18-35 [Is_limb_1st]. The square root of a negative number is NaN (None); where() discards
    it for d >= 1. *)
Definition Is_limb_1st (d u1 : R) : option R :=
  let I0 := 3 / PI / (3 - u1) in
  if Rltb d 1 then
    (if Rleb 0 (1 - d ^ 2) then Some (I0 * (1 - u1 * (1 - sqrt (1 - d ^ 2)))) else None)
  else Some 0.
(** limb_darkening.py:37-60 [Is_limb_1st_jvp] *)
Definition Is_limb_1st_jvp (d u1 d_dot u1_dot : R) : R * R :=
  let fac := 100 in
  let mu := sqrt (Rmax 1e-3 (1 - d ^ 2)) in
  let I0 := 3 / PI / (3 - u1) in
  let dI0_du1 := - 3 / PI / (3 - u1) ^ 2 in
  let prof := 1 - u1 * (1 - mu) in
  let dprof_du1 := - (1 - mu) in
  let dprof_dmu := u1 in
  let dmu_dd := - d / mu in
  let z := 1 - d in
  let sg := sigmoid (fac * z) in
  let dsig_dz := fac * sg * (1 - sg) in
  let dz_dd := -1 in
  (I0 * prof * sg,
   u1_dot * (dI0_du1 * prof * sg + I0 * dprof_du1 * sg)
   + d_dot * (I0 * dprof_dmu * dmu_dd * sg + I0 * prof * dsig_dz * dz_dd)).

(** boundary.py:16-36 [calc_facB] *)
Definition calc_facB (delta_B delta_c : R) : R :=
  if Rltb delta_c delta_B then 2 / 3 * sqrt (1 + 0.5 / delta_B) * (0.5 + delta_B)
  else 2 / 3 * delta_B + 0.5.
(** boundary.py:38-45 *)
Definition calc_facB_jvp (delta_B delta_c delta_B_dot delta_c_dot : R) : R * R :=
  (calc_facB delta_B delta_c, 2 / 3 * delta_B_dot).
(** boundary.py:47-54 [step_smooth]; [fac] is only used by the rule *)
Definition step_smooth (x fac : R) : R := if Rltb 0 x then 1 else 0.
(** boundary.py:56-67 *)
Definition step_smooth_jvp (x fac x_dot fac_dot : R) : R * R :=
  let z := x * fac in
  let sg := sigmoid z in
  let dsig_dz := sg * (1 - sg) in
  (step_smooth x 100, x_dot * dsig_dz * fac + fac_dot * dsig_dz * x).
(** boundary.py:69-76 [in_source] *)
Definition in_source (distance rho : R) : R := if Rltb (distance - rho) 0 then 1 else 0.
(** boundary.py:78-93; the last assignment overwrites primal_out *)
Definition in_source_jvp (distance rho distance_dot rho_dot : R) : R * R :=
  let z := (rho - distance) / rho in
  let factor := 100 in
  let sg := sigmoid (factor * z) in
  let sd := sg * (1 - sg) * factor in
  let dz_distances := -1 / rho in
  let dz_rho := distance / rho ^ 2 in
  (sg, sd * (dz_distances * distance_dot + dz_rho * rho_dot)).

(** boundary.py:118-132 [distance_from_source], one angle *)
Definition distance_from_source (nlenses : Z) (p : params) (r0 th : R) (w_center_shifted : C) (shifted : R) : res R :=
  let z_th := (r0 * cos th, r0 * sin th) in
  res_map (fun w => Cmod (w - w_center_shifted)%C) (lens_eq nlenses p (z_th - RtoC shifted)%C).
(** boundary.py:95-116 [distance_from_source_adaptive], one unit angle *)
Definition distance_from_source_adaptive (nlenses : Z) (p : params) (r0 th_unit th_min th_max : R)
    (w_center_shifted : C) (shifted : R) : res R :=
  distance_from_source nlenses p r0 (th_min + (th_max - th_min) * th_unit) w_center_shifted shifted.

(** caustics/integrate.py:36-52 [_brightness_profile] as a function of r = |w - w0| / rho *)
Definition safe_sqrt (x : R) : R := sqrt (if Rltb 0 x then x else 0).
Definition brightness_r (r u1 : R) : R :=
  let B_r := if Rleb r 1 then 1 + safe_sqrt (1 - r ^ 2) else 1 - safe_sqrt (1 - 1 / r ^ 2) in
  3 / (3 - u1) * (u1 * B_r + 1 - 2 * u1).
Definition brightness_profile (nlenses : Z) (p : params) (rho : R) (w0 : C) (u1 : R) (z : C) : res R :=
  res_map (fun w => brightness_r (Cmod (w - w0)%C / rho) u1) (lens_eq nlenses p z).
