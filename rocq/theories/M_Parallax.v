(** Model of src/microjax/trajectory/parallax.py.  Times are one-dimensional arrays (a scalar is a one-entry list);
    [None] is NaN.  Divisions by [period], [dt] and [1 - ecc cos psi] are Coq's total division; the theorems assume
    them non-zero. *)
From Coq Require Import Reals List Bool Arith.
From Verif Require Import Base_R Base_List M_Utils M_MergeArea.
Import ListNotations.
Local Open Scope R_scope.

(** parallax.py:97-108 *)
Definition peris : list R := [
  1546.70833; 1913.87500; 2277.08333; 2643.70833; 3009.25000; 3372.54167;
  3740.16667; 4104.33333; 4468.50000; 4836.12500; 5199.50000; 5565.29167;
  5931.54167; 6294.70833; 6662.00000; 7026.79167; 7390.45833; 7758.08333;
  8121.75000; 8486.70833; 8853.83333].
Definition vernals : list R := [
  1623.81597; 1989.06319; 2354.30278; 2719.54167; 3084.78403; 3450.02292;
  3815.26806; 4180.50486; 4545.74167; 4910.98889; 5276.23056; 5641.47292;
  6006.71806; 6371.95972; 6737.20625; 7102.44792; 7467.68750; 7832.93611;
  8198.17708; 8563.41528; 8928.65903].
(** [jnp.argmin]: the first position of the minimum *)
Fixpoint argmin_from (best : R) (ibest i : nat) (l : list R) : nat :=
  match l with
  | [] => ibest
  | x :: t => if Rltb x best then argmin_from x i (S i) t else argmin_from best ibest (S i) t
  end.
Definition argmin (l : list R) : nat := match l with [] => 0%nat | x :: t => argmin_from x 0 1 t end.
(** parallax.py:60-111 [peri_vernal] for a scalar [tref] *)
Definition peri_vernal (tref : R) : R * R :=
  let tref := if Rltb 2450000 tref then tref - 2450000 else tref in
  let imin := argmin (map (fun p => Rabs (p - tref)) peris) in
  (nth imin peris 0, nth imin vernals 0).

(** [jnp.sign] *)
Definition rsign (x : R) : R := if Rltb 0 x then 1 else if Rltb x 0 then -1 else 0.
(** parallax.py:140-143 *)
Definition kepler_step (phi ecc psi : R) : R :=
  let f := psi - ecc * sin psi - phi in
  let f_prime := 1 - ecc * cos psi in
  psi - f / f_prime.
(** parallax.py:113-144 [getpsi] *)
Definition getpsi (phi ecc : R) : R :=
  Nat.iter 5 (kepler_step phi ecc) (phi + rsign (sin phi) * 0.85 * ecc).

Definition vec := (R * R * R)%type.
Definition mat := (vec * vec * vec)%type.
Definition dot (a b : vec) : R := let '(a1, a2, a3) := a in let '(b1, b2, b3) := b in a1 * b1 + a2 * b2 + a3 * b3.
Definition cross (a b : vec) : vec :=
  let '(a1, a2, a3) := a in let '(b1, b2, b3) := b in
  (a2 * b3 - a3 * b2, a3 * b1 - a1 * b3, a1 * b2 - a2 * b1).
Definition vnorm (a : vec) : R := sqrt (dot a a).
Definition vdiv (a : vec) (k : R) : vec := let '(a1, a2, a3) := a in (a1 / k, a2 / k, a3 / k).
(** [a /= jnp.linalg.norm(a)]: NaN for the zero vector *)
Definition normalize (a : vec) : option vec := if Reqb (vnorm a) 0 then None else Some (vdiv a (vnorm a)).
Definition mvmul (m : mat) (v : vec) : vec := let '(r1, r2, r3) := m in (dot r1 v, dot r2 v, dot r3 v).
Definition transpose (m : mat) : mat :=
  let '((a, b, c), (d, e, f), (g, h, i)) := m in ((a, d, g), (b, e, h), (c, f, i)).
Definition mmul (m n : mat) : mat :=
  let '(r1, r2, r3) := m in let '(c1, c2, c3) := transpose n in
  ((dot r1 c1, dot r1 c2, dot r1 c3), (dot r2 c1, dot r2 c2, dot r2 c3), (dot r3 c1, dot r3 c2, dot r3 c3)).

Definition deg2rad (x : R) : R := x * PI / 180.
(** parallax.py:184-188 *)
Definition rot_z (psi_offset : R) : mat :=
  ((cos (- psi_offset), - sin (- psi_offset), 0), (sin (- psi_offset), cos (- psi_offset), 0), (0, 0, 1)).
(** parallax.py:191-196 *)
Definition rot_x (rotaxis : R) : mat := ((1, 0, 0), (0, cos rotaxis, - sin rotaxis), (0, sin rotaxis, cos rotaxis)).
(** parallax.py:199-204 *)
Definition line_of_sight (alpha delta : R) : vec := (cos alpha * cos delta, sin alpha * cos delta, sin delta).
(** parallax.py:146-211 [prepare_projection_basis]: (R, north, east) *)
Definition prepare_projection_basis (rotaxis_deg psi_offset RA Dec : R) : mat * option vec * option vec :=
  let Rm := mmul (rot_x (deg2rad rotaxis_deg)) (rot_z psi_offset) in
  let los := line_of_sight (deg2rad RA) (deg2rad Dec) in
  let east := normalize (cross (0, 0, 1) los) in
  let north := match east with Some e => normalize (cross los e) | None => None end in
  (Rm, north, east).

(** parallax.py:263-265: position in the orbital plane *)
Definition orbit_position (psi ecc : R) : vec := (cos psi - ecc, sin psi * sqrt (1 - ecc ^ 2), 0).
(** parallax.py:213-270 [project_earth_position], one time: (q_north, q_east) *)
Definition project_earth_position (t tperi period ecc : R) (Rm : mat) (north east : vec) : R * R :=
  let phi := 2 * PI * (t - tperi) / period in
  let psi := getpsi phi ecc in
  let r_eq := mvmul Rm (orbit_position psi ecc) in
  (dot north r_eq, dot east r_eq).

Record parallax_params := mkpar { pp_q0 : R * R; pp_v0 : R * R; pp_R : mat; pp_north : vec; pp_east : vec;
  pp_tref : R; pp_tperi : R; pp_period : R; pp_ecc : R }.
(** parallax.py:339-343: the true anomaly of the equinox *)
Definition f_rot (tperi tvernal period ecc : R) : R :=
  let phi_offset := 2 * PI * (tvernal - tperi) / period in
  let psi_offset := getpsi phi_offset ecc in
  let costh := (cos psi_offset - ecc) / (1 - ecc * cos psi_offset) in
  let sinth := sqrt (1 - ecc ^ 2) * sin psi_offset / (1 - ecc * cos psi_offset) in
  mod_2pi (arctan2 sinth costh).
(** parallax.py:272-350 [set_parallax] *)
Definition set_parallax (tref tperi tvernal RA Dec rotaxis_deg ecc period dt : R) : option parallax_params :=
  let '(tperi, tvernal) := if Reqb (tperi * tvernal) 0 then peri_vernal tref else (tperi, tvernal) in
  match prepare_projection_basis rotaxis_deg (f_rot tperi tvernal period ecc) RA Dec with
  | (Rm, Some north, Some east) =>
    let proj t := project_earth_position t tperi period ecc Rm north east in
    let qne0 := proj tref in
    let qne1 := proj (tref - dt) in
    let qne2 := proj (tref + dt) in
    let v a b := 0.5 * (b - a) / dt in
    Some (mkpar qne0 (v (fst qne1) (fst qne2), v (snd qne1) (snd qne2)) Rm north east tref tperi period ecc)
  | _ => None
  end.
(** parallax.py:352-397 [compute_parallax], one time *)
Definition compute_parallax1 (piEN piEE : R) (p : parallax_params) (t : R) : R * R :=
  let qne := project_earth_position t (pp_tperi p) (pp_period p) (pp_ecc p) (pp_R p) (pp_north p) (pp_east p) in
  let dt_ref := t - pp_tref p in
  let d0 := fst qne - (fst (pp_q0 p) + fst (pp_v0 p) * dt_ref) in
  let d1 := snd qne - (snd (pp_q0 p) + snd (pp_v0 p) * dt_ref) in
  (piEN * d0 + piEE * d1, piEN * d1 - piEE * d0).
Definition compute_parallax (ts : list R) (piEN piEE : R) (p : parallax_params) : list R * list R :=
  let r := map (compute_parallax1 piEN piEE p) ts in (map fst r, map snd r).
