(** Annual parallax: properties C34 to C37. *)
From Coq Require Import Reals List Bool Arith ZArith Lia Lra.
From Coquelicot Require Import Coquelicot.
From Verif Require Import Base_R Base_List M_Utils M_MergeArea S_Parallax M_Parallax P_Parallax.
Import ListNotations.
Local Open Scope R_scope.

(** ** C34 *)
Theorem C34_zero_at_reference : forall tref tperi tvernal RA Dec rotaxis_deg ecc period dt p piEN piEE,
  set_parallax tref tperi tvernal RA Dec rotaxis_deg ecc period dt = Some p ->
  compute_parallax [tref] piEN piEE p = ([0], [0]).
Proof. exact parallax_zero. Qed.
Theorem C34_defined : forall tref tperi tvernal RA Dec rotaxis_deg ecc period dt, -90 < Dec < 90 ->
  exists p, set_parallax tref tperi tvernal RA Dec rotaxis_deg ecc period dt = Some p /\ pp_tref p = tref /\
    (tperi * tvernal <> 0 -> pp_tperi p = tperi).
Proof. exact set_parallax_defined. Qed.
Theorem C34_linear : forall a b n1 e1 n2 e2 p t x1 y1 x2 y2,
  compute_parallax [t] n1 e1 p = ([x1], [y1]) -> compute_parallax [t] n2 e2 p = ([x2], [y2]) ->
  compute_parallax [t] (a * n1 + b * n2) (a * e1 + b * e2) p = ([a * x1 + b * x2], [a * y1 + b * y2]).
Proof. exact parallax_linear. Qed.
(** the displacement from uniform motion, turned by the direction of the parallax vector, for every time array *)
Theorem C34_rotation : forall piEN piEE p ts, compute_parallax ts piEN piEE p =
  (map (fun t => piEN * fst (displacement p t) + piEE * snd (displacement p t)) ts,
   map (fun t => piEN * snd (displacement p t) - piEE * fst (displacement p t)) ts).
Proof. exact parallax_rotation. Qed.
Theorem C34_length : forall piEN piEE p t dtn dum, compute_parallax [t] piEN piEE p = ([dtn], [dum]) ->
  dtn ^ 2 + dum ^ 2 = (piEN ^ 2 + piEE ^ 2) * (fst (displacement p t) ^ 2 + snd (displacement p t) ^ 2).
Proof. exact parallax_length. Qed.
(** no net drift over the finite-difference window *)
Theorem C34_window : forall tref tperi tvernal RA Dec rotaxis_deg ecc period dt p n e, dt <> 0 ->
  set_parallax tref tperi tvernal RA Dec rotaxis_deg ecc period dt = Some p ->
  compute_parallax [tref + dt] n e p = compute_parallax [tref - dt] n e p.
Proof. exact parallax_window. Qed.
(** the projected position is exactly periodic *)
Theorem C34_annual : forall t tperi period ecc Rm north east k, period <> 0 ->
  project_earth_position (t + IZR k * period) tperi period ecc Rm north east = project_earth_position t tperi period ecc Rm north east.
Proof. exact project_periodic. Qed.
Example C34_case : exists p, set_parallax 8000 7758.08333 7832.93611 266.4 (-29) 23.44 0.0167 365.25636 0.1 = Some p /\
  compute_parallax [8000; 8000.1] 0.1 (-0.2) p = ([0; nth 1 (fst (compute_parallax [8000; 8000.1] 0.1 (-0.2) p)) 0],
    [0; nth 1 (snd (compute_parallax [8000; 8000.1] 0.1 (-0.2) p)) 0]).
Proof.
  destruct (C34_defined 8000 7758.08333 7832.93611 266.4 (-29) 23.44 0.0167 365.25636 0.1 ltac:(lra)) as (p & E & _). exists p. split; [exact E|].
  pose proof (C34_zero_at_reference _ _ _ _ _ _ _ _ _ p 0.1 (-0.2) E) as Z.
  unfold compute_parallax in *. cbn [map] in *. apply pair_lists in Z. destruct Z as [Z1 Z2]. rewrite Z1, Z2. reflexivity.
Qed.

(** ** C35 *)
Theorem C35_orthonormal : forall rotaxis_deg psi RA Dec, -90 < Dec < 90 ->
  exists Rm north east, prepare_projection_basis rotaxis_deg psi RA Dec = (Rm, Some north, Some east) /\
    let los := direction (RA * PI / 180) (Dec * PI / 180) in
    unit_vec north /\ unit_vec east /\ orthogonal north east /\ orthogonal north los /\ orthogonal east los /\
    det3 east north los = 1 /\ rotation Rm.
Proof. exact basis_orthonormal. Qed.
(** north and east are the directions in which declination and right ascension grow *)
Theorem C35_directions : forall rotaxis_deg psi RA Dec Rm north east, -90 < Dec < 90 ->
  prepare_projection_basis rotaxis_deg psi RA Dec = (Rm, Some north, Some east) ->
  let a := RA * PI / 180 in let d := Dec * PI / 180 in
  (forall u, is_derive (fun d' => ip u (direction a d')) d (ip u north)) /\
  (forall u, is_derive (fun a' => ip u (direction a' d)) a (cos d * ip u east)).
Proof. exact basis_directions. Qed.
(** the orbit rotation is orthogonal also at the poles, where north and east are NaN *)
Theorem C35_rotation : forall rotaxis_deg psi RA Dec, rotation (fst (fst (prepare_projection_basis rotaxis_deg psi RA Dec))).
Proof. exact orbit_rotation. Qed.
Theorem C35_pole : forall rotaxis_deg psi RA, snd (prepare_projection_basis rotaxis_deg psi RA 90) = None /\
  snd (fst (prepare_projection_basis rotaxis_deg psi RA 90)) = None.
Proof. exact basis_pole. Qed.
(** projected position plus line-of-sight component: an ellipse with the Sun in the focus *)
Theorem C35_projection : forall t tperi period ecc rotaxis_deg psi0 RA Dec Rm north east, 0 <= ecc < 1 -> -90 < Dec < 90 ->
  prepare_projection_basis rotaxis_deg psi0 RA Dec = (Rm, Some north, Some east) ->
  let q := project_earth_position t tperi period ecc Rm north east in
  let psi := getpsi (2 * PI * (t - tperi) / period) ecc in
  exists along, fst q ^ 2 + snd q ^ 2 + along ^ 2 = (1 - ecc * cos psi) ^ 2.
Proof. exact projection_length. Qed.
(** At the equinox the projected vector is the first equatorial axis.  That is where the Sun is seen from the Earth;
    the vector is therefore the position of the Sun relative to the Earth, not of the Earth relative to the Sun. *)
Theorem C35_equinox : forall tperi tvernal period ecc rotaxis_deg RA Dec, 0 <= ecc < 1 ->
  let psi := getpsi (2 * PI * (tvernal - tperi) / period) ecc in
  let Rm := fst (fst (prepare_projection_basis rotaxis_deg (f_rot tperi tvernal period ecc) RA Dec)) in
  mvmul Rm (orbit_position psi ecc) = (1 - ecc * cos psi, 0, 0).
Proof. exact equinox_direction. Qed.
Example C35_case : exists Rm, prepare_projection_basis 23.44 1 0 0 = (Rm, Some (0, 0, 1), Some (0, 1, 0)).
Proof.
  eexists. rewrite basis_explicit; replace (deg2rad 0) with 0 by (unfold deg2rad; field); rewrite ?cos_0, ?sin_0; [|lra].
  replace (- (1) * 0) with 0 by ring. replace (- 0 * 0) with 0 by ring. replace (- 0) with 0 by ring. reflexivity.
Qed.

(** ** C36 *)
Theorem C36_unique : forall e phi, 0 <= e < 1 -> exists! p, eccentric_anomaly e phi p.
Proof. exact kepler_exists_unique. Qed.
Theorem C36_error : forall e phi p, 0 <= e < 1 -> eccentric_anomaly e phi p ->
  Rabs (getpsi phi e - p) <= (e / (2 * (1 - e))) ^ 31 * (0.85 * e) ^ 32.
Proof. exact getpsi_error. Qed.
(** for the Earth *)
Theorem C36_earth : forall phi p, eccentric_anomaly 0.0167 phi p -> Rabs (getpsi phi 0.0167 - p) <= (1 / 10) ^ 100.
Proof. exact getpsi_earth. Qed.
Theorem C36_odd : forall phi e, getpsi (- phi) e = - getpsi phi e.
Proof. exact getpsi_odd. Qed.
Theorem C36_full_turns : forall phi e k, getpsi (phi + 2 * IZR k * PI) e = getpsi phi e + 2 * IZR k * PI.
Proof. exact getpsi_turn. Qed.
(** The documented range 0 <= ecc < 1 is too wide: close to one five steps are not enough. *)
Theorem C36_high_eccentricity_refuted : forall d, 0 < d <= 1 / 1000000000 ->
  forall p, eccentric_anomaly (1 - d) d p -> 0.01 < getpsi d (1 - d) - p.
Proof. exact getpsi_high. Qed.
Example C36_case : eccentric_anomaly 0.0167 (PI / 2 - 0.0167) (PI / 2) /\ eccentric_anomaly 0.0167 PI PI.
Proof. unfold eccentric_anomaly. rewrite sin_PI2, sin_PI. split; lra. Qed.

(** ** C37 *)
Theorem C37_nearest : forall t, t <= 2450000 -> exists i, nearest peris t i /\ peri_vernal t = (nth i peris 0, nth i vernals 0).
Proof. exact peri_vernal_nearest. Qed.
(** the equinox of the same year *)
Theorem C37_same_year : forall i, (i < 21)%nat -> 74 < nth i vernals 0 - nth i peris 0 < 78.
Proof. exact peri_before_vernal. Qed.
Theorem C37_full_date : forall t, 0 < t <= 2450000 -> peri_vernal (t + 2450000) = peri_vernal t.
Proof. exact peri_vernal_full_jd. Qed.
(** the docstring promises the equinox closest to the reference time; it is not *)
Theorem C37_nearest_equinox_refuted : nth 0 vernals 0 = 1623.81597 /\ Rabs (nth 0 vernals 0 - 1800) < Rabs (snd (peri_vernal 1800) - 1800).
Proof. exact vernal_not_nearest. Qed.

Print Assumptions C34_zero_at_reference.
Print Assumptions C34_defined.
Print Assumptions C34_linear.
Print Assumptions C34_rotation.
Print Assumptions C34_length.
Print Assumptions C34_window.
Print Assumptions C34_annual.
Print Assumptions C35_orthonormal.
Print Assumptions C35_directions.
Print Assumptions C35_rotation.
Print Assumptions C35_pole.
Print Assumptions C35_projection.
Print Assumptions C35_equinox.
Print Assumptions C36_unique.
Print Assumptions C36_error.
Print Assumptions C36_earth.
Print Assumptions C36_odd.
Print Assumptions C36_full_turns.
Print Assumptions C36_high_eccentricity_refuted.
Print Assumptions C37_nearest.
Print Assumptions C37_same_year.
Print Assumptions C37_full_date.
Print Assumptions C37_nearest_equinox_refuted.
