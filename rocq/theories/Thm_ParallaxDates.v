(** Annual parallax and the origin of the time axis: property C82. *)
From Coq Require Import Reals List Bool Arith ZArith Lia Lra Classical.
From Coquelicot Require Import Coquelicot.
From Verif Require Import Base_R Base_List M_Utils M_MergeArea S_Parallax M_Parallax P_Parallax.
Import ListNotations.
Local Open Scope R_scope.

Lemma project_translate T t tperi period ecc Rm north east :
  project_earth_position (t + T) (tperi + T) period ecc Rm north east = project_earth_position t tperi period ecc Rm north east.
Proof. unfold project_earth_position. replace (t + T - (tperi + T)) with (t - tperi) by ring. reflexivity. Qed.

Lemma Some_eq {A : Type} (x y : A) : Some x = Some y -> x = y.
Proof. congruence. Qed.

(** All four times on a common axis: the origin of that axis does not matter. *)
Theorem C82_translation : forall T tref tperi tvernal RA Dec rotaxis_deg ecc period dt p, tperi * tvernal <> 0 ->
  (tperi + T) * (tvernal + T) <> 0 -> set_parallax tref tperi tvernal RA Dec rotaxis_deg ecc period dt = Some p ->
  exists p', set_parallax (tref + T) (tperi + T) (tvernal + T) RA Dec rotaxis_deg ecc period dt = Some p' /\
    forall ts piEN piEE, compute_parallax (map (fun t => t + T) ts) piEN piEE p' = compute_parallax ts piEN piEE p.
Proof.
  intros T tref tp tv RA Dec rd ecc period dt p H1 H2 E. unfold set_parallax in *.
  destruct (Reqb_spec (tp * tv) 0) as [|_]; [lra|]. destruct (Reqb_spec ((tp + T) * (tv + T)) 0) as [|_]; [lra|].
  assert (F : f_rot (tp + T) (tv + T) period ecc = f_rot tp tv period ecc).
  { unfold f_rot. replace (tv + T - (tp + T)) with (tv - tp) by ring. reflexivity. }
  cbv iota in *. rewrite F. destruct (prepare_projection_basis rd (f_rot tp tv period ecc) RA Dec) as [[Rm on] oe].
  destruct on as [north|]; [|discriminate E]. destruct oe as [east|]; [|discriminate E].
  cbv iota zeta in *. apply Some_eq in E. subst p. eexists. split; [reflexivity|]. intros ts n e. unfold compute_parallax.
  rewrite map_map.
  replace (tref + T - dt) with (tref - dt + T) by ring. replace (tref + T + dt) with (tref + dt + T) by ring.
  rewrite !project_translate.
  f_equal; rewrite !map_map; apply map_ext; intros t; unfold compute_parallax1;
    cbn [pp_q0 pp_v0 pp_R pp_north pp_east pp_tref pp_tperi pp_period pp_ecc];
    rewrite !project_translate; replace (t + T - (tref + T)) with (t - tref) by ring; reflexivity.
Qed.

(** Absolute Julian dates with the automatic choice of perihelion: the position is the one 225.59 days later. *)
Theorem C82_season : forall t tperi ecc Rm north east,
  project_earth_position (t + 2450000) tperi 365.25636 ecc Rm north east =
  project_earth_position (t + 225.59348) tperi 365.25636 ecc Rm north east.
Proof.
  intros. replace (t + 2450000) with (t + 225.59348 + IZR 6707 * 365.25636) by lra. apply project_periodic. lra.
Qed.

Lemma bounded_multiple a : (forall n : nat, Rabs (INR n * a) <= 4) -> a = 0.
Proof.
  intros H. destruct (Req_dec a 0) as [|N]; [assumption|exfalso].
  pose proof (Rabs_pos_lt a N) as P. destruct (archimed (4 / Rabs a)) as (Hz & _).
  assert (Q : 0 < 4 / Rabs a) by (apply Rdiv_lt_0_compat; lra).
  set (n := Z.to_nat (up (4 / Rabs a))). assert (Hn : INR n > 4 / Rabs a).
  { unfold n. rewrite INR_IZR_INZ, Z2Nat.id; [exact Hz|]. apply le_IZR. lra. }
  specialize (H n). rewrite Rabs_mult, (Rabs_right (INR n)) in H by (apply Rle_ge, pos_INR).
  assert (4 < INR n * Rabs a); [|lra].
  apply Rmult_gt_compat_r with (r := Rabs a) in Hn; [|exact P]. unfold Rdiv in Hn. rewrite Rmult_assoc, Rinv_l in Hn by lra. lra.
Qed.

(** a bounded periodic function whose increment over [s] is affine has increment zero *)
Lemma affine_increment (q : R -> R) s P a b : 0 < P -> (forall t, q (t + P) = q t) -> (forall t, Rabs (q t) <= 2) ->
  (forall t, q (t + s) - q t = a + b * t) -> forall t, q (t + s) = q t.
Proof.
  intros HP Hper Hb Hinc.
  assert (b = 0).
  { pose proof (Hinc 0) as H0. pose proof (Hinc P) as H1. replace (P + s) with (0 + s + P) in H1 by ring.
    replace P with (0 + P) in H1 at 2 by ring. rewrite !Hper in H1.
    assert (b * P = 0) by lra. apply Rmult_integral in H. destruct H; lra. }
  subst b.
  assert (K : forall n t, q (t + INR n * s) = q t + INR n * a).
  { induction n as [|n IH]; intros t; [cbn [INR]; replace (t + 0 * s) with t by ring; ring|].
    rewrite S_INR. replace (t + (INR n + 1) * s) with (t + INR n * s + s) by ring.
    pose proof (Hinc (t + INR n * s)) as H. rewrite IH in H. lra. }
  assert (a = 0).
  { apply bounded_multiple. intros n. replace (INR n * a) with (q (0 + INR n * s) - q 0) by (rewrite K; ring).
    pose proof (Hb (0 + INR n * s)). pose proof (Hb 0). unfold Rabs in *. repeat destruct Rcase_abs; lra. }
  intros t. pose proof (Hinc t). subst a. lra.
Qed.

Lemma cos_dec Dec : -90 < Dec < 90 -> 0 < cos (deg2rad Dec).
Proof. intros H. pose proof PI_RGT_0. apply cos_gt_0; unfold deg2rad; nra. Qed.

Lemma set_parallax_auto tref RA Dec rd ecc period dt : -90 < Dec < 90 ->
  let tp := fst (peri_vernal tref) in let tv := snd (peri_vernal tref) in
  let a := deg2rad RA in let d := deg2rad Dec in
  exists q0 v0, set_parallax tref 0 0 RA Dec rd ecc period dt =
    Some (mkpar q0 v0 (mmul (rot_x (deg2rad rd)) (rot_z (f_rot tp tv period ecc)))
      (- cos a * sin d, - sin a * sin d, cos d) (- sin a, cos a, 0) tref tp period ecc).
Proof.
  intros HD tp tv a d. unfold set_parallax. destruct (Reqb_spec (0 * 0) 0) as [_|N]; [|lra]. cbv iota.
  rewrite (surjective_pairing (peri_vernal tref)). fold tp tv. cbv iota beta.
  rewrite (basis_explicit rd (f_rot tp tv period ecc) RA Dec (cos_dec Dec HD)). fold a d. cbv iota zeta beta.
  eexists _, _. reflexivity.
Qed.

(** seen from off the ecliptic plane the projected position determines the position *)
Lemma projected_injective eps f a d x1 y1 x2 y2 : sin d * cos eps - sin a * cos d * sin eps <> 0 ->
  let Rm := mmul (rot_x eps) (rot_z f) in
  let north := (- cos a * sin d, - sin a * sin d, cos d) in let east := (- sin a, cos a, 0) in
  dot north (mvmul Rm (x1, y1, 0)) = dot north (mvmul Rm (x2, y2, 0)) ->
  dot east (mvmul Rm (x1, y1, 0)) = dot east (mvmul Rm (x2, y2, 0)) -> x1 = x2 /\ y1 = y2.
Proof.
  intros N Rm north east. unfold Rm, north, east. cbn [mmul mvmul transpose rot_x rot_z dot]. rewrite cos_neg, sin_neg.
  pose proof (sin2_cos2 a) as Ha. pose proof (sin2_cos2 f) as Hf. unfold Rsqr in *.
  set (ca := cos a) in *. set (sa := sin a) in *. set (cd := cos d) in *. set (sd := sin d) in *.
  set (ce := cos eps) in *. set (se := sin eps) in *. set (cf := cos f) in *. set (sf := sin f) in *.
  intros H1 H2. set (X := (x1 - x2) * cf + (y1 - y2) * sf). set (Y := (y1 - y2) * cf - (x1 - x2) * sf).
  assert (E1 : - ca * sd * X + (- sa * sd * ce + cd * se) * Y = 0) by (unfold X, Y; lra).
  assert (E2 : - sa * X + ca * ce * Y = 0) by (unfold X, Y; lra).
  assert (EY : (sd * ce - sa * cd * se) * Y = 0).
  { replace ((sd * ce - sa * cd * se) * Y) with ((sa * sa + ca * ca) * (sd * ce * Y) - sa * cd * se * Y) by (rewrite Ha; ring).
    replace (_ - _) with (- (sa * (- ca * sd * X + (- sa * sd * ce + cd * se) * Y)) + ca * sd * (- sa * X + ca * ce * Y)) by ring.
    rewrite E1, E2. ring. }
  assert (EX : (sd * ce - sa * cd * se) * X = 0).
  { replace ((sd * ce - sa * cd * se) * X) with ((sa * sa + ca * ca) * (sd * ce * X) - sa * cd * se * X) by (rewrite Ha; ring).
    replace (_ - _) with (- (ca * ce * (- ca * sd * X + (- sa * sd * ce + cd * se) * Y))
      + (- sa * sd * ce + cd * se) * (- sa * X + ca * ce * Y)) by ring.
    rewrite E1, E2. ring. }
  apply Rmult_integral in EX, EY. destruct EX as [|EX]; [lra|]. destruct EY as [|EY]; [lra|].
  assert (x1 - x2 = (sf * sf + cf * cf) * (x1 - x2)) as F1 by (rewrite Hf; ring).
  assert (y1 - y2 = (sf * sf + cf * cf) * (y1 - y2)) as F2 by (rewrite Hf; ring).
  replace ((sf * sf + cf * cf) * (x1 - x2)) with (cf * X - sf * Y) in F1 by (unfold X, Y; ring).
  replace ((sf * sf + cf * cf) * (y1 - y2)) with (sf * X + cf * Y) in F2 by (unfold X, Y; ring).
  rewrite EX, EY in F1, F2. lra.
Qed.

Lemma getpsi_zero e : getpsi 0 e = 0.
Proof. pose proof (getpsi_odd 0 e) as H. rewrite Ropp_0 in H. lra. Qed.

(** 225.59 days after perihelion the Earth is not back at perihelion *)
Lemma not_at_perihelion : cos (getpsi (2 * PI * 225.59348 / 365.25636) 0.0167) <> 1.
Proof.
  intros H. set (phi := 2 * PI * 225.59348 / 365.25636) in *. set (psi := getpsi phi 0.0167) in *.
  assert (S : sin psi = 0). { pose proof (sin2_cos2 psi) as Q. unfold Rsqr in Q. rewrite H in Q. nra. }
  apply sin_eq_0_0 in S. destruct S as (k & K).
  destruct (kepler_exists_unique 0.0167 phi ltac:(lra)) as (p & Hp & _).
  pose proof (getpsi_earth phi p Hp) as E. fold psi in E. unfold eccentric_anomaly in Hp.
  assert (B : (1 / 10) ^ 100 <= 1 / 10).
  { replace ((1 / 10) ^ 100) with (1 / 10 * (1 / 10) ^ 99) by (rewrite <- tech_pow_Rmult; reflexivity).
    assert ((1 / 10) ^ 99 <= 1) by (rewrite <- (pow1 99); apply pow_incr; lra). lra. }
  pose proof (SIN_bound p) as Sp. pose proof PI_RGT_0 as P0. assert (P3 : 3 < PI) by (pose proof PI2_3_2; lra).
  assert (D : - 0.12 <= IZR k * PI - phi <= 0.12). { rewrite <- K. unfold Rabs in E. destruct Rcase_abs; lra. }
  unfold phi in D. assert (L1 : 1 < IZR k) by nra. assert (L2 : IZR k < 2) by nra.
  apply lt_IZR in L1, L2. lia.
Qed.

(** The date lookup takes absolute Julian dates as well as reduced ones.  The offsets do not: for every reference date
    and every target off the ecliptic the two give different offsets. *)
Theorem C82_full_date_refuted : forall tref RA Dec rotaxis_deg dt piEN piEE, 0 < tref <= 2450000 -> -90 < Dec < 90 ->
  let eps := rotaxis_deg * PI / 180 in
  ip (direction (RA * PI / 180) (Dec * PI / 180)) (0, - sin eps, cos eps) <> 0 -> (piEN, piEE) <> (0, 0) ->
  exists p p', set_parallax tref 0 0 RA Dec rotaxis_deg 0.0167 365.25636 dt = Some p /\
    set_parallax (tref + 2450000) 0 0 RA Dec rotaxis_deg 0.0167 365.25636 dt = Some p' /\
    pp_tperi p' = pp_tperi p /\
    exists t, compute_parallax [t + 2450000] piEN piEE p' <> compute_parallax [t] piEN piEE p.
Proof.
  intros tref RA Dec rd dt n e Ht HD eps Hecl Hpi.
  destruct (set_parallax_auto tref RA Dec rd 0.0167 365.25636 dt HD) as (q0 & v0 & E).
  destruct (set_parallax_auto (tref + 2450000) RA Dec rd 0.0167 365.25636 dt HD) as (q0' & v0' & E').
  rewrite (peri_vernal_full_jd tref Ht) in E'. revert E E'.
  generalize (fst (peri_vernal tref)) as tp. generalize (snd (peri_vernal tref)) as tv. intros tv tp E E'.
  eexists _, _. split; [exact E|]. split; [exact E'|]. split; [reflexivity|]. clear E E'.
  apply not_all_ex_not. intros All.
  set (f := f_rot tp tv 365.25636 0.0167) in *. set (a := deg2rad RA) in *. set (d := deg2rad Dec) in *.
  set (Rm := mmul (rot_x (deg2rad rd)) (rot_z f)) in *. set (north := (- cos a * sin d, - sin a * sin d, cos d)) in *.
  set (east := (- sin a, cos a, 0)) in *.
  set (q := fun t => project_earth_position t tp 365.25636 0.0167 Rm north east).
  assert (Inc : forall t, fst (q (t + 225.59348)) - fst (q t) =
      (fst q0' - fst v0' * tref - fst q0 + fst v0 * tref) + (fst v0' - fst v0) * t /\
    snd (q (t + 225.59348)) - snd (q t) =
      (snd q0' - snd v0' * tref - snd q0 + snd v0 * tref) + (snd v0' - snd v0) * t).
  { intros t. specialize (All t). unfold compute_parallax in All. cbn [map] in All. apply pair_lists in All.
    destruct All as (A1 & A2). unfold compute_parallax1 in A1, A2.
    cbn [pp_q0 pp_v0 pp_R pp_north pp_east pp_tref pp_tperi pp_period pp_ecc fst snd] in A1, A2.
    rewrite C82_season in A1, A2. unfold q.
    replace (t + 2450000 - (tref + 2450000)) with (t - tref) in A1, A2 by ring.
    revert A1 A2. generalize (project_earth_position (t + 225.59348) tp 365.25636 0.0167 Rm north east).
    generalize (project_earth_position t tp 365.25636 0.0167 Rm north east). intros [x y] [x' y']. cbn [fst snd].
    set (d0 := x - (fst q0 + fst v0 * (t - tref))). set (d1 := y - (snd q0 + snd v0 * (t - tref))).
    set (d0' := x' - (fst q0' + fst v0' * (t - tref))). set (d1' := y' - (snd q0' + snd v0' * (t - tref))).
    intros A1 A2. assert (NZ : n * n + e * e <> 0).
    { intros Z. apply Hpi. assert (n = 0) by nra. assert (e = 0) by nra. congruence. }
    assert (Z0 : (n * n + e * e) * (d0' - d0) = 0).
    { replace ((n * n + e * e) * (d0' - d0)) with (n * ((n * d0' + e * d1') - (n * d0 + e * d1))
        - e * ((n * d1' - e * d0') - (n * d1 - e * d0))) by ring. rewrite A1, A2. ring. }
    assert (Z1 : (n * n + e * e) * (d1' - d1) = 0).
    { replace ((n * n + e * e) * (d1' - d1)) with (e * ((n * d0' + e * d1') - (n * d0 + e * d1))
        + n * ((n * d1' - e * d0') - (n * d1 - e * d0))) by ring. rewrite A1, A2. ring. }
    apply Rmult_integral in Z0, Z1. destruct Z0 as [|Z0]; [contradiction|]. destruct Z1 as [|Z1]; [contradiction|].
    unfold d0, d0' in Z0. unfold d1, d1' in Z1. lra. }
  assert (Per : forall t, q (t + 365.25636) = q t).
  { intros t. unfold q. replace (t + 365.25636) with (t + IZR 1 * 365.25636) by lra. apply project_periodic. lra. }
  assert (Bd : forall t, Rabs (fst (q t)) <= 2 /\ Rabs (snd (q t)) <= 2).
  { intros t. destruct (projection_length t tp 365.25636 0.0167 rd f RA Dec Rm north east ltac:(lra) HD
      (basis_explicit rd f RA Dec (cos_dec Dec HD))) as (along & L).
    fold (q t) in L. revert L. generalize (getpsi (2 * PI * (t - tp) / 365.25636) 0.0167). intros psi L.
    pose proof (COS_bound psi) as Cb. assert (U : (1 - 0.0167 * cos psi) ^ 2 <= 4) by nra.
    split; apply Rabs_le; nra. }
  assert (Q1 := affine_increment (fun t => fst (q t)) 225.59348 365.25636 _ _ ltac:(lra)
    (fun t => f_equal fst (Per t)) (fun t => proj1 (Bd t)) (fun t => proj1 (Inc t)) tp).
  assert (Q2 := affine_increment (fun t => snd (q t)) 225.59348 365.25636 _ _ ltac:(lra)
    (fun t => f_equal snd (Per t)) (fun t => proj2 (Bd t)) (fun t => proj2 (Inc t)) tp).
  cbv beta in Q1, Q2. unfold q, project_earth_position in Q1, Q2. cbn [fst snd] in Q1, Q2.
  replace (2 * PI * (tp - tp) / 365.25636) with 0 in Q1, Q2 by lra.
  replace (2 * PI * (tp + 225.59348 - tp) / 365.25636) with (2 * PI * 225.59348 / 365.25636) in Q1, Q2 by lra.
  rewrite getpsi_zero in Q1, Q2. unfold orbit_position in Q1, Q2.
  destruct (projected_injective (deg2rad rd) f a d _ _ _ _ ltac:(
    intros Z; apply Hecl; unfold ip, direction; unfold a, d, deg2rad in Z; unfold eps; lra) Q1 Q2) as (X & _).
  rewrite cos_0 in X. apply not_at_perihelion. lra.
Qed.

(** a target at declination 60 degrees, reference date 2458000 *)
Example C82_case : exists p p', set_parallax 8000 0 0 0 60 23.44 0.0167 365.25636 0.1 = Some p /\
  set_parallax (8000 + 2450000) 0 0 0 60 23.44 0.0167 365.25636 0.1 = Some p' /\ pp_tperi p' = pp_tperi p /\
  exists t, compute_parallax [t + 2450000] 0.1 (-0.2) p' <> compute_parallax [t] 0.1 (-0.2) p.
Proof.
  apply C82_full_date_refuted; [lra|lra| |intros H; injection H; lra].
  unfold ip, direction. replace (0 * PI / 180) with 0 by lra. rewrite sin_0.
  assert (0 < sin (60 * PI / 180)) by (apply sin_gt_0; pose proof PI_RGT_0; lra).
  assert (0 < cos (23.44 * PI / 180)) by (apply cos_gt_0; pose proof PI_RGT_0; lra). nra.
Qed.
(** the season is off by more than seven months: 2450000 days are 6707 years and 225.59 days *)
Example C82_shift_case : 2450000 = 6707 * 365.25636 + 225.59348.
Proof. lra. Qed.
Example C82_translation_case : exists p p', set_parallax 8000 7758.08333 7832.93611 266.4 (-29) 23.44 0.0167 365.25636 0.1 = Some p /\
  set_parallax (8000 + 2450000) (7758.08333 + 2450000) (7832.93611 + 2450000) 266.4 (-29) 23.44 0.0167 365.25636 0.1 = Some p' /\
  compute_parallax [7990 + 2450000; 8020 + 2450000] 0.1 (-0.2) p' = compute_parallax [7990; 8020] 0.1 (-0.2) p.
Proof.
  destruct (set_parallax_defined 8000 7758.08333 7832.93611 266.4 (-29) 23.44 0.0167 365.25636 0.1 ltac:(lra)) as (p & E & _).
  destruct (C82_translation 2450000 8000 7758.08333 7832.93611 266.4 (-29) 23.44 0.0167 365.25636 0.1 p ltac:(lra) ltac:(lra) E) as (p' & E' & A).
  exists p, p'. split; [exact E|]. split; [exact E'|]. exact (A [7990; 8020] 0.1 (-0.2)).
Qed.

Print Assumptions C82_translation.
Print Assumptions C82_season.
Print Assumptions C82_full_date_refuted.
