(** How fast the parallax offsets grow away from the reference time: property C83. *)
From Coq Require Import Reals List Bool Arith ZArith Lia Lra Machin.
From Coquelicot Require Import Coquelicot.
From Verif Require Import Base_R Base_List M_Utils M_MergeArea S_Parallax M_Parallax P_Parallax.
Import ListNotations.
Local Open Scope R_scope.

(** sign of the derivative *)
Lemma nonincreasing (f f' : R -> R) x y : x <= y -> (forall z, is_derive f z (f' z)) -> (forall z, x <= z <= y -> f' z <= 0) -> f y <= f x.
Proof.
  intros L D N. destruct (MVT_gen f x y f') as (c & Hc & E).
  - intros z _. apply D.
  - intros z _. apply continuity_pt_filterlim. apply (ex_derive_continuous f). eexists. apply D.
  - rewrite Rmin_left, Rmax_right in Hc by lra. specialize (N c Hc). nra.
Qed.

Section orbit.
Variables (e al be : R).
Hypothesis He : 0 <= e < 1.
Hypothesis Hab : al ^ 2 + be ^ 2 <= 1.
Let b := sqrt (1 - e ^ 2).
(** one sky coordinate of the orbit, mean anomaly, velocity per unit of mean anomaly *)
Let G psi := al * (cos psi - e) + be * (sin psi * b).
Let M psi := psi - e * sin psi.
Let S psi := (- al * sin psi + be * b * cos psi) / (1 - e * cos psi).
Let A := / (1 - e) ^ 2.

Lemma orbit_b : b ^ 2 = 1 - e ^ 2 /\ 0 <= b <= 1.
Proof. unfold b. assert (0 <= 1 - e ^ 2) by nra. pose proof (sqrt_pos (1 - e ^ 2)). pose proof (pow2_sqrt _ H). split; [assumption|]. nra. Qed.
Lemma orbit_den psi : 0 < 1 - e <= 1 - e * cos psi.
Proof. pose proof (COS_bound psi). split; [lra|nra]. Qed.
(** Cauchy-Schwarz against a vector of known length *)
Lemma cauchy_unit x y r : 0 <= r -> x ^ 2 + y ^ 2 <= r ^ 2 -> Rabs (al * x + be * y) <= r.
Proof.
  intros Hr H. rewrite <- (Rabs_right r) by lra. apply Rsqr_le_abs_0. unfold Rsqr.
  assert ((al * x + be * y) * (al * x + be * y) <= (al ^ 2 + be ^ 2) * (x ^ 2 + y ^ 2)).
  { assert (0 <= (al * y - be * x) ^ 2) by apply pow2_ge_0. lra. }
  assert ((al ^ 2 + be ^ 2) * (x ^ 2 + y ^ 2) <= 1 * r ^ 2); [|lra].
  apply Rmult_le_compat; try lra; nra.
Qed.
Lemma orbit_G psi : is_derive G psi (- al * sin psi + be * b * cos psi).
Proof. unfold G. auto_derive; [exact I|ring]. Qed.
Lemma orbit_M psi : is_derive M psi (1 - e * cos psi).
Proof. unfold M. auto_derive; [exact I|ring]. Qed.
Lemma orbit_S psi : is_derive S psi (- (al * (cos psi - e) + be * (sin psi * b)) / (1 - e * cos psi) ^ 2).
Proof.
  unfold S. pose proof (orbit_den psi). auto_derive; [lra|].
  pose proof (sin2_cos2 psi) as Q. unfold Rsqr in Q.
  apply Rmult_eq_reg_r with ((1 - e * cos psi) ^ 2); [|apply pow_nonzero; lra].
  unfold Rdiv. rewrite (Rmult_assoc _ (/ (1 - e * cos psi) ^ 2)), Rinv_l, Rmult_1_r by (apply pow_nonzero; lra).
  transitivity (- (al * cos psi + be * b * sin psi) * (1 - e * cos psi) - (- al * sin psi + be * b * cos psi) * (e * sin psi)); [field; lra|].
  transitivity (- (al * cos psi + be * b * sin psi) + al * e * (sin psi * sin psi + cos psi * cos psi)); [ring|]. rewrite Q. ring.
Qed.
(** Newton's law bounds the acceleration *)
Lemma orbit_acc psi : Rabs (- (al * (cos psi - e) + be * (sin psi * b)) / (1 - e * cos psi) ^ 2) <= A * (1 - e * cos psi).
Proof.
  pose proof (orbit_den psi) as D. destruct orbit_b as (B & _). set (r := 1 - e * cos psi) in *.
  assert (C : Rabs (al * (cos psi - e) + be * (sin psi * b)) <= r).
  { apply cauchy_unit; [lra|]. pose proof (sin2_cos2 psi) as Q. unfold Rsqr in Q. unfold r.
    replace ((sin psi * b) ^ 2) with ((sin psi * sin psi) * b ^ 2) by ring. rewrite B.
    replace (sin psi * sin psi) with (1 - cos psi * cos psi) by lra. nra. }
  unfold Rdiv. rewrite Rabs_mult, Rabs_Ropp, (Rabs_right (/ r ^ 2)) by (apply Rle_ge, Rlt_le, Rinv_0_lt_compat, pow_lt; lra).
  apply Rle_trans with (r * / r ^ 2).
  - apply Rmult_le_compat_r; [apply Rlt_le, Rinv_0_lt_compat, pow_lt; lra|exact C].
  - rewrite Rmult_comm. apply Rmult_le_compat_r; [lra|]. unfold A. apply Rinv_le_contravar; [apply pow_lt; lra|]. apply pow_incr. lra.
Qed.
(** below its parabola *)
Lemma orbit_parabola psi0 psi : G psi - G psi0 - S psi0 * (M psi - M psi0) <= 1 / 2 * A * (M psi - M psi0) ^ 2.
Proof.
  set (K := fun z => S z - A * M z).
  assert (DK : forall z, is_derive K z (- (al * (cos z - e) + be * (sin z * b)) / (1 - e * cos z) ^ 2 - A * (1 - e * cos z))).
  { intros z. unfold K. apply (is_derive_minus S (fun z => A * M z)); [apply orbit_S|]. apply is_derive_scal. apply orbit_M. }
  assert (KM : forall x y, x <= y -> K y <= K x).
  { intros x y L. eapply nonincreasing; [exact L|exact DK|]. intros z _. pose proof (orbit_acc z) as Q. apply Rabs_le_between in Q. cbv beta. lra. }
  set (H := fun z => G z - S psi0 * (M z - M psi0) - 1 / 2 * A * (M z - M psi0) ^ 2).
  assert (DH : forall z, is_derive H z ((1 - e * cos z) * (K z - K psi0))).
  { intros z. pose proof (orbit_den z).
    replace ((1 - e * cos z) * (K z - K psi0)) with
      ((- al * sin z + be * b * cos z) - S psi0 * (1 - e * cos z) - A * (M z - M psi0) * (1 - e * cos z))
      by (unfold K, S at 2; field; lra).
    unfold H, G, M. auto_derive; [exact I|]. field. }
  destruct (Rle_dec psi0 psi) as [L|L].
  - assert (Q : H psi <= H psi0).
    { eapply nonincreasing; [exact L|exact DH|]. intros z Hz. cbv beta. pose proof (orbit_den z). pose proof (KM psi0 z (proj1 Hz)). nra. }
    unfold H in Q. replace (M psi0 - M psi0) with 0 in Q by ring. lra.
  - assert (Q : - H psi0 <= - H psi).
    { apply (nonincreasing (fun z => - H z) (fun z => - ((1 - e * cos z) * (K z - K psi0)))); [lra| |].
      - intros z. apply (is_derive_opp H). apply DH.
      - intros z Hz. pose proof (orbit_den z). pose proof (KM z psi0 (proj2 Hz)). nra. }
    unfold H in Q. replace (M psi0 - M psi0) with 0 in Q by ring. lra.
Qed.
Lemma orbit_lipschitz x y : x <= y -> Rabs (G x - G y) <= y - x.
Proof.
  intros L. assert (Q : forall z, Rabs (- al * sin z + be * b * cos z) <= 1).
  { intros z. replace (- al * sin z + be * b * cos z) with (al * (- sin z) + be * (b * cos z)) by ring. apply cauchy_unit; [lra|].
    destruct orbit_b as (_ & B). pose proof (sin2_cos2 z) as T. unfold Rsqr in T.
    replace ((b * cos z) ^ 2) with (b ^ 2 * (cos z * cos z)) by ring.
    assert (b ^ 2 * (cos z * cos z) <= 1 * (cos z * cos z)) by (apply Rmult_le_compat_r; nra). nra. }
  apply Rabs_le. split.
  - assert (G y - y <= G x - x); [|lra].
    apply (nonincreasing (fun z => G z - z) (fun z => (- al * sin z + be * b * cos z) - 1)); [exact L| |].
    + intros z. unfold G. auto_derive; [exact I|ring].
    + intros z _. specialize (Q z). apply Rabs_le_between in Q. lra.
  - assert (- G y - y <= - G x - x); [|lra].
    apply (nonincreasing (fun z => - G z - z) (fun z => - (- al * sin z + be * b * cos z) - 1)); [exact L| |].
    + intros z. unfold G. auto_derive; [exact I|ring].
    + intros z _. specialize (Q z). apply Rabs_le_between in Q. lra.
Qed.
End orbit.

Definition sky_coord (e al be psi : R) : R := al * (cos psi - e) + be * (sin psi * sqrt (1 - e ^ 2)).

Lemma orbit_both e al be psi0 : 0 <= e < 1 -> al ^ 2 + be ^ 2 <= 1 -> exists s, forall psi x,
  psi - e * sin psi - (psi0 - e * sin psi0) = x ->
  Rabs (sky_coord e al be psi - sky_coord e al be psi0 - s * x) <= 1 / 2 * / (1 - e) ^ 2 * x ^ 2.
Proof.
  intros He Hab. exists ((- al * sin psi0 + be * sqrt (1 - e ^ 2) * cos psi0) / (1 - e * cos psi0)). intros psi x <-.
  pose proof (orbit_parabola e al be He Hab psi0 psi) as U.
  pose proof (orbit_parabola e (- al) (- be) He ltac:(nra) psi0 psi) as L. cbv zeta beta in U, L. unfold sky_coord.
  apply Rabs_le. split; [|exact U].
  replace ((- - al * sin psi0 + - be * sqrt (1 - e ^ 2) * cos psi0) / (1 - e * cos psi0)) with
    (- ((- al * sin psi0 + be * sqrt (1 - e ^ 2) * cos psi0) / (1 - e * cos psi0))) in L
    by (pose proof (orbit_den e He psi0); field; lra).
  lra.
Qed.
Lemma sky_lipschitz e al be x y : 0 <= e < 1 -> al ^ 2 + be ^ 2 <= 1 -> Rabs (sky_coord e al be x - sky_coord e al be y) <= Rabs (x - y).
Proof.
  intros He Hab. destruct (Rle_dec x y) as [L|L].
  - rewrite (Rabs_minus_sym x y), (Rabs_right (y - x)) by lra. exact (orbit_lipschitz e al be He Hab x y L).
  - rewrite Rabs_minus_sym, (Rabs_right (x - y)) by lra. apply (orbit_lipschitz e al be He Hab y x). lra.
Qed.

(** the central difference in place of the velocity, the computed anomaly in place of the true one *)
Lemma sky_second_order e al be phi0 h x c : 0 <= e < 1 -> al ^ 2 + be ^ 2 <= 1 -> 0 < h ->
  let del := (e / (2 * (1 - e))) ^ 31 * (0.85 * e) ^ 32 in
  let q phi := sky_coord e al be (getpsi phi e) in
  c = (q (phi0 + h) - q (phi0 - h)) / (2 * h) ->
  Rabs (q (phi0 + x) - q phi0 - c * x) <= 1 / 2 * / (1 - e) ^ 2 * Rabs x * (Rabs x + h) + del * (2 + Rabs x / h).
Proof.
  intros He Hab Hh del q Hc.
  destruct (kepler_exists_unique e phi0 He) as (p0 & H0 & _). destruct (kepler_exists_unique e (phi0 + x) He) as (px & Hx & _).
  destruct (kepler_exists_unique e (phi0 + h) He) as (pp & Hp & _). destruct (kepler_exists_unique e (phi0 - h) He) as (pm & Hm & _).
  assert (N : forall phi p, eccentric_anomaly e phi p -> Rabs (q phi - sky_coord e al be p) <= del).
  { intros phi p E. eapply Rle_trans; [apply sky_lipschitz; assumption|]. apply getpsi_error; assumption. }
  pose proof (N _ _ H0) as N0. pose proof (N _ _ Hx) as Nx. pose proof (N _ _ Hp) as Np. pose proof (N _ _ Hm) as Nm.
  unfold eccentric_anomaly in *.
  destruct (orbit_both e al be p0 He Hab) as (s & Hs).
  pose proof (Hs px x ltac:(lra)) as Sx. pose proof (Hs pp h ltac:(lra)) as Sp. pose proof (Hs pm (- h) ltac:(lra)) as Sm.
  set (a := / (1 - e) ^ 2) in *. assert (Ha : 0 < a) by (apply Rinv_0_lt_compat, pow_lt; lra).
  set (gx := sky_coord e al be px) in *. set (g0 := sky_coord e al be p0) in *.
  set (gp := sky_coord e al be pp) in *. set (gm := sky_coord e al be pm) in *.
  apply Rabs_le_between in N0, Nx, Np, Nm, Sx, Sp, Sm.
  assert (Dc : Rabs (c - s) <= 1 / 2 * a * h + del / h).
  { assert (E : (c - s) * h = 1 / 2 * (q (phi0 + h) - q (phi0 - h)) - s * h) by (rewrite Hc; field; lra).
    assert (F : Rabs ((c - s) * h) <= 1 / 2 * a * h ^ 2 + del) by (rewrite E; apply Rabs_le; lra).
    rewrite Rabs_mult, (Rabs_right h) in F by lra.
    apply Rmult_le_reg_r with h; [lra|]. replace ((1 / 2 * a * h + del / h) * h) with (1 / 2 * a * h ^ 2 + del) by (field; lra). exact F. }
  assert (T : Rabs ((c - s) * x) <= (1 / 2 * a * h + del / h) * Rabs x).
  { rewrite Rabs_mult. apply Rmult_le_compat_r; [apply Rabs_pos|exact Dc]. }
  apply Rabs_le_between in T.
  replace (1 / 2 * a * Rabs x * (Rabs x + h) + del * (2 + Rabs x / h)) with
    (1 / 2 * a * x ^ 2 + 2 * del + (1 / 2 * a * h + del / h) * Rabs x).
  - apply Rabs_le. lra.
  - rewrite <- (pow2_abs x). field. lra.
Qed.

Lemma project_sky eps f a d u1 u2 : u1 ^ 2 + u2 ^ 2 = 1 -> exists al be, al ^ 2 + be ^ 2 <= 1 /\
  let Rm := mmul (rot_x eps) (rot_z f) in
  let north := (- cos a * sin d, - sin a * sin d, cos d) in let east := (- sin a, cos a, 0) in
  forall psi ecc, let r := mvmul Rm (orbit_position psi ecc) in u1 * dot north r + u2 * dot east r = sky_coord ecc al be psi.
Proof.
  intros Hu. set (w1 := - u1 * cos a * sin d - u2 * sin a). set (w2 := - u1 * sin a * sin d + u2 * cos a). set (w3 := u1 * cos d).
  set (wy := w2 * cos eps + w3 * sin eps). exists (w1 * cos f - wy * sin f), (w1 * sin f + wy * cos f). split.
  - pose proof (sin2_cos2 f) as Hf. pose proof (sin2_cos2 a) as Ha. pose proof (sin2_cos2 d) as Hd. pose proof (sin2_cos2 eps) as He.
    unfold Rsqr in *.
    replace ((w1 * cos f - wy * sin f) ^ 2 + (w1 * sin f + wy * cos f) ^ 2) with
      ((sin f * sin f + cos f * cos f) * (w1 ^ 2 + wy ^ 2)) by ring. rewrite Hf.
    assert (W : w1 ^ 2 + wy ^ 2 + (w2 * sin eps - w3 * cos eps) ^ 2 = 1).
    { unfold wy. replace (w1 ^ 2 + (w2 * cos eps + w3 * sin eps) ^ 2 + (w2 * sin eps - w3 * cos eps) ^ 2) with
        (w1 ^ 2 + (sin eps * sin eps + cos eps * cos eps) * (w2 ^ 2 + w3 ^ 2)) by ring. rewrite He.
      unfold w1, w2, w3.
      transitivity ((sin a * sin a + cos a * cos a) * (u1 ^ 2 * (sin d * sin d) + u2 ^ 2) + u1 ^ 2 * (cos d * cos d)); [ring|].
      rewrite Ha. transitivity (u1 ^ 2 * (sin d * sin d + cos d * cos d) + u2 ^ 2); [ring|]. rewrite Hd. lra. }
    pose proof (pow2_ge_0 (w2 * sin eps - w3 * cos eps)). lra.
  - intros Rm north east psi ecc r. unfold r, sky_coord, orbit_position, Rm, north, east.
    cbn [fst snd mmul mvmul transpose rot_x rot_z dot]. rewrite cos_neg, sin_neg. unfold wy, w1, w2, w3. ring.
Qed.

Lemma longest d1 d2 B : 0 <= B -> (forall u1 u2, u1 ^ 2 + u2 ^ 2 = 1 -> Rabs (u1 * d1 + u2 * d2) <= B) -> sqrt (d1 ^ 2 + d2 ^ 2) <= B.
Proof.
  intros HB H. set (r := sqrt (d1 ^ 2 + d2 ^ 2)). assert (Q : 0 <= d1 ^ 2 + d2 ^ 2) by nra.
  pose proof (sqrt_pos (d1 ^ 2 + d2 ^ 2)) as P. fold r in P. assert (E : r ^ 2 = d1 ^ 2 + d2 ^ 2) by (apply pow2_sqrt; exact Q).
  destruct (Req_dec r 0) as [Z|N]; [lra|].
  assert (U : (d1 / r) ^ 2 + (d2 / r) ^ 2 = 1).
  { replace ((d1 / r) ^ 2 + (d2 / r) ^ 2) with ((d1 ^ 2 + d2 ^ 2) / r ^ 2) by (field; lra). rewrite <- E. field. lra. }
  specialize (H _ _ U). replace (d1 / r * d1 + d2 / r * d2) with ((d1 ^ 2 + d2 ^ 2) / r) in H by (field; lra).
  rewrite <- E in H. replace (r ^ 2 / r) with r in H by (field; lra). apply Rabs_le_between in H. lra.
Qed.

(** The offsets vanish to second order at the reference time, up to the step of the finite difference and the error of
    the Kepler solver; the constant is the largest acceleration of the orbit. *)
Theorem C83_second_order : forall tref tperi tvernal RA Dec rotaxis_deg ecc period dt p piEN piEE t dtn dum,
  0 <= ecc < 1 -> 0 < period -> 0 < dt -> -90 < Dec < 90 ->
  set_parallax tref tperi tvernal RA Dec rotaxis_deg ecc period dt = Some p ->
  compute_parallax [t] piEN piEE p = ([dtn], [dum]) ->
  let tau := Rabs (t - tref) in
  let kepler_error := (ecc / (2 * (1 - ecc))) ^ 31 * (0.85 * ecc) ^ 32 in
  sqrt (dtn ^ 2 + dum ^ 2) <= sqrt (piEN ^ 2 + piEE ^ 2) *
    (1 / 2 * (2 * PI / period / (1 - ecc)) ^ 2 * tau * (tau + dt) + kepler_error * (2 + tau / dt)).
Proof.
  intros tref tp0 tv0 RA Dec rd ecc P dt p n e t x y He HP Hdt HD E C tau del.
  rewrite (parallax_length n e p t x y C).
  rewrite sqrt_mult by nra. apply Rmult_le_compat_l; [apply sqrt_pos|].
  assert (Hc : 0 < cos (deg2rad Dec)). { pose proof PI_RGT_0. apply cos_gt_0; unfold deg2rad; nra. }
  unfold set_parallax in E. destruct (if Reqb (tp0 * tv0) 0 then peri_vernal tref else (tp0, tv0)) as [tp tv].
  rewrite (basis_explicit rd (f_rot tp tv P ecc) RA Dec Hc) in E.
  set (a := deg2rad RA) in *. set (d := deg2rad Dec) in *. set (f := f_rot tp tv P ecc) in *. set (eps := deg2rad rd) in *.
  cbv iota zeta beta in E. assert (Ep := f_equal (fun o => match o with Some z => z | None => p end) E). cbv beta iota in Ep. subst p.
  assert (Hn : 0 < 2 * PI / P) by (apply Rdiv_lt_0_compat; pose proof PI_RGT_0; lra).
  assert (Hdel : 0 <= del).
  { unfold del. apply Rmult_le_pos; apply pow_le; [|lra]. apply Rmult_le_pos; [lra|]. apply Rlt_le, Rinv_0_lt_compat. lra. }
  assert (Ht : 0 <= tau) by apply Rabs_pos.
  assert (Htd : 0 <= tau / dt) by (apply Rmult_le_pos; [lra|apply Rlt_le, Rinv_0_lt_compat; lra]).
  apply longest.
  - pose proof (pow2_ge_0 (2 * PI / P / (1 - ecc))) as Q.
    assert (0 <= (2 * PI / P / (1 - ecc)) ^ 2 * (tau * (tau + dt))) by (apply Rmult_le_pos; [exact Q|nra]).
    assert (0 <= del * (2 + tau / dt)) by (apply Rmult_le_pos; lra). lra.
  - intros u1 u2 Hu. destruct (project_sky eps f a d u1 u2 Hu) as (al & be & Hab & K0). cbv zeta in K0.
    assert (K : forall t tp period ecc, let q := project_earth_position t tp period ecc (mmul (rot_x eps) (rot_z f))
        (- cos a * sin d, - sin a * sin d, cos d) (- sin a, cos a, 0) in
      u1 * fst q + u2 * snd q = sky_coord ecc al be (getpsi (2 * PI * (t - tp) / period) ecc))
      by (intros; apply K0). cbv zeta in K.
    unfold displacement. cbn [pp_q0 pp_v0 pp_R pp_north pp_east pp_tref pp_tperi pp_period pp_ecc fst snd].
    pose proof (K t tp P ecc) as K1. pose proof (K tref tp P ecc) as K2. pose proof (K (tref + dt) tp P ecc) as K3.
    pose proof (K (tref - dt) tp P ecc) as K4. revert K1 K2 K3 K4.
    generalize (project_earth_position t tp P ecc (mmul (rot_x eps) (rot_z f)) (- cos a * sin d, - sin a * sin d, cos d) (- sin a, cos a, 0)).
    generalize (project_earth_position tref tp P ecc (mmul (rot_x eps) (rot_z f)) (- cos a * sin d, - sin a * sin d, cos d) (- sin a, cos a, 0)).
    generalize (project_earth_position (tref + dt) tp P ecc (mmul (rot_x eps) (rot_z f)) (- cos a * sin d, - sin a * sin d, cos d) (- sin a, cos a, 0)).
    generalize (project_earth_position (tref - dt) tp P ecc (mmul (rot_x eps) (rot_z f)) (- cos a * sin d, - sin a * sin d, cos d) (- sin a, cos a, 0)).
    intros [m1 m2] [p1 p2] [z1 z2] [t1 t2]. cbn [fst snd]. intros K1 K2 K3 K4.
    set (phi0 := 2 * PI * (tref - tp) / P) in *. set (h := 2 * PI / P * dt). set (xx := 2 * PI / P * (t - tref)).
    replace (2 * PI * (t - tp) / P) with (phi0 + xx) in K1 by (unfold phi0, xx; field; lra).
    replace (2 * PI * (tref + dt - tp) / P) with (phi0 + h) in K3 by (unfold phi0, h; field; lra).
    replace (2 * PI * (tref - dt - tp) / P) with (phi0 - h) in K4 by (unfold phi0, h; field; lra).
    pose proof (sky_second_order ecc al be phi0 h xx _ He Hab ltac:(unfold h; apply Rmult_lt_0_compat; lra) eq_refl) as B.
    cbv zeta beta in B. rewrite <- K1, <- K2, <- K3, <- K4 in B. fold del in B.
    assert (X : Rabs xx = 2 * PI / P * tau) by (unfold xx, tau; rewrite Rabs_mult, (Rabs_right (2 * PI / P)) by lra; reflexivity).
    rewrite X in B. pose proof PI_RGT_0 as PI0.
    match goal with |- Rabs ?g <= _ => replace g with
      (u1 * t1 + u2 * t2 - (u1 * z1 + u2 * z2) - (u1 * p1 + u2 * p2 - (u1 * m1 + u2 * m2)) / (2 * h) * xx) end.
    2:{ replace 0.5 with (1 / 2) by lra. unfold h, xx. field. repeat split; lra. }
    eapply Rle_trans; [exact B|]. apply Req_le. unfold h. field. repeat split; lra.
Qed.

(** The stored velocity is that of the Kepler orbit, up to the step of the finite difference. *)
Lemma quad_derive (g : R -> R) t0 s K : 0 <= K -> (forall t, Rabs (g t - g t0 - s * (t - t0)) <= K * (t - t0) ^ 2) -> is_derive g t0 s.
Proof.
  intros HK H. apply is_derive_Reals. intros ep Hep.
  assert (Hd : 0 < ep / (K + 1)) by (apply Rdiv_lt_0_compat; lra). exists (mkposreal _ Hd). intros h Hh Hl. cbn in Hl.
  specialize (H (t0 + h)). replace (t0 + h - t0) with h in H by ring. pose proof (Rabs_pos_lt h Hh) as Ph.
  replace ((g (t0 + h) - g t0) / h - s) with ((g (t0 + h) - g t0 - s * h) / h) by (field; lra).
  unfold Rdiv at 1. rewrite Rabs_mult, Rabs_inv. apply Rmult_lt_reg_r with (Rabs h); [exact Ph|].
  rewrite Rmult_assoc, Rinv_l, Rmult_1_r by lra. eapply Rle_lt_trans; [exact H|].
  rewrite <- (pow2_abs h). replace (K * Rabs h ^ 2) with (K * Rabs h * Rabs h) by ring. apply Rmult_lt_compat_r; [exact Ph|].
  apply Rmult_lt_compat_l with (r := K + 1) in Hl; [|lra]. replace ((K + 1) * (ep / (K + 1))) with ep in Hl by (field; lra). lra.
Qed.
Lemma sky_velocity e al be P tp tref dt v (E : R -> R) : 0 <= e < 1 -> al ^ 2 + be ^ 2 <= 1 -> 0 < P -> 0 < dt ->
  let del := (e / (2 * (1 - e))) ^ 31 * (0.85 * e) ^ 32 in
  let q t := sky_coord e al be (getpsi (2 * PI * (t - tp) / P) e) in
  (forall t, eccentric_anomaly e (2 * PI * (t - tp) / P) (E t)) ->
  v = 0.5 * (q (tref + dt) - q (tref - dt)) / dt ->
  exists V, is_derive (fun t => sky_coord e al be (E t)) tref V /\ Rabs (v - V) <= 1 / 2 * (2 * PI / P / (1 - e)) ^ 2 * dt + del / dt.
Proof.
  intros He Hab HP Hdt del q HE Hv. pose proof PI_RGT_0 as PI0.
  assert (N : forall t, Rabs (q t - sky_coord e al be (E t)) <= del).
  { intros t. eapply Rle_trans; [apply sky_lipschitz; assumption|]. apply getpsi_error; [assumption|apply HE]. }
  destruct (orbit_both e al be (E tref) He Hab) as (s & Hs).
  assert (Q : forall t, Rabs (sky_coord e al be (E t) - sky_coord e al be (E tref) - s * (2 * PI / P) * (t - tref)) <=
    1 / 2 * (2 * PI / P / (1 - e)) ^ 2 * (t - tref) ^ 2).
  { intros t. specialize (Hs (E t) (2 * PI / P * (t - tref))). pose proof (HE t) as H1. pose proof (HE tref) as H2.
    unfold eccentric_anomaly in H1, H2. rewrite H1, H2 in Hs.
    assert (X : 2 * PI * (t - tp) / P - 2 * PI * (tref - tp) / P = 2 * PI / P * (t - tref)) by (field; lra). specialize (Hs X).
    rewrite Rmult_assoc. eapply Rle_trans; [exact Hs|]. apply Req_le. field. split; lra. }
  set (K := 1 / 2 * (2 * PI / P / (1 - e)) ^ 2) in *.
  assert (HK : 0 <= K) by (unfold K; pose proof (pow2_ge_0 (2 * PI / P / (1 - e))); lra).
  exists (s * (2 * PI / P)). split; [apply quad_derive with K; assumption|].
  pose proof (N (tref + dt)) as N1. pose proof (N (tref - dt)) as N2. pose proof (Q (tref + dt)) as Q1. pose proof (Q (tref - dt)) as Q2.
  replace (tref + dt - tref) with dt in Q1 by ring. replace (tref - dt - tref) with (- dt) in Q2 by ring.
  apply Rabs_le_between in N1, N2, Q1, Q2.
  assert (F : Rabs ((v - s * (2 * PI / P)) * dt) <= K * dt ^ 2 + del).
  { replace ((v - s * (2 * PI / P)) * dt) with (1 / 2 * (q (tref + dt) - q (tref - dt)) - s * (2 * PI / P) * dt)
      by (rewrite Hv; replace 0.5 with (1 / 2) by lra; field; lra). apply Rabs_le. lra. }
  rewrite Rabs_mult, (Rabs_right dt) in F by lra.
  apply Rmult_le_reg_r with dt; [lra|]. replace ((K * dt + del / dt) * dt) with (K * dt ^ 2 + del) by (field; lra). exact F.
Qed.
Theorem C83_velocity : forall tref tperi tvernal RA Dec rotaxis_deg ecc period dt p (E : R -> R),
  0 <= ecc < 1 -> 0 < period -> 0 < dt -> -90 < Dec < 90 ->
  set_parallax tref tperi tvernal RA Dec rotaxis_deg ecc period dt = Some p ->
  (forall t, eccentric_anomaly ecc (2 * PI * (t - pp_tperi p) / period) (E t)) ->
  let orbit t := mvmul (pp_R p) (cos (E t) - ecc, sqrt (1 - ecc ^ 2) * sin (E t), 0) in
  let bound := 1 / 2 * (2 * PI / period / (1 - ecc)) ^ 2 * dt + (ecc / (2 * (1 - ecc))) ^ 31 * (0.85 * ecc) ^ 32 / dt in
  exists Vn Ve, is_derive (fun t => ip (pp_north p) (orbit t)) tref Vn /\ is_derive (fun t => ip (pp_east p) (orbit t)) tref Ve /\
    Rabs (fst (pp_v0 p) - Vn) <= bound /\ Rabs (snd (pp_v0 p) - Ve) <= bound.
Proof.
  intros tref tp0 tv0 RA Dec rd ecc P dt p E He HP Hdt HD S HE orbit bound.
  assert (Hc : 0 < cos (deg2rad Dec)). { pose proof PI_RGT_0. apply cos_gt_0; unfold deg2rad; nra. }
  unfold set_parallax in S. destruct (if Reqb (tp0 * tv0) 0 then peri_vernal tref else (tp0, tv0)) as [tp tv].
  rewrite (basis_explicit rd (f_rot tp tv P ecc) RA Dec Hc) in S.
  set (a := deg2rad RA) in *. set (d := deg2rad Dec) in *. set (f := f_rot tp tv P ecc) in *. set (eps := deg2rad rd) in *.
  cbv iota zeta beta in S. assert (Ep := f_equal (fun o => match o with Some z => z | None => p end) S). cbv beta iota in Ep. subst p. clear S.
  unfold orbit. clear orbit. cbn [pp_q0 pp_v0 pp_R pp_north pp_east pp_tref pp_tperi pp_period pp_ecc fst snd] in *.
  assert (O : forall t, (cos (E t) - ecc, sqrt (1 - ecc ^ 2) * sin (E t), 0) = orbit_position (E t) ecc)
    by (intros t; unfold orbit_position; rewrite (Rmult_comm (sqrt _)); reflexivity).
  destruct (project_sky eps f a d 1 0 ltac:(lra)) as (al & be & Hab & K). destruct (project_sky eps f a d 0 1 ltac:(lra)) as (al' & be' & Hab' & K').
  cbv zeta in K, K'.
  assert (D1 : forall psi e, dot (- cos a * sin d, - sin a * sin d, cos d) (mvmul (mmul (rot_x eps) (rot_z f)) (orbit_position psi e)) = sky_coord e al be psi)
    by (intros psi e; rewrite <- K; ring).
  assert (D2 : forall psi e, dot (- sin a, cos a, 0) (mvmul (mmul (rot_x eps) (rot_z f)) (orbit_position psi e)) = sky_coord e al' be' psi)
    by (intros psi e; rewrite <- K'; ring).
  unfold project_earth_position. cbn [fst snd]. rewrite !D1, !D2.
  destruct (sky_velocity ecc al be P tp tref dt _ E He Hab HP Hdt HE eq_refl) as (Vn & I1 & B1).
  destruct (sky_velocity ecc al' be' P tp tref dt _ E He Hab' HP Hdt HE eq_refl) as (Ve & I2 & B2).
  exists Vn, Ve. split; [|split; [|split; [exact B1|exact B2]]].
  - apply (is_derive_ext (fun t => sky_coord ecc al be (E t))); [|exact I1]. intros t. rewrite O. symmetry. apply D1.
  - apply (is_derive_ext (fun t => sky_coord ecc al' be' (E t))); [|exact I2]. intros t. rewrite O. symmetry. apply D2.
Qed.
Lemma PI_above : PI <= 3.1421.
Proof.
  pose proof (proj2 (PI_2_3_7_ineq 1)) as H. cbn [Nat.mul Nat.add sum_f_R0] in H. unfold tg_alt, PI_2_3_7_tg, Ratan_seq in H.
  cbn [Nat.mul Nat.add pow INR] in H. lra.
Qed.
(** with the default orbital elements and step: 1.54e-4 of the parallax per day squared *)
Theorem C83_earth : forall tref tperi tvernal RA Dec rotaxis_deg p piEN piEE t dtn dum, -90 < Dec < 90 ->
  set_parallax tref tperi tvernal RA Dec rotaxis_deg 0.0167 365.25636 0.1 = Some p ->
  compute_parallax [t] piEN piEE p = ([dtn], [dum]) ->
  let tau := Rabs (t - tref) in
  sqrt (dtn ^ 2 + dum ^ 2) <= sqrt (piEN ^ 2 + piEE ^ 2) * (0.000154 * tau * (tau + 0.1) + (1 / 10) ^ 100 * (2 + 10 * tau)).
Proof.
  intros tref tp tv RA Dec rd p n e t x y HD E C tau.
  eapply Rle_trans; [apply (C83_second_order tref tp tv RA Dec rd 0.0167 365.25636 0.1 p n e t x y); try assumption; lra|].
  apply Rmult_le_compat_l; [apply sqrt_pos|]. fold tau. assert (Ht : 0 <= tau) by apply Rabs_pos. apply Rplus_le_compat.
  - replace (1 / 2 * (2 * PI / 365.25636 / (1 - 0.0167)) ^ 2 * tau * (tau + 0.1)) with
      (1 / 2 * (2 * PI / 365.25636 / (1 - 0.0167)) ^ 2 * (tau * (tau + 0.1))) by ring.
    rewrite (Rmult_assoc 0.000154). apply Rmult_le_compat_r; [nra|].
    assert (B : (2 * PI / 365.25636 / (1 - 0.0167)) ^ 2 <= (2 * 3.1421 / 365.25636 / (1 - 0.0167)) ^ 2).
    { apply pow_incr. pose proof PI_RGT_0. pose proof PI_above. lra. }
    lra.
  - replace (tau / 0.1) with (10 * tau) by lra. apply Rmult_le_compat_r; [lra|].
    assert (A : (0.0167 / (2 * (1 - 0.0167))) ^ 31 <= ((1 / 10) ^ 2) ^ 31) by (apply pow_incr; split; lra).
    assert (B : (0.85 * 0.0167) ^ 32 <= (2 * (1 / 10) ^ 2) ^ 32) by (apply pow_incr; split; lra).
    eapply Rle_trans; [apply Rmult_le_compat; [apply pow_le; lra|apply pow_le; lra|exact A|exact B]|].
    rewrite Rpow_mult_distr. rewrite <- !pow_mult.
    replace (2 ^ 32) with 4294967296 by lra. cbn [Nat.mul Nat.add].
    rewrite (Rmult_comm 4294967296), <- Rmult_assoc, <- pow_add. cbn [Nat.add].
    replace 126%nat with (100 + 26)%nat by reflexivity. rewrite pow_add, Rmult_assoc.
    rewrite <- (Rmult_1_r ((1 / 10) ^ 100)) at 2. apply Rmult_le_compat_l; [apply pow_le; lra|]. lra.
Qed.
(** ten days from the reference time, towards the Galactic bulge, parallax (0.1, -0.2): below 0.0035 Einstein radii *)
Example C83_case : exists p dtn dum, set_parallax 8000 0 0 266.4 (-29) 23.44 0.0167 365.25636 0.1 = Some p /\
  compute_parallax [8010] 0.1 (-0.2) p = ([dtn], [dum]) /\ sqrt (dtn ^ 2 + dum ^ 2) <= 0.0035.
Proof.
  destruct (set_parallax_defined 8000 0 0 266.4 (-29) 23.44 0.0167 365.25636 0.1 ltac:(lra)) as (p & E & _).
  eexists p, _, _. split; [exact E|]. split; [reflexivity|].
  eapply Rle_trans; [eapply (C83_earth 8000 0 0 266.4 (-29) 23.44 p 0.1 (-0.2) 8010); [lra|exact E|reflexivity]|].
  replace (Rabs (8010 - 8000)) with 10 by (rewrite Rabs_right; lra).
  assert (S : sqrt (0.1 ^ 2 + (-0.2) ^ 2) <= 0.2237) by (rewrite <- (sqrt_pow2 0.2237) by lra; apply sqrt_le_1_alt; lra).
  assert (T : (1 / 10) ^ 100 <= 1 / 100000000).
  { replace (1 / 100000000) with ((1 / 10) ^ 8 * 1) by lra. rewrite (pow_add (1 / 10) 8 92 : (1 / 10) ^ 100 = _).
    apply Rmult_le_compat_l; [lra|]. rewrite <- (pow1 92). apply pow_incr. lra. }
  pose proof (sqrt_pos (0.1 ^ 2 + (-0.2) ^ 2)). assert (0 <= (1 / 10) ^ 100) by (apply pow_le; lra).
  apply Rle_trans with (0.2237 * (0.000154 * 10 * (10 + 0.1) + 1 / 100000000 * (2 + 10 * 10))); [|lra].
  apply Rmult_le_compat; lra.
Qed.

Print Assumptions C83_second_order.
Print Assumptions C83_earth.
Print Assumptions C83_velocity.
