(** Brightness profiles and custom derivative rules: properties C26-C28. *)
From Coq Require Import Reals List Bool ZArith Lia Lra.
From Coquelicot Require Import Coquelicot.
From Verif Require Import Base_R Base_List Base_Int M_PointSource M_Limb P_Limb.
Import ListNotations.
Local Open Scope R_scope.

(** ** C26 *)
(** Total flux in polar coordinates is one, for every coefficient other than the pole u1 = 3 and any outer radius. *)
Theorem C26_unit_flux : forall u1 X f, u1 <> 3 -> 1 <= X -> (forall d, 0 <= d -> Is_limb_1st d u1 = Some (f d)) ->
  is_RInt (fun d => 2 * PI * d ^ 1 * f d) 0 X 1.
Proof. exact limb_flux. Qed.
Theorem C26_defined : forall d u1, 0 <= d -> exists v, Is_limb_1st d u1 = Some v.
Proof. exact limb_defined. Qed.
Print Assumptions C26_defined.
(** Second and fourth radial moments, with Gamma = 2 u1 / (3 - u1). *)
Theorem C26_second_moment : forall u1 X f, u1 <> 3 -> 1 <= X -> (forall d, 0 <= d -> Is_limb_1st d u1 = Some (f d)) ->
  is_RInt (fun d => 2 * PI * d ^ 3 * f d) 0 X (1 / 2 * (1 - 2 * u1 / (3 - u1) / 5)).
Proof. exact limb_mom2. Qed.
Theorem C26_fourth_moment : forall u1 X f, u1 <> 3 -> 1 <= X -> (forall d, 0 <= d -> Is_limb_1st d u1 = Some (f d)) ->
  is_RInt (fun d => 2 * PI * d ^ 5 * f d) 0 X (1 / 3 * (1 - 11 * (2 * u1 / (3 - u1)) / 35)).
Proof. exact limb_mom4. Qed.
Theorem C26_monotone : forall u1 d d' v v', 0 <= u1 <= 1 -> 0 <= d <= d' ->
  Is_limb_1st d u1 = Some v -> Is_limb_1st d' u1 = Some v' -> 0 <= v' <= v.
Proof. exact limb_shape. Qed.
Theorem C26_zero_outside : forall d u1, 1 <= d -> Is_limb_1st d u1 = Some 0.
Proof. exact limb_out. Qed.
Print Assumptions C26_zero_outside.
Theorem C26_uniform : forall d, 0 <= d < 1 -> Is_limb_1st d 0 = Some (/ PI).
Proof. exact limb_uniform. Qed.
Print Assumptions C26_uniform.
Theorem C26_centre : forall u1, Is_limb_1st 0 u1 = Some (3 / PI / (3 - u1)).
Proof. exact limb_centre_edge. Qed.
Print Assumptions C26_centre.
(** The bound u1 <= 1 above cannot be relaxed. *)
Theorem C26_negative_beyond_one : forall u1, 1 < u1 < 3 -> exists d v, 0 < d < 1 /\ Is_limb_1st d u1 = Some v /\ v < 0.
Proof. exact limb_negative. Qed.
Print Assumptions C26_negative_beyond_one.
Example C26_example : exists v, Is_limb_1st 0.6 0.5 = Some v /\ v = 3 / PI / 2.5 * 0.9.
Proof.
  eexists. split; [apply limb_in; lra|]. unfold Il. replace (1 - 0.6 ^ 2) with (0.8 * 0.8) by lra. rewrite sqrt_square by lra.
  replace (3 - 0.5) with 2.5 by lra. replace (1 - 0.5 * (1 - 0.8)) with 0.9 by lra. reflexivity.
Qed.

(** ** C27 *)
Theorem C27_same_profile : forall nl p rho w0 u1 z b, 0 < rho -> brightness_profile nl p rho w0 u1 z = Ok b ->
  exists w, lens_eq nl p z = Ok w /\
    (Cmod (w - w0)%C < rho -> Is_limb_1st (Cmod (w - w0)%C / rho) u1 = Some (b / PI)).
Proof. exact profile_same. Qed.
(** Outside the disc the contour profile is the reflection of the inside about its limb value, it does not
    vanish there, and it is constant 1 without limb darkening. *)
Theorem C27_reflection : forall r u1, 0 < r -> u1 <> 3 ->
  brightness_r r u1 + brightness_r (/ r) u1 = 6 * (1 - u1) / (3 - u1).
Proof. exact brightness_reciprocal. Qed.
Theorem C27_limb_value : forall u1, brightness_r 1 u1 = 3 / (3 - u1) * (1 - u1).
Proof. exact brightness_limb. Qed.
Print Assumptions C27_limb_value.
Theorem C27_bounds : forall r u1, 0 <= r -> 0 <= u1 <= 1 ->
  3 * (1 - 2 * u1) / (3 - u1) <= brightness_r r u1 <= 3 / (3 - u1).
Proof. exact brightness_bounds. Qed.
Print Assumptions C27_bounds.
Theorem C27_uniform : forall r, brightness_r r 0 = 1.
Proof. exact brightness_uniform. Qed.
Print Assumptions C27_uniform.
(** One lens: the image at z = 2 of the source at 1.5, half a radius from the centre. *)
Example C27_example : exists b, brightness_profile 1 no_params 1 (RtoC 2) 0.5 (RtoC 2) = Ok b /\
  lens_eq 1 no_params (RtoC 2) = Ok (RtoC 1.5) /\ Cmod (RtoC 1.5 - RtoC 2)%C = 0.5.
Proof.
  assert (E : lens_eq 1 no_params (RtoC 2) = Ok (RtoC 1.5)).
  { unfold lens_eq. cbn [Z.eqb Pos.eqb]. f_equal. unfold lens_eq1. apply injective_projections; simpl; try (replace 1.5 with (3 / 2) by lra); field. }
  unfold brightness_profile. rewrite E. cbn [res_map]. eexists. split; [reflexivity|]. split; [reflexivity|].
  rewrite <- RtoC_minus, Cmod_R. rewrite Rabs_left; lra.
Qed.

(** ** C28 *)
(** step_smooth: value unchanged, 1 above zero and 0 elsewhere; tangent is the derivative of sigmoid(x * fac) along any direction. *)
Theorem C28_step_smooth_partial : forall x fac dx df,
  fst (step_smooth_jvp x fac dx df) = step_smooth x fac /\ (0 < x -> step_smooth x fac = 1) /\ (x <= 0 -> step_smooth x fac = 0) /\
  is_derive (fun t => sigmoid ((x + t * dx) * (fac + t * df))) 0 (snd (step_smooth_jvp x fac dx df)).
Proof. exact step_rule. Qed.
(** calc_facB: value unchanged; the tangent is the derivative on the linear branch ... *)
Theorem C28_calc_facB_value_partial : forall x c dx dc, fst (calc_facB_jvp x c dx dc) = calc_facB x c.
Proof. exact facB_primal. Qed.
Print Assumptions C28_calc_facB_value_partial.
Theorem C28_calc_facB_linear_partial : forall x c dx dc, x < c ->
  is_derive (fun t => calc_facB (x + t * dx) (c + t * dc)) 0 (snd (calc_facB_jvp x c dx dc)).
Proof. exact facB_linear. Qed.
(** ... and never the derivative on the square-root branch. *)
Theorem C28_calc_facB_upper_refuted : forall x c, 0 < x -> c < x ->
  is_derive (fun y => calc_facB y c) x (2 / 3 * sqrt (1 + 0.5 / x) * (1 - 1 / (4 * x))) /\
  forall D, is_derive (fun y => calc_facB y c) x D -> D <> snd (calc_facB_jvp x c 1 0).
Proof. intros x c Hx Hc. split; [exact (facB_upper_derive x c Hx Hc)|intros D; exact (facB_rule_wrong x c D Hx Hc)]. Qed.
(** in_source: under differentiation the value is never the plain value; the gap is the sigmoid tail; the
    tangent is the derivative of the sigmoid. *)
Theorem C28_in_source_value_refuted : forall d rho dd dr, fst (in_source_jvp d rho dd dr) <> in_source d rho.
Proof. exact in_source_primal. Qed.
Print Assumptions C28_in_source_value_refuted.
Theorem C28_in_source_gap : forall d rho dd dr, 0 < rho ->
  Rabs (fst (in_source_jvp d rho dd dr) - in_source d rho) = sigmoid (- (100 * (Rabs (rho - d) / rho))).
Proof. exact in_source_gap. Qed.
Theorem C28_in_source_tangent : forall d rho dd dr, rho <> 0 ->
  is_derive (fun t => sigmoid (100 * (((rho + t * dr) - (d + t * dd)) / (rho + t * dr)))) 0 (snd (in_source_jvp d rho dd dr)).
Proof. exact in_source_rule. Qed.
Print Assumptions C28_in_source_tangent.
(** Is_limb_1st: the value changes under differentiation; the radial tangent is the derivative of value times
    sigmoid; the tangent in u1 is always too small (sign error in dI0_du1). *)
Theorem C28_limb_value_refuted : forall d u1 dd du v, 0 <= d -> 0 <= u1 < 1 -> Is_limb_1st d u1 = Some v ->
  1e-3 <= 1 - d ^ 2 \/ 1 <= d -> fst (Is_limb_1st_jvp d u1 dd du) <> v.
Proof. exact limb_primal_wrong. Qed.
Print Assumptions C28_limb_value_refuted.
Theorem C28_limb_tangent_d : forall f d u1 dd, (forall e, 0 <= e < 1 -> Is_limb_1st e u1 = Some (f e)) -> 0 < d -> 1e-3 < 1 - d ^ 2 ->
  is_derive (fun t => f (d + t * dd) * sigmoid (100 * (1 - (d + t * dd)))) 0 (snd (Is_limb_1st_jvp d u1 dd 0)).
Proof. exact limb_rule_d'. Qed.
Theorem C28_limb_tangent_u1_refuted : forall f d u1 D, (forall u, Is_limb_1st d u = Some (f u)) -> 0 <= d -> 1e-3 <= 1 - d ^ 2 -> 0 <= u1 < 1 ->
  is_derive (fun u => f u * sigmoid (100 * (1 - d))) u1 D -> snd (Is_limb_1st_jvp d u1 0 1) < D.
Proof. exact limb_rule_u1_wrong. Qed.
(** At the limb itself the differentiated membership is 1/2. *)
Example C28_example : in_source 1 1 = 0 /\ fst (in_source_jvp 1 1 0 0) = 1 / 2.
Proof.
  split.
  - unfold in_source. destruct (Rltb_spec (1 - 1) 0); [lra|reflexivity].
  - unfold in_source_jvp, sigmoid. cbn [fst]. replace (- (100 * ((1 - 1) / 1))) with 0 by field. rewrite exp_0. field.
Qed.

Print Assumptions C26_unit_flux.
Print Assumptions C26_second_moment.
Print Assumptions C26_fourth_moment.
Print Assumptions C26_monotone.
Print Assumptions C27_same_profile.
Print Assumptions C27_reflection.
Print Assumptions C28_step_smooth_partial.
Print Assumptions C28_calc_facB_linear_partial.
Print Assumptions C28_calc_facB_upper_refuted.
Print Assumptions C28_in_source_gap.
Print Assumptions C28_limb_tangent_d.
Print Assumptions C28_limb_tangent_u1_refuted.
