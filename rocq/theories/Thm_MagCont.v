(** Continuity of the point-source magnification: property C75. *)
From Coq Require Import Reals List Lra Lia ZArith.
From Coquelicot Require Import Complex.
From Verif Require Import Base_R Base_List Base_C M_Utils M_Coeffs M_PointSource S_PointSource S_Poly
  P_Lens P_Poly P_PolyRoots P_PointSource P_Images P_Count P_RootsCont P_MagCont P_MagLens P_MagJump Thm_PointSource Thm_FarField.
Import ListNotations.
Local Open Scope R_scope.

(** the root solver returns exactly the roots, with multiplicity, of the polynomial of this call *)
Definition solved2 (poly_roots : list C -> option (list C) -> list C) (s q : R) (w : C) : Prop :=
  let cs := poly_coeffs_binary (w - RtoC (x_cm (0.5 * s) q))%C (0.5 * s) (q / (1 + q)) in splits cs (poly_roots cs None).
Definition solved3 (poly_roots : list C -> option (list C) -> list C) (s q q3 r3 psi : R) (w : C) : Prop :=
  let cs := fst (poly_coeffs_triple_CM (w - RtoC (x_cm (0.5 * s) q))%C (0.5 * s) (third_lens r3 psi) (q / (1 + q + q3)) (1 / (1 + q + q3))) in
  splits cs (poly_roots cs None).
(** the positions, in the frame of the user, that the code tests *)
Definition candidates2 (poly_roots : list C -> option (list C) -> list C) (s q : R) (w : C) : list C :=
  let c := RtoC (x_cm (0.5 * s) q) in map (fun r => r + c)%C (poly_roots (poly_coeffs_binary (w - c)%C (0.5 * s) (q / (1 + q))) None).
Definition candidates3 (poly_roots : list C -> option (list C) -> list C) (s q q3 r3 psi : R) (w : C) : list C :=
  let c := RtoC (x_cm (0.5 * s) q) in
  let '(cs, sh) := poly_coeffs_triple_CM (w - c)%C (0.5 * s) (third_lens r3 psi) (q / (1 + q + q3)) (1 / (1 + q + q3)) in
  map (fun r => r + sh + c)%C (poly_roots cs None).
(** no candidate is exactly at the tolerance, and none within it is degenerate *)
Definition settled (L : lens_system) (w : C) (tol : R) (zs : list C) : Prop :=
  forall z, In z zs -> Cmod (lens_map L z - w)%C <> tol /\ (Cmod (lens_map L z - w)%C < tol -> ~ jacobian_det L z 0).

(** one lens: continuous except where the magnification is infinite *)
Theorem C75_single_continuous : forall poly_roots p (w0 : C), w0 <> RtoC 0 ->
  exists A0, mag_point_source poly_roots 1 p w0 = Ok A0 /\
  forall eps, 0 < eps -> exists d, 0 < d /\ forall w, Cmod (w - w0)%C < d -> exists A, mag_point_source poly_roots 1 p w = Ok A /\ Rabs (A - A0) < eps.
Proof.
  intros pr p w0 Hw. eexists. split; [apply C10_single_magnification_value; auto|]. intros eps He. assert (P : 0 < Cmod w0) by now apply Cmod_gt_0.
  set (D := fun w : C => Cmod (w - w0)%C). assert (I : cc D w0 (fun w => w)) by (apply cc_le; intros t; unfold D; lra).
  assert (F : rc D w0 (fun w => sqrt (Cmod w ^ 2 + 4) / Cmod w)).
  { repeat first [assumption | rcc]; [lra|]. apply (rc_comp _ _ sqrt (fun w => Cmod w ^ 2 + 4)); [apply continuity_pt_sqrt; nra|]. repeat first [assumption | rcc]. }
  assert (G : nbh D (fun w => 0 < Cmod w)) by (apply (rc_above D w0 (fun w => Cmod w)); auto; repeat first [assumption | rcc]).
  destruct (nbh_and _ _ _ (F eps He) G) as (d & Hd & K). exists d. split; auto. intros w W. destruct (K w W) as (K1 & K2).
  eexists. split; [apply C10_single_magnification_value; now apply Cmod_gt_0|exact K1].
Qed.
Print Assumptions C75_single_continuous.

(** two lenses: in the separation, the mass ratio and the source position together.  Partial: the
    magnification jumps where a candidate that is no image passes the tolerance, see below *)
Theorem C75_binary_continuous_partial : forall poly_roots s0 q0 w0, s0 <> 0 -> 0 < q0 ->
  off_lens_positions (binary_lens s0 q0) w0 -> solved2 poly_roots s0 q0 w0 ->
  settled (binary_lens s0 q0) w0 1e-6 (candidates2 poly_roots s0 q0 w0) ->
  exists A0, (forall p, p_s p = Some s0 -> p_q p = Some q0 -> mag_point_source poly_roots 2 p w0 = Ok A0) /\
  forall eps, 0 < eps -> exists d, 0 < d /\ forall s q w p, Rabs (s - s0) < d -> Rabs (q - q0) < d -> Cmod (w - w0)%C < d ->
    p_s p = Some s -> p_q p = Some q -> solved2 poly_roots s q w ->
    exists A, mag_point_source poly_roots 2 p w = Ok A /\ Rabs (A - A0) < eps.
Proof.
  intros pr s0 q0 w0 Hs Hq Hw Hsol Hset. set (a := 0.5 * s0). set (e := q0 / (1 + q0)). set (c := RtoC (x_cm a q0)).
  set (cs := poly_coeffs_binary (w0 - c)%C a e).
  exists (sumR (map (fun z => term (Cmod (lens_eq2 a e z - (w0 - c))%C) (det_jac2 a e z) 1e-6) (pr cs None))). split.
  - intros p Es Eq. unfold mag_point_source. cbn [Z.eqb Pos.eqb]. rewrite Es, Eq. cbn [getp]. f_equal. unfold images2. rewrite sum_inv_terms. reflexivity.
  - intros eps He. assert (F : Permutation.Permutation (binary_lens s0 q0) (shift_lens c (binary_mid a e))) by (apply binary_frame; lra).
    apply (mag2_cont s0 q0 w0 Hs Hq Hw pr (pr cs None)); auto. intros r Hin. change (0.5 * fst (fst (s0, q0, w0))) with a. cbn [fst snd]. fold e c. cbv zeta.
    assert (Hc : In (r + c)%C (candidates2 pr s0 q0 w0)) by (unfold candidates2; fold a; apply (in_map (fun x => x + c)%C); exact Hin).
    destruct (Hset _ Hc) as (S1 & S2). rewrite (frame_lens _ _ _ _ F) in S1, S2. replace (r + c - c)%C with r in S1, S2 by ring. rewrite <- lens_eq2_map in S1, S2.
    replace (lens_eq2 a e r + c - w0)%C with (lens_eq2 a e r - (w0 - c))%C in S1, S2 by ring. split; auto. intros L E. apply (S2 L).
    rewrite det_jac2_shear in E. rewrite <- E. replace (shear (binary_mid a e) r) with (shear (binary_lens s0 q0) (r + c)%C).
    + apply jac_det_shear. apply (frame_off _ _ _ _ F). replace (r + c - c)%C with r by ring. exact (binary_roots_off pr s0 q0 w0 Hs Hq Hw Hsol r Hin).
    + rewrite (frame_shear _ _ _ _ F). now replace (r + c - c)%C with r by ring.
Qed.
Print Assumptions C75_binary_continuous_partial.
(** in particular off the caustics, when every candidate that is no image is beyond the tolerance *)
Theorem C75_binary_off_caustics_partial : forall poly_roots s0 q0 w0, s0 <> 0 -> 0 < q0 ->
  off_lens_positions (binary_lens s0 q0) w0 -> solved2 poly_roots s0 q0 w0 -> off_caustics (binary_lens s0 q0) w0 ->
  (forall z, In z (candidates2 poly_roots s0 q0 w0) -> is_image (binary_lens s0 q0) w0 z \/ 1e-6 < Cmod (lens_map (binary_lens s0 q0) z - w0)%C) ->
  exists A0, (forall p, p_s p = Some s0 -> p_q p = Some q0 -> mag_point_source poly_roots 2 p w0 = Ok A0) /\
  forall eps, 0 < eps -> exists d, 0 < d /\ forall s q w p, Rabs (s - s0) < d -> Rabs (q - q0) < d -> Cmod (w - w0)%C < d ->
    p_s p = Some s -> p_q p = Some q -> solved2 poly_roots s q w ->
    exists A, mag_point_source poly_roots 2 p w = Ok A /\ Rabs (A - A0) < eps.
Proof.
  intros pr s0 q0 w0 Hs Hq Hw Hsol Ho Hc. apply C75_binary_continuous_partial; auto. intros z Hz. destruct (Hc z Hz) as [I|G]; [|split; lra].
  destruct I as (I1 & I2). split; [|intros _; apply Ho; now split]. rewrite I2. replace (w0 - w0)%C with (RtoC 0) by ring. rewrite Cmod_0. lra.
Qed.
Print Assumptions C75_binary_off_caustics_partial.

(** three lenses: in all five lens parameters and the source position together *)
Theorem C75_triple_continuous_partial : forall poly_roots s0 q0 q30 r30 psi0 w0, s0 <> 0 -> 0 < q0 -> 0 < q30 ->
  let p3 := from_midpoint s0 q0 r30 psi0 in let L := triple_lens s0 q0 q30 p3 in
  p3 <> RtoC (- s0 * q0 / (1 + q0)) -> p3 <> RtoC (s0 / (1 + q0)) ->
  off_lens_positions L w0 -> solved3 poly_roots s0 q0 q30 r30 psi0 w0 ->
  settled L w0 1e-3 (candidates3 poly_roots s0 q0 q30 r30 psi0 w0) ->
  exists A0, (forall p, p_s p = Some s0 -> p_q p = Some q0 -> p_q3 p = Some q30 -> p_r3 p = Some r30 -> p_psi p = Some psi0 ->
                mag_point_source poly_roots 3 p w0 = Ok A0) /\
  forall eps, 0 < eps -> exists d, 0 < d /\ forall s q q3 r3 psi w p,
    Rabs (s - s0) < d -> Rabs (q - q0) < d -> Rabs (q3 - q30) < d -> Rabs (r3 - r30) < d -> Rabs (psi - psi0) < d -> Cmod (w - w0)%C < d ->
    p_s p = Some s -> p_q p = Some q -> p_q3 p = Some q3 -> p_r3 p = Some r3 -> p_psi p = Some psi -> solved3 poly_roots s q q3 r3 psi w ->
    exists A, mag_point_source poly_roots 3 p w = Ok A /\ Rabs (A - A0) < eps.
Proof.
  intros pr s0 q0 q30 r30 psi0 w0 Hs Hq Hq3 p3 L H1 H2 Hw Hsol Hset. set (a := 0.5 * s0). set (e1 := q0 / (1 + q0 + q30)). set (e2 := 1 / (1 + q0 + q30)). set (c := RtoC (x_cm a q0)).
  set (pt := third_lens r30 psi0). set (cs := fst (poly_coeffs_triple_CM (w0 - c)%C a pt e1 e2)). set (sh := triple_shift_cm a pt e1 e2).
  exists (sumR (map (fun r => term (Cmod (lens_eq3 a r30 psi0 e1 e2 (r + sh) - (w0 - c))%C) (det_jac3 a r30 psi0 e1 e2 (r + sh)%C) 1e-3) (pr cs None))). split.
  - intros p Es Eq E3 Er Ep. unfold mag_point_source. cbn [Z.eqb Pos.eqb]. rewrite Es, Eq, E3, Er, Ep. cbn [getp]. f_equal. unfold images3, poly_coeffs_triple_CM. rewrite sum_inv_terms, map_map. reflexivity.
  - intros eps He. pose proof (tP s0 q0 q30 r30 psi0 Hq Hq3) as F. fold p3 L a e1 e2 c pt in F.
    apply (mag3_cont s0 q0 q30 r30 psi0 w0 Hs Hq Hq3 H1 H2 Hw pr (pr cs None)); auto. intros r Hin. cbn [fst snd]. fold a e1 e2 c pt sh. cbv zeta.
    assert (Hc : In (r + sh + c)%C (candidates3 pr s0 q0 q30 r30 psi0 w0)) by (unfold candidates3, poly_coeffs_triple_CM; fold a; apply (in_map (fun x => x + sh + c)%C); exact Hin).
    destruct (Hset _ Hc) as (S1 & S2). rewrite (frame_lens _ _ _ _ F) in S1, S2. replace (r + sh + c - c)%C with (r + sh)%C in S1, S2 by ring. unfold pt in S1, S2. rewrite <- lens_eq3_map in S1, S2.
    replace (lens_eq3 a r30 psi0 e1 e2 (r + sh) + c - w0)%C with (lens_eq3 a r30 psi0 e1 e2 (r + sh) - (w0 - c))%C in S1, S2 by ring. split; auto. intros Q E. apply (S2 Q).
    rewrite det_jac3_shear in E. rewrite <- E. replace (shear (triple_mid a e1 e2 (third_lens r30 psi0)) (r + sh)%C) with (shear L (r + sh + c)%C).
    + apply jac_det_shear. apply (frame_off _ _ _ _ F). replace (r + sh + c - c)%C with (r + sh)%C by ring.
      apply (t_off pr s0 q0 q30 r30 psi0 w0 Hs Hq Hq3 H1 H2 Hw Hsol). apply in_map_iff. exists r. split; auto.
    + rewrite (frame_shear _ _ _ _ F). now replace (r + sh + c - c)%C with (r + sh)%C by ring.
Qed.
Print Assumptions C75_triple_continuous_partial.

(** off the caustics the magnification can still jump, by more than 10^12: two equal masses, source at
    the centre, separation just above two, where a pair of roots that are no images enters the tolerance *)
Theorem C75_off_caustics_refuted : exists poly_roots s0 A0,
  2 < s0 /\ off_lens_positions (binary_lens s0 1) (RtoC 0) /\ off_caustics (binary_lens s0 1) (RtoC 0) /\
  (forall s, 2 < s -> solved2 poly_roots s 1 (RtoC 0)) /\
  (forall p, p_s p = Some s0 -> p_q p = Some 1 -> mag_point_source poly_roots 2 p (RtoC 0) = Ok A0) /\
  forall d, 0 < d -> exists s A, 2 < s /\ Rabs (s - s0) < d /\ A0 + 10 ^ 12 < A /\
    forall p, p_s p = Some s -> p_q p = Some 1 -> mag_point_source poly_roots 2 p (RtoC 0) = Ok A.
Proof.
  pose proof jump_gt as G. pose proof jump_b as B. pose proof jump_tol as Tl.
  exists central_solver, jump_s, (three (1 + 2.5e-13)). split; [exact G|]. split; [now apply c_source|]. split; [exact (c_off_caustics jump_s G)|]. split; [intros s Hs; exact (c_splits s Hs)|]. split.
  - intros p Es Eq. rewrite (c_mag jump_s G p Es Eq), Tl, B. f_equal. destruct (Rltb 1e-6 1e-6) eqn:E; [apply Rltb_true in E; lra|ring].
  - intros d Hd. set (s := (Rmax 2 (jump_s - d) + jump_s) / 2). pose proof (Rmax_l 2 (jump_s - d)) as M1. pose proof (Rmax_r 2 (jump_s - d)) as M2. assert (M3 : Rmax 2 (jump_s - d) < jump_s) by (apply Rmax_lub_lt; lra).
    assert (S1 : 2 < s) by (unfold s; lra). assert (S2 : s < jump_s) by (unfold s; lra). assert (S3 : jump_s - d < s) by (unfold s; lra).
    set (b := 0.5 * s * (0.5 * s)). assert (B1 : 1 < b) by (unfold b; nra). assert (B2 : b < 1 + 2.5e-13) by (rewrite <- B; unfold b; nra).
    exists s, (three b + spurious b). split; auto. split; [apply Rabs_def1; lra|]. split.
    + pose proof (three_decr b (1 + 2.5e-13) B1 ltac:(lra)). pose proof (spurious_big b B1 ltac:(lra)). lra.
    + intros p Es Eq. rewrite (c_mag s S1 p Es Eq). fold b. f_equal. replace (Rltb (2 * sqrt (b - 1)) 1e-6) with true; [reflexivity|]. symmetry. apply Rltb_true. rewrite <- Tl. apply Rmult_lt_compat_l; [lra|]. apply sqrt_lt_1; unfold b; nra.
Qed.
Print Assumptions C75_off_caustics_refuted.

(** every hypothesis can be met: two equal masses at separation sqrt 5, source at the centre *)
Example C75_worked : exists d, 0 < d /\ forall s p, Rabs (s - sqrt 5) < d -> p_s p = Some s -> p_q p = Some 1 ->
  exists A, mag_point_source central_solver 2 p (RtoC 0) = Ok A /\ Rabs (A - 133 / 45) < 1 / 1000.
Proof.
  assert (G : 2 < sqrt 5) by (rewrite <- (sqrt_square 2) by lra; apply sqrt_lt_1; lra). assert (B : 0.5 * sqrt 5 * (0.5 * sqrt 5) = 5 / 4) by apply wa2.
  assert (V : sqrt (5 / 4 - 1) = 1 / 2) by (replace (5 / 4 - 1) with (1 / 2 * (1 / 2)) by lra; apply sqrt_square; lra).
  assert (U : sqrt (5 / 4 + 1) = 3 / 2) by (replace (5 / 4 + 1) with (3 / 2 * (3 / 2)) by lra; apply sqrt_square; lra).
  destruct (C75_binary_off_caustics_partial central_solver (sqrt 5) 1 (RtoC 0)) as (A0 & E0 & K); try lra.
  - now apply c_source.
  - exact (c_splits _ G).
  - exact (c_off_caustics _ G).
  - unfold candidates2. cbv zeta. change (poly_coeffs_binary (RtoC 0 - RtoC (x_cm (0.5 * sqrt 5) 1))%C (0.5 * sqrt 5) (1 / (1 + 1))) with (central_coeffs (sqrt 5)).
    rewrite (c_solver _), (c_xcm (sqrt 5)), B. unfold central_roots. rewrite U, V. cbn [map]. rewrite !Cplus_0_r.
    assert (M : forall t, t * t <> 5 / 4 -> lens_map (binary_lens (sqrt 5) 1) (RtoC t) = RtoC (t - t / (t * t - 5 / 4))) by (intros t Ht; rewrite (c_map (sqrt 5)), B by (rewrite B; auto); reflexivity).
    assert (I : forall t, t * t <> 5 / 4 -> t - t / (t * t - 5 / 4) = 0 -> is_image (binary_lens (sqrt 5) 1) (RtoC 0) (RtoC t)).
    { intros t Ht E. split; [apply (c_off (sqrt 5)); rewrite B; auto|]. now rewrite M, E by auto. }
    intros z [<-|[<-|[<-|[<-|[<-|[]]]]]].
    + left. apply I; [lra|field].
    + left. apply I; [lra|field].
    + left. apply I; [lra|field].
    + right. rewrite M by lra. rewrite <- RtoC_minus, Cmod_R. replace (1 / 2 - 1 / 2 / (1 / 2 * (1 / 2) - 5 / 4) - 0) with 1 by field. rewrite Rabs_R1. lra.
    + right. rewrite M by lra. rewrite <- RtoC_minus, Cmod_R. replace (- (1 / 2) - - (1 / 2) / (- (1 / 2) * - (1 / 2) - 5 / 4) - 0) with (- 1) by field. rewrite Rabs_left by lra. lra.
  - destruct (K (1 / 1000)) as (d & Hd & Kd); [lra|]. set (p0 := mkparams (Some (sqrt 5)) (Some 1) None None None None None None).
    assert (EA : A0 = 133 / 45). { specialize (E0 p0 eq_refl eq_refl). rewrite (c_mag (sqrt 5) G p0 eq_refl eq_refl), B, V in E0. injection E0 as <-. unfold three. destruct (Rltb (2 * (1 / 2)) 1e-6) eqn:E; [apply Rltb_true in E; lra|]. field. }
    exists (Rmin d (sqrt 5 - 2)). split; [apply Rmin_glb_lt; lra|]. pose proof (Rmin_l d (sqrt 5 - 2)). pose proof (Rmin_r d (sqrt 5 - 2)). intros s p Hs Es Eq.
    assert (S2 : 2 < s) by (apply Rabs_def2 in Hs; lra). rewrite <- EA. apply (Kd s 1 (RtoC 0) p); auto; [lra| | |exact (c_splits s S2)].
    + replace (1 - 1) with 0 by ring. rewrite Rabs_R0. lra.
    + replace (RtoC 0 - RtoC 0)%C with (RtoC 0) by ring. rewrite Cmod_0. lra.
Qed.
