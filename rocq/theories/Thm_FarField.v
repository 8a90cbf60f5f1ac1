(** Bounds of the point-source magnification: properties C73 (never below one) and C74 (one far away). *)
From Coq Require Import Reals List Lra Lia.
From Coquelicot Require Import Complex.
From Verif Require Import Base_R Base_List Base_C M_Utils M_Coeffs M_PointSource S_PointSource S_Poly
  P_Utils P_Lens P_Poly P_PolyRoots P_PointSource P_Images P_Single P_Count P_AnySource P_Fermat P_FarField Thm_PointSource.
Import ListNotations.
Local Open Scope R_scope.

(** the source is on no caustic: no image is degenerate *)
Definition off_caustics (L : lens_system) (w : C) : Prop := forall z, is_image L w z -> ~ jacobian_det L z 0.

(** *** C73 *)
(** any number of masses: there is an image, and one that is not demagnified *)
Theorem C73_some_image_not_demagnified : forall L w, (forall m p, In (m, p) L -> 0 < m) ->
  exists z, is_image L w z /\ forall D, jacobian_det L z D -> 0 <= D <= 1.
Proof. exact minimum_det. Qed.
Print Assumptions C73_some_image_not_demagnified.
(** the sum over the images, any number of masses *)
Theorem C73_total_at_least_one : forall L w imgs D, (forall m p, In (m, p) L -> 0 < m) -> off_caustics L w ->
  all_images L w imgs -> (forall z, In z imgs -> jacobian_det L z (D z)) ->
  1 <= sumR (map (fun z => 1 / Rabs (D z)) imgs).
Proof.
  intros L w imgs D P O A H. apply (total_ge_one L w); auto. intros z Hz. split; auto. intros E. apply (O z); [now apply A|]. rewrite <- E. auto.
Qed.
Print Assumptions C73_total_at_least_one.
Theorem C73_single_at_least_one : forall poly_roots p (w : C), w <> RtoC 0 ->
  exists A, mag_point_source poly_roots 1 p w = Ok A /\ 1 <= A.
Proof.
  intros pr p w Hw. eexists. split; [apply C10_single_magnification_value; auto|]. assert (P : 0 < Cmod w) by now apply Cmod_gt_0.
  apply Rmult_le_reg_r with (Cmod w); auto. unfold Rdiv. rewrite Rmult_assoc, Rinv_l, Rmult_1_l, Rmult_1_r by lra. apply Rsqr_incr_0_var; [|apply sqrt_pos]. rewrite Rsqr_sqrt; unfold Rsqr; nra.
Qed.
Print Assumptions C73_single_at_least_one.
Lemma one_image L w D : positive L -> off_caustics L w -> (forall z, is_image L w z -> jacobian_det L z (D z)) ->
  exists z, is_image L w z /\ 1 <= sumR (map (fun z => 1 / Rabs (D z)) [z]).
Proof.
  intros P O H. destruct (minimum_det L w P) as (z & I & B). exists z. split; auto. specialize (B _ (H z I)). assert (N : D z <> 0) by (intros E; apply (O z I); rewrite <- E; auto).
  cbn. rewrite Rabs_pos_eq by lra. assert (Q : D z * / D z = 1) by (apply Rinv_r; lra). assert (0 < / D z) by (apply Rinv_0_lt_compat; lra). unfold Rdiv. nra.
Qed.
Theorem C73_binary_at_least_one : forall poly_roots s q w p, 0 < q ->
  (let cs := poly_coeffs_binary (w - RtoC (x_cm (0.5 * s) q))%C (0.5 * s) (q / (1 + q)) in lists_roots cs (poly_roots cs None)) ->
  off_caustics (binary_lens s q) w -> p_s p = Some s -> p_q p = Some q ->
  exists A, mag_point_source poly_roots 2 p w = Ok A /\ 1 <= A.
Proof.
  intros pr s q w p Hq Hs O Es Eq. set (L := binary_lens s q).
  assert (P : positive L). { intros m p0 [E|[E|[]]]; injection E as <- <-; apply Rdiv_lt_0_compat; lra. }
  set (D := fun z => det2 (jac_of (shear L z))). assert (J : forall z, is_image L w z -> jacobian_det L z (D z)) by (intros z I; apply jac_det_shear, I).
  destruct (one_image L w D P O J) as (z & I & G).
  destruct (two_ge pr s q w Hq p [z] D Hs Es Eq) as (A & EA & GA); [repeat constructor; intros []|intros y [<-|[]]; auto|]. exists A. split; auto. lra.
Qed.
Print Assumptions C73_binary_at_least_one.
Theorem C73_triple_at_least_one : forall poly_roots s q q3 r3 psi w p, 0 < q -> 0 < q3 ->
  let L := triple_lens s q q3 (from_midpoint s q r3 psi) in
  (let cs := fst (poly_coeffs_triple_CM (w - RtoC (x_cm (0.5 * s) q))%C (0.5 * s) (third_lens r3 psi) (q / (1 + q + q3)) (1 / (1 + q + q3))) in
   lists_roots cs (poly_roots cs None)) ->
  off_caustics L w -> p_s p = Some s -> p_q p = Some q -> p_q3 p = Some q3 -> p_r3 p = Some r3 -> p_psi p = Some psi ->
  exists A, mag_point_source poly_roots 3 p w = Ok A /\ 1 <= A.
Proof.
  intros pr s q q3 r3 psi w p Hq Hq3 L Hs O Es Eq E3 Er Ep.
  assert (P : positive L). { intros m p0 [E|[E|[E|[]]]]; injection E as <- <-; apply Rdiv_lt_0_compat; lra. }
  set (D := fun z => det2 (jac_of (shear L z))). assert (J : forall z, is_image L w z -> jacobian_det L z (D z)) by (intros z I; apply jac_det_shear, I).
  destruct (one_image L w D P O J) as (z & I & G).
  destruct (three_ge pr s q q3 r3 psi w Hq Hq3 p [z] D Hs Es Eq E3 Er Ep) as (A & EA & GA); [repeat constructor; intros []|intros y [<-|[]]; auto|]. exists A. split; auto. lra.
Qed.
Print Assumptions C73_triple_at_least_one.
(** two equal masses, source half-way: the hypotheses hold and the value is 133/45 *)
Example C73_worked : forall p, p_s p = Some (sqrt 5) -> p_q p = Some 1 ->
  (let cs := poly_coeffs_binary (RtoC 0 - RtoC (x_cm (0.5 * sqrt 5) 1))%C (0.5 * sqrt 5) (1 / (1 + 1)) in lists_roots cs worked_roots) /\
  off_caustics (binary_lens (sqrt 5) 1) (RtoC 0) /\
  mag_point_source (fun _ _ => worked_roots) 2 p (RtoC 0) = Ok (133 / 45).
Proof.
  intros p Es Eq. destruct (C05_worked p Es Eq) as (A & M). split; [|split; auto].
  - intros cs z Hz. apply (splits_root _ _ _ worked_splits); auto. apply p0_neq; [lra|apply worked_w].
  - intros z I J. apply A in I. assert (X : forall t, t * t <> 5 / 4 -> worked_det (RtoC t) <> 0 -> jacobian_det (binary_lens (sqrt 5) 1) (RtoC t) 0 -> False).
    { intros t Ht N J0. apply N. eapply jac_det_unique; [|exact J0]. now apply worked_jac. }
    destruct I as [<-|[<-|[<-|[]]]]; revert J; apply X; try lra; unfold worked_det, Re; cbn; intros E; field_simplify in E; lra.
Qed.

(** *** C74 *)
Theorem C74_single_far : forall eps, 0 < eps -> exists R0, forall poly_roots (w : C) p, R0 <= Cmod w ->
  exists A, mag_point_source poly_roots 1 p w = Ok A /\ 1 <= A <= 1 + eps.
Proof.
  intros eps He. exists (1 + 2 / eps). intros pr w p Hw. assert (H2 : 0 < 2 / eps) by (apply Rdiv_lt_0_compat; lra). assert (P : 0 < Cmod w) by lra. assert (N : w <> RtoC 0) by (apply Cmod_gt_0; auto).
  destruct (C73_single_at_least_one pr p w N) as (A & E & G). exists A. split; auto. split; auto. rewrite (C10_single_magnification_value pr p w N) in E. injection E as <-.
  apply Rmult_le_reg_r with (Cmod w); auto. unfold Rdiv. rewrite Rmult_assoc, Rinv_l, Rmult_1_r by lra. assert (X : 2 <= eps * Cmod w). { assert (eps * (2 / eps) = 2) by (field; lra). nra. }
  apply Rsqr_incr_0_var; [rewrite Rsqr_sqrt; unfold Rsqr; nra|nra].
Qed.
Print Assumptions C74_single_far.
Theorem C74_binary_far : forall s q eps, s <> 0 -> 0 < q -> 0 < eps -> exists R0, forall poly_roots w p, R0 <= Cmod w ->
  (let cs := poly_coeffs_binary (w - RtoC (x_cm (0.5 * s) q))%C (0.5 * s) (q / (1 + q)) in splits cs (poly_roots cs None)) ->
  p_s p = Some s -> p_q p = Some q -> exists A, mag_point_source poly_roots 2 p w = Ok A /\ 1 <= A <= 1 + eps.
Proof. exact binary_far. Qed.
Print Assumptions C74_binary_far.
Theorem C74_triple_far : forall s q q3 r3 psi eps, s <> 0 -> 0 < q -> 0 < q3 ->
  from_midpoint s q r3 psi <> RtoC (- s * q / (1 + q)) -> from_midpoint s q r3 psi <> RtoC (s / (1 + q)) -> 0 < eps ->
  exists R0, forall poly_roots w p, R0 <= Cmod w ->
  (let cs := fst (poly_coeffs_triple_CM (w - RtoC (x_cm (0.5 * s) q))%C (0.5 * s) (third_lens r3 psi) (q / (1 + q + q3)) (1 / (1 + q + q3))) in splits cs (poly_roots cs None)) ->
  p_s p = Some s -> p_q p = Some q -> p_q3 p = Some q3 -> p_r3 p = Some r3 -> p_psi p = Some psi ->
  exists A, mag_point_source poly_roots 3 p w = Ok A /\ 1 <= A <= 1 + eps.
Proof. exact triple_far. Qed.
Print Assumptions C74_triple_far.
(** a far source for every accuracy, with an exact root list: the hypotheses are satisfiable *)
Example C74_case : forall p, p_s p = Some 2 -> p_q p = Some (1 / 3) ->
  exists w rs A, mag_point_source (fun _ _ => rs) 2 p w = Ok A /\ 1 <= A <= 1 + 1 / 1000.
Proof.
  intros p Es Eq. destruct (C74_binary_far 2 (1 / 3) (1 / 1000)) as (R0 & H); try lra. destruct (P_ShootLimit.far_masses (binary_lens 2 (1 / 3))) as (R1 & HR1 & Far).
  set (w := RtoC (Rabs R0 + R1)). assert (M : Cmod w = Rabs R0 + R1) by (unfold w; rewrite Cmod_R, Rabs_pos_eq; auto; pose proof (Rabs_pos R0); lra). pose proof (Rle_abs R0). pose proof (Rabs_pos R0).
  assert (N : hd (RtoC 0) (poly_coeffs_binary (w - RtoC (x_cm (0.5 * 2) (1 / 3)))%C (0.5 * 2) ((1 / 3) / (1 + 1 / 3))) <> RtoC 0) by (apply (p0_neq 2 (1 / 3) w); [lra|apply Far; lra]).
  destruct (C05_exact_roots_exist _ N) as (rs & S). exists w, rs. apply (H (fun _ _ => rs) w p); auto. lra.
Qed.
