(** The hexadecapole approximation: properties C32 and C33. *)
From Coq Require Import Reals List Bool ZArith Lia Lra.
From Coquelicot Require Import Coquelicot.
From Verif Require Import Base_R Base_List Base_C S_PointSource S_Multipole M_Utils M_Coeffs M_PointSource M_MagFft M_Limb M_Multipole
  P_Lens P_PointSource P_Limb P_Jets P_Multipole P_Branch P_HexZero.
Import ListNotations.
Local Open Scope R_scope.

(** ** C32 *)
(** At zero radius the result is the sum of the inverse absolute Jacobian determinants of the masked images and the
    error estimate vanishes; also for limb-darkened sources. *)
Theorem C32_zero_radius_one_partial : forall p zs mask u1 D, length mask = length zs ->
  (forall z, In z zs -> off_masses single_lens z /\ jacobian_det single_lens z (D z) /\ D z <> 0) ->
  mag_hexadecapole 1 p zs mask 0 u1 = Ok (sumR (map (fun zm => if snd zm : bool then / Rabs (D (fst zm)) else 0) (combine zs mask)), 0).
Proof. exact hex_zero_one. Qed.
Print Assumptions C32_zero_radius_one_partial.
Theorem C32_zero_radius_two_partial : forall p a e1 zs mask u1 D, p_a p = Some a -> p_e1 p = Some e1 -> length mask = length zs ->
  (forall z, In z zs -> off_masses (binary_mid a e1) z /\ jacobian_det (binary_mid a e1) z (D z) /\ D z <> 0) ->
  mag_hexadecapole 2 p zs mask 0 u1 = Ok (sumR (map (fun zm => if snd zm : bool then / Rabs (D (fst zm)) else 0) (combine zs mask)), 0).
Proof. exact hex_zero_two. Qed.
(** two lenses: fed with the images of the point-source code it is the point-source magnification *)
Theorem C32_point_source_two_partial : forall poly_roots p s q w u1,
  p_s p = Some s -> p_q p = Some q -> p_a p = Some (0.5 * s) -> p_e1 p = Some (q / (1 + q)) ->
  forall zs mask, images_point_source poly_roots 2 p None (w - RtoC (x_cm (0.5 * s) q))%C = Ok (zs, mask) ->
  (forall z, In z zs -> det_jac2 (0.5 * s) (q / (1 + q)) z <> 0) ->
  exists A, mag_point_source poly_roots 2 p w = Ok A /\ mag_hexadecapole 2 p zs mask 0 u1 = Ok (A, 0).
Proof. exact hex_point_two. Qed.
(** one lens: the true (Paczynski) magnification, which mag_point_source does not return *)
Theorem C32_point_source_one : forall (w : C) p u1, w <> RtoC 0 ->
  forall poly_roots zs mask, images_point_source poly_roots 1 p None w = Ok (zs, mask) ->
  mag_hexadecapole 1 p zs mask 0 u1 = Ok (A_point (Cmod w), 0).
Proof.
  intros w p u1 N pr zs mask H. unfold images_point_source in H. cbn [Z.eqb Pos.eqb] in H. apply Ok_inj in H.
  pose proof (hex_point_one w p u1 N) as K. rewrite H in K. exact K.
Qed.
Theorem C32_point_source_one_refuted : forall (w : C) p u1 poly_roots, w <> RtoC 0 ->
  mag_hexadecapole 1 p (fst (images1 w)) (snd (images1 w)) 0 u1 = Ok (A_point (Cmod w), 0) /\
  mag_point_source poly_roots 1 p w <> Ok (A_point (Cmod w)).
Proof. intros w p u1 pr N. split; [apply hex_point_one; exact N|apply P_Single.mag1_not_paczynski; exact N]. Qed.
Print Assumptions C32_point_source_one_refuted.
(** three lenses: the same, for the lens system whose third mass lies at r3 on the axis *)
Theorem C32_zero_radius_three_partial : forall p a r3 e1 e2 zs mask u1 D,
  p_a p = Some a -> p_r3 p = Some r3 -> p_e1 p = Some e1 -> p_e2 p = Some e2 ->
  length mask = length zs -> let L := triple_mid a e1 e2 (RtoC r3) in
  (forall z, In z zs -> off_masses L z /\ jacobian_det L z (D z) /\ D z <> 0) ->
  mag_hexadecapole 3 p zs mask 0 u1 = Ok (sumR (map (fun zm => if snd zm : bool then / Rabs (D (fst zm)) else 0) (combine zs mask)), 0).
Proof. exact hex_zero_three. Qed.
Print Assumptions C32_zero_radius_three_partial.
Theorem C32_point_source_three_on_axis_partial : forall poly_roots p s q q3 r3 w u1,
  p_s p = Some s -> p_q p = Some q -> p_q3 p = Some q3 -> p_r3 p = Some r3 -> p_psi p = Some 0 ->
  p_a p = Some (0.5 * s) -> p_e1 p = Some (q / (1 + q + q3)) -> p_e2 p = Some (1 / (1 + q + q3)) ->
  forall zs mask, images_point_source poly_roots 3 p None (w - RtoC (x_cm (0.5 * s) q))%C = Ok (zs, mask) ->
  (forall z, In z zs -> det_jac3 (0.5 * s) r3 0 (q / (1 + q + q3)) (1 / (1 + q + q3)) z <> 0) ->
  exists A, mag_point_source poly_roots 3 p w = Ok A /\ mag_hexadecapole 3 p zs mask 0 u1 = Ok (A, 0).
Proof. exact hex_point_three. Qed.
Print Assumptions C32_point_source_three_on_axis_partial.
(** the angle psi of the third lens is never read, so off the axis the result is wrong *)
Theorem C32_psi_ignored : forall n p p' zs mask rho u1,
  p_a p = p_a p' -> p_r3 p = p_r3 p' -> p_e1 p = p_e1 p' -> p_e2 p = p_e2 p' ->
  mag_hexadecapole n p zs mask rho u1 = mag_hexadecapole n p' zs mask rho u1.
Proof. exact hex_psi_ignored. Qed.
Print Assumptions C32_psi_ignored.
Theorem C32_three_lenses_refuted : exists p z w A, let L := triple_mid 0.5 (1/3) (1/3) (third_lens 1 PI) in
  p_s p = Some 1 /\ p_q p = Some 1 /\ p_q3 p = Some 1 /\ p_r3 p = Some 1 /\ p_psi p = Some PI /\
  p_a p = Some 0.5 /\ p_e1 p = Some (1 / 3) /\ p_e2 p = Some (1 / 3) /\
  is_image L w z /\ jacobian_det L z A /\ A <> 0 /\
  lens_eq_det_jac 3 p z = Ok A /\ (forall u1 res, mag_hexadecapole 3 p [z] [true] 0 u1 <> Ok (/ Rabs A, res)).
Proof. exact hex_three_refuted. Qed.
Example C32_example : forall p, mag_hexadecapole 1 p [RtoC 2] [true] 0 0.5 = Ok (16 / 15, 0).
Proof.
  intros p. assert (N : RtoC 2 <> RtoC 0) by (apply RtoC_neq0; lra).
  rewrite (C32_zero_radius_one_partial p [RtoC 2] [true] 0.5 (fun _ => 15 / 16)); [|reflexivity|].
  - cbn [combine map sumR fst snd]. rewrite Rabs_pos_eq by lra. do 2 f_equal. field.
  - intros z [<-|[]]. split; [apply off_single; exact N|]. split; [|lra].
    replace (15 / 16) with (1 - 1 / (Cmod (RtoC 2) * Cmod (RtoC 2)) ^ 2) by (rewrite Cmod_R, Rabs_pos_eq by lra; field).
    rewrite <- single_det by exact N. exists (jac_of (shear single_lens (RtoC 2))). split; [apply lens_map_derivative, off_single; exact N|reflexivity].
Qed.

(** ** C33 *)
(** Inverse function theorem: an image off the critical curves moves smoothly with the source. *)
Theorem C33_image_branch_exists : forall L z D, off_masses L z -> jacobian_det L z D -> D <> 0 ->
  exists r a, image_branch L (lens_map L z) r a /\ a 0%nat 0%nat 0 0 = z.
Proof. exact branch_exists. Qed.
(** so the magnification of the image and its Laplacians at the source position exist and are unique *)
Theorem C33_expansion_exists : forall L z D, off_masses L z -> jacobian_det L z D -> D <> 0 ->
  exists m0 l1 l2, expansion_at L (lens_map L z) z m0 l1 l2.
Proof.
  intros L z D O J N. destruct (branch_exists L z D O J N) as (r & a & HB & <-). exact (expansion_exists L _ r a HB).
Qed.
Theorem C33_expansion_unique : forall L w w' z m0 l1 l2 m0' l1' l2',
  expansion_at L w z m0 l1 l2 -> expansion_at L w' z m0' l1' l2' -> m0 = m0' /\ l1 = l1' /\ l2 = l2'.
Proof.
  intros L w w' z m0 l1 l2 m0' l1' l2' H H'. destruct (expansion_val _ _ _ _ _ _ H) as (-> & -> & ->).
  destruct (expansion_val _ _ _ _ _ _ H') as (-> & -> & ->). auto.
Qed.
Print Assumptions C33_expansion_unique.
(** mag_hexadecapole, 1 lens: every image contributes the disc average of its fourth-order expansion, with the moments of
    the brightness profile of the inverse-ray code *)
Theorem C33_one_partial : forall p zs mask rho u1 f mom2 mom4 ts, u1 <> 3 ->
  (forall d, 0 <= d -> Is_limb_1st d u1 = Some (f d)) -> radial_moment f 2 mom2 -> radial_moment f 4 mom4 ->
  Forall2 (fun z t => let '((m0, l1), l2) := t in expansion_at single_lens (lens_map single_lens z) z m0 l1 l2) zs ts ->
  let ds := map (disc_terms rho mom2 mom4) ts in
  mag_hexadecapole 1 p zs mask rho u1 = Ok (masked_sum total ds mask, masked_sum second ds mask + masked_sum third ds mask).
Proof.
  intros p zs mask rho u1 f mom2 mom4 ts N Hf M2 M4 H ds. unfold mag_hexadecapole. cbn [Z.eqb Pos.eqb]. cbn [getp]. f_equal.
  apply (hex_terms_gen single_lens (W_one) zs mask rho u1 f); auto. intros; apply W_one_k.
Qed.
(** mag_hexadecapole, 2 lenses: every image contributes the disc average of its fourth-order expansion, with the moments of
    the brightness profile of the inverse-ray code *)
Theorem C33_two_partial : forall p a e1 zs mask rho u1 f mom2 mom4 ts, p_a p = Some a -> p_e1 p = Some e1 -> u1 <> 3 ->
  (forall d, 0 <= d -> Is_limb_1st d u1 = Some (f d)) -> radial_moment f 2 mom2 -> radial_moment f 4 mom4 ->
  Forall2 (fun z t => let '((m0, l1), l2) := t in expansion_at (binary_mid a e1) (lens_map (binary_mid a e1) z) z m0 l1 l2) zs ts ->
  let ds := map (disc_terms rho mom2 mom4) ts in
  mag_hexadecapole 2 p zs mask rho u1 = Ok (masked_sum total ds mask, masked_sum second ds mask + masked_sum third ds mask).
Proof.
  intros p a e1 zs mask rho u1 f mom2 mom4 ts Ea Ee N Hf M2 M4 H ds. unfold mag_hexadecapole. cbn [Z.eqb Pos.eqb]. rewrite Ea, Ee. cbn [getp]. f_equal.
  apply (hex_terms_gen (binary_mid a e1) (W_two a e1) zs mask rho u1 f); auto. intros; apply W_two_k.
Qed.
(** mag_hexadecapole, 3 lenses: every image contributes the disc average of its fourth-order expansion, with the moments of
    the brightness profile of the inverse-ray code *)
Theorem C33_three_on_axis_partial : forall p a r3 e1 e2 zs mask rho u1 f mom2 mom4 ts, p_a p = Some a -> p_r3 p = Some r3 -> p_e1 p = Some e1 -> p_e2 p = Some e2 -> u1 <> 3 ->
  (forall d, 0 <= d -> Is_limb_1st d u1 = Some (f d)) -> radial_moment f 2 mom2 -> radial_moment f 4 mom4 ->
  Forall2 (fun z t => let '((m0, l1), l2) := t in expansion_at (triple_mid a e1 e2 (RtoC r3)) (lens_map (triple_mid a e1 e2 (RtoC r3)) z) z m0 l1 l2) zs ts ->
  let ds := map (disc_terms rho mom2 mom4) ts in
  mag_hexadecapole 3 p zs mask rho u1 = Ok (masked_sum total ds mask, masked_sum second ds mask + masked_sum third ds mask).
Proof.
  intros p a r3 e1 e2 zs mask rho u1 f mom2 mom4 ts Ea Er Ee E2 N Hf M2 M4 H ds. unfold mag_hexadecapole. cbn [Z.eqb Pos.eqb]. rewrite Ea, Er, Ee, E2. cbn [getp]. f_equal.
  apply (hex_terms_gen (triple_mid a e1 e2 (RtoC r3)) (W_three a r3 e1 e2) zs mask rho u1 f); auto. intros; apply W_three_k.
Qed.
(** a configuration meeting the hypotheses: two lenses, limb-darkened source, an image with its expansion *)
Example C33_example : exists f mom2 mom4 t, let L := binary_mid 0.5 0.3 in
  (forall d, 0 <= d -> Is_limb_1st d 0.5 = Some (f d)) /\ radial_moment f 2 mom2 /\ radial_moment f 4 mom4 /\
  Forall2 (fun z t => let '((m0, l1), l2) := t in expansion_at L (lens_map L z) z m0 l1 l2) [RtoC 3] [t].
Proof. exact c33_example. Qed.

Print Assumptions C32_zero_radius_two_partial.
Print Assumptions C32_point_source_two_partial.
Print Assumptions C32_point_source_one.
Print Assumptions C32_three_lenses_refuted.
Print Assumptions C33_image_branch_exists.
Print Assumptions C33_expansion_exists.
Print Assumptions C33_one_partial.
Print Assumptions C33_two_partial.
Print Assumptions C33_three_on_axis_partial.
