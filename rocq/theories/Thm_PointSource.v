(** Property theorems for point_source.py and coeffs.py (C05-C13, C46, C47). *)
From Coq Require Import Reals Lra Lia Bool List Arith ZArith Permutation ClassicalChoice.
From Coquelicot Require Import Complex.
From Verif Require Import Base_R Base_List Base_C M_Utils M_Coeffs M_PointSource M_MagFft S_PointSource S_Poly
  P_Lens P_Poly P_PolyRoots P_PointSource P_Images P_Single P_Critical P_Symmetry P_Count P_AnySource.
Import ListNotations.
Local Open Scope R_scope.
Local Open Scope C_scope.

(** ** C05 two lenses: no image is lost *)
Theorem C05_binary_image_is_root : forall (w : C) (a e1 : R) (z : C),
  is_image (binary_mid a e1) w z -> peval (poly_coeffs_binary w a e1) z = 0.
Proof. exact binary_image_is_root. Qed.
Print Assumptions C05_binary_image_is_root.
(** in the caller's frame: for every exact root finder each image is listed and passes the mask *)
Theorem C05_binary_image_listed : forall poly_roots s q w p z, (0 < q)%R ->
  p_a p = Some (0.5 * s)%R -> p_e1 p = Some (q / (1 + q))%R ->
  (let cs := poly_coeffs_binary (w - RtoC (x_cm (0.5 * s) q)) (0.5 * s) (q / (1 + q)) in lists_roots cs (poly_roots cs None)) ->
  is_image (binary_lens s q) w z ->
  exists zs mask k, images_point_source poly_roots 2 p None (w - RtoC (x_cm (0.5 * s) q)) = Ok (zs, mask) /\
    (k < length zs)%nat /\ nth k zs (RtoC 0) + RtoC (x_cm (0.5 * s) q) = z /\ nth k mask false = true.
Proof.
  intros pr s q w p z Hq Ea Ee Hs Hz. destruct (two_listed pr s q w Hq z Hs Hz) as (k & Hk).
  exists (fst (images2 pr (0.5 * s) (q / (1 + q)) (w - RtoC (x_cm (0.5 * s) q)) None)), (snd (images2 pr (0.5 * s) (q / (1 + q)) (w - RtoC (x_cm (0.5 * s) q)) None)), k.
  split; [|exact Hk]. rewrite <- surjective_pairing. unfold images_point_source. simpl. rewrite Ea, Ee. reflexivity.
Qed.
Print Assumptions C05_binary_image_listed.
(** such a list of at most five values exists for every source position, also exactly behind a mass *)
Theorem C05_binary_roots_exist : forall s q w, (0 < q)%R -> s <> 0%R ->
  exists rs, lists_roots (poly_coeffs_binary (w - RtoC (x_cm (0.5 * s) q)) (0.5 * s) (q / (1 + q))) rs /\ (length rs <= 5)%nat.
Proof. exact two_roots_exist. Qed.
Print Assumptions C05_binary_roots_exist.
(** conversely whatever passes the mask is off the masses and solves the lens equation to 1e-6 *)
Theorem C05_binary_mask_sound_partial : forall poly_roots s q w, s <> 0%R -> (0 < q)%R ->
  off_lens_positions (binary_lens s q) w ->
  (let cs := poly_coeffs_binary (w - RtoC (x_cm (0.5 * s) q)) (0.5 * s) (q / (1 + q)) in splits cs (poly_roots cs None)) ->
  let im := images2 poly_roots (0.5 * s) (q / (1 + q)) (w - RtoC (x_cm (0.5 * s) q)) None in
  forall k, (k < length (fst im))%nat -> nth k (snd im) false = true ->
  let z := nth k (fst im) (RtoC 0) + RtoC (x_cm (0.5 * s) q) in
  off_masses (binary_lens s q) z /\ (Cmod (lens_map (binary_lens s q) z - w)%C < 1e-6)%R.
Proof. intros pr s q w Hs Hq Hw Hsol im k Hk Hm. exact (binary_mask_sound pr s q w Hs Hq Hw Hsol k Hk Hm). Qed.
Print Assumptions C05_binary_mask_sound_partial.
Theorem C05_binary_at_most_five_images : forall s q w, (0 < q)%R -> s <> 0%R \/ off_lens_positions (binary_lens s q) w ->
  exists imgs, all_images (binary_lens s q) w imgs /\ (length imgs <= 5)%nat.
Proof. exact two_few. Qed.
Print Assumptions C05_binary_at_most_five_images.
(** an exact root list exists for every configuration, so the solver hypothesis is satisfiable *)
Theorem C05_exact_roots_exist : forall cs, hd (RtoC 0) cs <> 0 -> exists rs, splits cs rs.
Proof. exact splits_exists. Qed.
Print Assumptions C05_exact_roots_exist.
(** nothing is lost from the sum, for any source position and whatever else the solver lists *)
Theorem C05_binary_magnification_not_less_partial : forall poly_roots s q w p imgs D,
  (0 < q)%R ->
  (let cs := poly_coeffs_binary (w - RtoC (x_cm (0.5 * s) q)) (0.5 * s) (q / (1 + q)) in lists_roots cs (poly_roots cs None)) ->
  p_s p = Some s -> p_q p = Some q ->
  all_images (binary_lens s q) w imgs -> (forall z, In z imgs -> jacobian_det (binary_lens s q) z (D z)) ->
  exists A, mag_point_source poly_roots 2 p w = Ok A /\ (sumR (map (fun z => 1 / Rabs (D z))%R imgs) <= A)%R.
Proof. intros pr s q w p imgs D Hq Hs Es Eq (Hn & Hi) HD. apply (two_ge pr s q w Hq p imgs D); auto. intros z Hz. split; auto. now apply Hi. Qed.
Print Assumptions C05_binary_magnification_not_less_partial.
Theorem C05_binary_magnification_exact_partial : forall poly_roots s q w p imgs D,
  s <> 0%R -> (0 < q)%R -> off_lens_positions (binary_lens s q) w ->
  let cs := poly_coeffs_binary (w - RtoC (x_cm (0.5 * s) q)) (0.5 * s) (q / (1 + q)) in
  splits cs (poly_roots cs None) ->
  p_s p = Some s -> p_q p = Some q ->
  all_images (binary_lens s q) w imgs ->
  (forall z, In z imgs -> jacobian_det (binary_lens s q) z (D z) /\ D z <> 0%R) ->
  (forall r, In r (poly_roots cs None) -> let z := r + RtoC (x_cm (0.5 * s) q) in
     (Cmod (lens_map (binary_lens s q) z - w)%C < 1e-6)%R -> lens_map (binary_lens s q) z = w) ->
  mag_point_source poly_roots 2 p w = Ok (sumR (map (fun z => 1 / Rabs (D z))%R imgs)).
Proof. intros; eapply mag_binary_exact; eauto. Qed.
(** a configuration with three images that meets every hypothesis above *)
Example C05_worked : forall p, p_s p = Some (sqrt 5) -> p_q p = Some 1%R ->
  all_images (binary_lens (sqrt 5) 1) (RtoC 0) [RtoC 0; RtoC (3/2); RtoC (- (3/2))] /\
  mag_point_source (fun _ _ => worked_roots) 2 p (RtoC 0) = Ok (133 / 45)%R.
Proof. exact worked_mag_eq. Qed.

(** ** C06 three lenses *)
Theorem C06_triple_image_is_root : forall a e1 e2 r3 psi w z,
  is_image (triple_mid a e1 e2 (from_com r3 psi)) w z ->
  let '(cs, sh) := poly_coeffs_triple_CM w a (third_lens r3 psi) e1 e2 in peval cs (z - sh) = 0.
Proof.
  intros a e1 e2 r3 psi w z H. unfold poly_coeffs_triple_CM. apply (triple_image_root_body a e1 e2 r3 psi).
  replace (third_lens r3 psi) with (from_com r3 psi); auto. unfold third_lens, from_com, cexpi. apply Ceq; simpl; ring.
Qed.
Print Assumptions C06_triple_image_is_root.
Theorem C06_triple_image_listed : forall poly_roots s q q3 r3 psi w p z,
  let L := triple_lens s q q3 (from_midpoint s q r3 psi) in
  let a := (0.5 * s)%R in let e1 := (q / (1 + q + q3))%R in let e2 := (1 / (1 + q + q3))%R in let c := RtoC (x_cm a q) in
  (0 < q)%R -> (0 < q3)%R ->
  p_a p = Some a -> p_e1 p = Some e1 -> p_e2 p = Some e2 -> p_r3 p = Some r3 -> p_psi p = Some psi ->
  (let cs := fst (poly_coeffs_triple_CM (w - c) a (third_lens r3 psi) e1 e2) in lists_roots cs (poly_roots cs None)) ->
  is_image L w z ->
  exists zs mask k, images_point_source poly_roots 3 p None (w - c) = Ok (zs, mask) /\
    (k < length zs)%nat /\ nth k zs (RtoC 0) + c = z /\ nth k mask false = true.
Proof.
  intros pr s q q3 r3 psi w p z L a e1 e2 c Hq Hq3 Ea E1 E2 Er Ep Hs Hz.
  destruct (three_listed pr s q q3 r3 psi w Hq Hq3 z Hs Hz) as (k & Hk).
  exists (fst (images3 pr a r3 psi e1 e2 (w - c))), (snd (images3 pr a r3 psi e1 e2 (w - c))), k.
  split; [|exact Hk]. rewrite <- surjective_pairing. unfold images_point_source. simpl. rewrite Ea, E1, E2, Er, Ep. reflexivity.
Qed.
Print Assumptions C06_triple_image_listed.
Theorem C06_triple_roots_exist : forall s q q3 r3 psi w, let p3 := from_midpoint s q r3 psi in
  (0 < q)%R -> (0 < q3)%R -> s <> 0%R /\ p3 <> RtoC (- s * q / (1 + q)) /\ p3 <> RtoC (s / (1 + q)) ->
  exists rs, lists_roots (fst (poly_coeffs_triple_CM (w - RtoC (x_cm (0.5 * s) q)) (0.5 * s) (third_lens r3 psi)
    (q / (1 + q + q3)) (1 / (1 + q + q3)))) rs /\ (length rs <= 10)%nat.
Proof. intros s q q3 r3 psi w p3 Hq Hq3 Hd. exact (three_roots_exist s q q3 r3 psi w Hq Hq3 Hd). Qed.
Print Assumptions C06_triple_roots_exist.
Theorem C06_triple_mask_sound_partial : forall poly_roots s q q3 r3 psi w,
  let p3 := from_midpoint s q r3 psi in let L := triple_lens s q q3 p3 in
  let a := (0.5 * s)%R in let e1 := (q / (1 + q + q3))%R in let e2 := (1 / (1 + q + q3))%R in let c := RtoC (x_cm a q) in
  s <> 0%R -> (0 < q)%R -> (0 < q3)%R -> p3 <> RtoC (- s * q / (1 + q)) -> p3 <> RtoC (s / (1 + q)) ->
  off_lens_positions L w ->
  (let cs := fst (poly_coeffs_triple_CM (w - c) a (third_lens r3 psi) e1 e2) in splits cs (poly_roots cs None)) ->
  let im := images3 poly_roots a r3 psi e1 e2 (w - c) in
  forall k, (k < length (fst im))%nat -> nth k (snd im) false = true ->
  let z := nth k (fst im) (RtoC 0) + c in
  off_masses L z /\ (Cmod (lens_map L z - w)%C < 1e-3)%R.
Proof.
  intros pr s q q3 r3 psi w p3 L a e1 e2 c Hs Hq Hq3 H1 H2 Hw Hsol im k Hk Hm.
  exact (triple_mask_sound pr s q q3 r3 psi w Hs Hq Hq3 H1 H2 Hw Hsol k Hk Hm).
Qed.
Print Assumptions C06_triple_mask_sound_partial.
Theorem C06_triple_at_most_ten_images : forall s q q3 r3 psi w,
  let p3 := from_midpoint s q r3 psi in let L := triple_lens s q q3 p3 in
  (0 < q)%R -> (0 < q3)%R ->
  (s <> 0%R /\ p3 <> RtoC (- s * q / (1 + q)) /\ p3 <> RtoC (s / (1 + q))) \/ off_lens_positions L w ->
  exists imgs, all_images L w imgs /\ (length imgs <= 10)%nat.
Proof. exact three_few. Qed.
Print Assumptions C06_triple_at_most_ten_images.
Theorem C06_triple_magnification_not_less_partial : forall poly_roots s q q3 r3 psi w p imgs D,
  let L := triple_lens s q q3 (from_midpoint s q r3 psi) in
  (0 < q)%R -> (0 < q3)%R ->
  (let cs := fst (poly_coeffs_triple_CM (w - RtoC (x_cm (0.5 * s) q)) (0.5 * s) (third_lens r3 psi) (q / (1 + q + q3)) (1 / (1 + q + q3))) in
   lists_roots cs (poly_roots cs None)) ->
  p_s p = Some s -> p_q p = Some q -> p_q3 p = Some q3 -> p_r3 p = Some r3 -> p_psi p = Some psi ->
  all_images L w imgs -> (forall z, In z imgs -> jacobian_det L z (D z)) ->
  exists A, mag_point_source poly_roots 3 p w = Ok A /\ (sumR (map (fun z => 1 / Rabs (D z))%R imgs) <= A)%R.
Proof.
  intros pr s q q3 r3 psi w p imgs D L Hq Hq3 Hs Es Eq E3 Er Ep (Hn & Hi) HD.
  apply (three_ge pr s q q3 r3 psi w Hq Hq3 p imgs D); auto. intros z Hz. split; auto. now apply Hi.
Qed.
Print Assumptions C06_triple_magnification_not_less_partial.
Theorem C06_triple_magnification_exact_partial : forall poly_roots s q q3 r3 psi w p imgs D,
  let p3 := from_midpoint s q r3 psi in let L := triple_lens s q q3 p3 in
  s <> 0%R -> (0 < q)%R -> (0 < q3)%R -> p3 <> RtoC (- s * q / (1 + q)) -> p3 <> RtoC (s / (1 + q)) ->
  off_lens_positions L w ->
  let cs := fst (poly_coeffs_triple_CM (w - RtoC (x_cm (0.5 * s) q)) (0.5 * s) (third_lens r3 psi) (q / (1 + q + q3)) (1 / (1 + q + q3))) in
  let sh := snd (poly_coeffs_triple_CM (w - RtoC (x_cm (0.5 * s) q)) (0.5 * s) (third_lens r3 psi) (q / (1 + q + q3)) (1 / (1 + q + q3))) in
  splits cs (poly_roots cs None) ->
  p_s p = Some s -> p_q p = Some q -> p_q3 p = Some q3 -> p_r3 p = Some r3 -> p_psi p = Some psi ->
  all_images L w imgs -> (forall z, In z imgs -> jacobian_det L z (D z) /\ D z <> 0%R) ->
  (forall r, In r (map (fun r0 => r0 + sh) (poly_roots cs None)) -> let z := r + RtoC (x_cm (0.5 * s) q) in
     (Cmod (lens_map L z - w)%C < 1e-3)%R -> lens_map L z = w) ->
  mag_point_source poly_roots 3 p w = Ok (sumR (map (fun z => 1 / Rabs (D z))%R imgs)).
Proof.
  intros pr s q q3 r3 psi w p imgs D p3 L Hs Hq Hq3 H1 H2 Hw cs sh Hsol Es Eq E3 Er Ep Hi HD Hg.
  exact (mag_triple_exact pr s q q3 r3 psi w Hs Hq Hq3 H1 H2 Hw Hsol p Es Eq E3 Er Ep imgs D Hi HD Hg).
Qed.
(** every hypothesis can be met: a triple with an exact root list and its finite image set *)
Example C06_worked : let L := triple_lens 1 1 1 (from_midpoint 1 1 2 0) in
  exists poly_roots imgs, off_lens_positions L (RtoC 1) /\
   (let cs := fst (poly_coeffs_triple_CM (1 - RtoC (x_cm (0.5 * 1) 1)) (0.5 * 1) (third_lens 2 0) (1 / (1 + 1 + 1)) (1 / (1 + 1 + 1))) in
    splits cs (poly_roots cs (@None (list C)))) /\ all_images L (RtoC 1) imgs.
Proof.
  intros L. assert (Hw : off_lens_positions L (RtoC 1)).
  { unfold L, triple_lens, from_midpoint, from_com. intros m p H. rewrite cos_0, sin_0 in H.
    destruct H as [H|[H|[H|[]]]]; injection H as _ <-; intros E; apply (f_equal fst) in E; simpl in E; lra. }
  destruct (splits_exists _ (tp0 1 1 1 2 0 (RtoC 1) ltac:(lra) ltac:(lra) Hw)) as (rs & S).
  destruct (triple_images_finite 1 1 1 2 0 (RtoC 1) ltac:(lra) ltac:(lra) Hw) as (imgs & Hi & _).
  exists (fun _ _ => rs), imgs. auto.
Qed.

(** ** C07 critical curves *)
Theorem C07_binary_critical_iff : forall (a e1 : R) (z : C), off_masses (binary_mid a e1) z ->
  ((exists phi, (- PI <= phi <= PI)%R /\ peval (poly_coeffs_critical_binary phi a e1) z = 0)
   <-> jacobian_det (binary_mid a e1) z 0).
Proof. exact critical2_iff. Qed.
Print Assumptions C07_binary_critical_iff.
Theorem C07_triple_critical_iff : forall (a e1 e2 : R) (p3 z : C), off_masses (triple_mid a e1 e2 p3) z ->
  ((exists phi, (- PI <= phi <= PI)%R /\ peval (poly_coeffs_critical_triple phi a p3 e1 e2) z = 0)
   <-> jacobian_det (triple_mid a e1 e2 p3) z 0).
Proof. exact critical3_iff. Qed.
Print Assumptions C07_triple_critical_iff.
Theorem C07_binary_curves : forall poly_roots p npts s q, s <> 0%R -> (0 < q)%R -> p_s p = Some s -> p_q p = Some q ->
  (forall phi, let cs := poly_coeffs_critical_binary phi (0.5 * s) (q / (1 + q)) in splits cs (poly_roots cs None)) ->
  exists r, critical_and_caustic_curves poly_roots npts 2 p = Ok r /\ curves_correct (binary_lens s q) npts 4 r.
Proof. exact crit_binary_api. Qed.
Print Assumptions C07_binary_curves.
Theorem C07_triple_curves : forall poly_roots p npts s q q3 r3 psi, let p3 := from_midpoint s q r3 psi in
  s <> 0%R -> (0 < q)%R -> (0 < q3)%R ->
  p3 <> RtoC (- s * q / (1 + q)) -> p3 <> RtoC (s / (1 + q)) ->
  p_s p = Some s -> p_q p = Some q -> p_q3 p = Some q3 -> p_r3 p = Some r3 -> p_psi p = Some psi ->
  (forall phi, let cs := poly_coeffs_critical_triple phi (0.5 * s) (third_lens r3 psi) (q / (1 + q + q3)) (1 / (1 + q + q3)) in splits cs (poly_roots cs None)) ->
  exists r, critical_and_caustic_curves poly_roots npts 3 p = Ok r /\ curves_correct (triple_lens s q q3 p3) npts 6 r.
Proof. exact crit_triple_api. Qed.
(** the zero set is not empty: with equal masses at +-1 the critical polynomial at phase 0 has a root at sqrt 3 *)
Example C07_example : jacobian_det (binary_mid 1 (1/2)) (RtoC (sqrt 3)) 0 /\
  peval (poly_coeffs_critical_binary 0 1 (1/2)) (RtoC (sqrt 3)) = 0.
Proof.
  assert (S : RtoC (sqrt 3) * RtoC (sqrt 3) = 3) by (rewrite <- RtoC_mult; f_equal; apply sqrt_sqrt; lra).
  assert (E : peval (poly_coeffs_critical_binary 0 1 (1/2)) (RtoC (sqrt 3)) = 0).
  { unfold poly_coeffs_critical_binary. rewrite Ropp_0, cexpi_0. cbn [peval length].
    set (t := RtoC (sqrt 3)) in *. transitivity ((t * t) * (t * t) - 3 * (t * t) + (2 - 4 * RtoC (1/2)) * t).
    - cbn [Cpow]. ring.
    - rewrite S. replace (4 * RtoC (1/2)) with (RtoC 2) by (rewrite <- RtoC_mult; f_equal; lra). ring. }
  split; auto. apply critical2_iff.
  - intros m p H. assert (1 < sqrt 3)%R by (rewrite <- sqrt_1; apply sqrt_lt_1; lra).
    destruct H as [H|[H|[]]]; injection H as _ <-; intros E'; apply RtoC_inj in E'; lra.
  - exists 0%R. split; auto. pose proof PI_RGT_0; lra.
Qed.

(** ** C08 Jacobian determinant *)
Theorem C08_binary_jacobian_partial : forall p a e1 z, p_a p = Some a -> p_e1 p = Some e1 -> off_masses (binary_mid a e1) z ->
  exists f M D, (forall x, lens_eq 2 p x = Ok (f x)) /\ has_derivative f z M /\ lens_eq_det_jac 2 p z = Ok D /\ det2 M = D.
Proof.
  intros p a e1 z Ea Ee H. destruct (lens_eq2_jacobian a e1 z H) as (M & HM & E). exists (lens_eq2 a e1), M, (det_jac2 a e1 z).
  unfold lens_eq, lens_eq_det_jac. simpl. rewrite Ea, Ee. auto.
Qed.
Print Assumptions C08_binary_jacobian_partial.
Theorem C08_triple_jacobian_partial : forall p a r3 psi e1 e2 z, p_a p = Some a -> p_e1 p = Some e1 -> p_e2 p = Some e2 ->
  p_r3 p = Some r3 -> p_psi p = Some psi -> off_masses (triple_mid a e1 e2 (third_lens r3 psi)) z ->
  exists f M D, (forall x, lens_eq 3 p x = Ok (f x)) /\ has_derivative f z M /\ lens_eq_det_jac 3 p z = Ok D /\ det2 M = D.
Proof.
  intros p a r3 psi e1 e2 z Ea E1 E2 Er Ep H. destruct (lens_eq3_jacobian a r3 psi e1 e2 z H) as (M & HM & E).
  exists (lens_eq3 a r3 psi e1 e2), M, (det_jac3 a r3 psi e1 e2 z).
  unfold lens_eq, lens_eq_det_jac. simpl. rewrite Ea, E1, E2, Er, Ep. auto.
Qed.
Print Assumptions C08_triple_jacobian_partial.
(** for one lens the reported determinant is wrong at every point off the unit circle *)
Theorem C08_single_jacobian_refuted : forall p (z : C), z <> 0 -> Cmod z <> 1%R ->
  exists f D M, (forall x, lens_eq 1 p x = Ok (f x)) /\ lens_eq_det_jac 1 p z = Ok D /\ has_derivative f z M /\ D <> det2 M.
Proof.
  intros p z Hz H1. destruct (lens_eq1_jacobian z Hz) as (M & HM & _). exists lens_eq1, (det_jac1 z), M.
  repeat split; auto. now apply lens_eq1_jacobian_wrong.
Qed.
Theorem C08_single_jacobian_value : forall p (z : C), z <> 0 ->
  lens_eq_det_jac 1 p z = Ok (1 - 1 / (Cmod z * Cmod z))%R /\
  (forall M, has_derivative lens_eq1 z M -> det2 M = (1 - 1 / (Cmod z * Cmod z) ^ 2)%R).
Proof.
  intros p z Hz. split. unfold lens_eq_det_jac; simpl. now rewrite det_jac1_value.
  intros M HM. destruct (lens_eq1_jacobian z Hz) as (M' & HM' & E). now rewrite (has_derivative_unique _ _ _ _ HM HM').
Qed.
Print Assumptions C08_single_jacobian_value.
(** the mappings are the gravitational lens mapping *)
Theorem C08_lens_eq_is_lens_map : forall a e1 e2 r3 psi z,
  lens_eq1 z = lens_map single_lens z /\ lens_eq2 a e1 z = lens_map (binary_mid a e1) z /\
  lens_eq3 a r3 psi e1 e2 z = lens_map (triple_mid a e1 e2 (third_lens r3 psi)) z.
Proof. intros. split. apply lens_eq1_map. split. apply lens_eq2_map. apply lens_eq3_map. Qed.
Print Assumptions C08_lens_eq_is_lens_map.
Example C08_example : det_jac1 (RtoC 2) = (3 / 4)%R /\ jacobian_det single_lens (RtoC 2) (15 / 16).
Proof.
  assert (H : RtoC 2 <> 0) by (apply RtoC_neq0; lra). split.
  - rewrite det_jac1_value, Cmod_R, Rabs_pos_eq by (auto; lra). field.
  - replace (15 / 16)%R with (1 - 1 / (Cmod (RtoC 2) * Cmod (RtoC 2)) ^ 2)%R.
    + rewrite <- single_det by auto. apply jac_det_shear. now apply off_single.
    + rewrite Cmod_R, Rabs_pos_eq by lra. field.
Qed.

(** ** C09 single-lens images *)
Theorem C09_single_images : forall poly_roots p init (w : C), w <> 0 ->
  exists z1 z2, images_point_source poly_roots 1 p init w = Ok ([z1; z2], [true; true]) /\
    z1 <> z2 /\ forall z, is_image single_lens w z <-> z = z1 \/ z = z2.
Proof.
  intros pr p init w Hw. pose proof (single_images_iff w Hw) as I. pose proof (single_images_nodup w Hw) as N.
  unfold images_point_source; simpl Z.eqb; cbv iota. unfold images1 in *. cbn [fst] in *. eexists _, _. split; [reflexivity|]. split.
  - apply NoDup_cons_iff in N. destruct N as (Hn & _). intros E. apply Hn. left. symmetry. exact E.
  - intros z. rewrite I. simpl. split. intros [E|[E|[]]]; auto. intros [E|E]; auto.
Qed.
Example C09_example : is_image single_lens (RtoC (3/2)) (RtoC 2) /\ is_image single_lens (RtoC (3/2)) (RtoC (- (1/2))).
Proof.
  split; (split; [apply off_single, RtoC_neq0; lra|]); rewrite <- lens_eq1_map; unfold lens_eq1; rewrite Cconj_RtoC, <- RtoC_div, <- RtoC_minus by lra; f_equal; field.
Qed.

(** ** C10 single-lens magnification: refuted *)
Theorem C10_single_magnification_refuted : forall poly_roots p (w : C), w <> 0 ->
  exists A, mag_point_source poly_roots 1 p w = Ok A /\ (A_point (Cmod w) < A)%R.
Proof.
  intros pr p w Hw. eexists. split. apply mag1_value; auto. apply A_point_lt. now apply Cmod_gt_0.
Qed.
(** what is returned instead: it still depends on |w| only, exceeds 1 and decreases *)
Theorem C10_single_magnification_value : forall poly_roots p (w : C), w <> 0 ->
  mag_point_source poly_roots 1 p w = Ok (sqrt (Cmod w ^ 2 + 4) / Cmod w)%R.
Proof. intros; now apply mag1_value. Qed.
Print Assumptions C10_single_magnification_value.
Theorem C10_single_magnification_decreases_partial : forall poly_roots p (w v : C), w <> 0 -> (Cmod w < Cmod v)%R ->
  exists A B, mag_point_source poly_roots 1 p w = Ok A /\ mag_point_source poly_roots 1 p v = Ok B /\ (1 < B < A)%R.
Proof.
  intros pr p w v Hw L. assert (Pw : (0 < Cmod w)%R) by now apply Cmod_gt_0.
  assert (Hv : v <> 0) by (apply Cmod_pos_neq; lra).
  eexists _, _. split; [apply mag1_value; auto|]. split; [apply mag1_value; auto|]. split.
  - destruct (A_point_lt (Cmod v)); lra.
  - now apply mag1_decreasing.
Qed.
Print Assumptions C10_single_magnification_decreases_partial.
(** the closed form of fastlens is the true total magnification of the two images *)
Theorem C10_A_point_is_true_magnification_partial : forall (w : C) D, w <> 0 ->
  (forall z, In z (fst (images1 w)) -> jacobian_det single_lens z (D z)) ->
  sumR (map (fun z => 1 / Rabs (D z))%R (fst (images1 w))) = A_point (Cmod w).
Proof. intros; now apply true_mag1. Qed.
Print Assumptions C10_A_point_is_true_magnification_partial.
Theorem C10_A_point_decreases_partial : forall u v, (0 < u)%R -> (u < v)%R -> (1 < A_point v < A_point u)%R.
Proof. intros u v P L. split. apply A_point_lt; lra. now apply A_point_decreasing. Qed.
Print Assumptions C10_A_point_decreases_partial.
Example C10_example : forall poly_roots p, mag_point_source poly_roots 1 p (RtoC (3/2)) = Ok (5 / 3)%R /\ A_point (3/2) = (17 / 15)%R.
Proof.
  intros pr p. assert (S : sqrt ((3/2) ^ 2 + 4) = (5/2)%R).
  { apply sqrt_lem_1; lra. }
  rewrite mag1_value by (apply RtoC_neq0; lra). unfold A_point. rewrite Cmod_R, !(Rabs_pos_eq (3/2)), S by lra.
  split; [f_equal|]; field.
Qed.

(** ** C11 single-lens critical curve *)
Theorem C11_single_critical : forall poly_roots npts p, exists zs cs,
  critical_and_caustic_curves poly_roots npts 1 p = Ok ([zs], [cs]) /\ length zs = npts /\ length cs = npts /\
  (forall z, In z zs -> Cmod z = 1%R /\ lens_eq_det_jac 1 p z = Ok 0%R /\ jacobian_det single_lens z 0 /\ lens_map single_lens z = 0) /\
  (forall z, In z cs -> z = 0).
Proof.
  intros pr npts p. destruct (crit1 pr npts p) as (zs & cs & E & L1 & L2 & H & H0). exists zs, cs. repeat split; auto; try now apply H.
  unfold lens_eq_det_jac; simpl. f_equal. now apply H.
Qed.

(** ** C12 symmetries *)
Theorem C12_lens_reflection : forall a r3 psi e1 e2 z,
  lens_eq2 a e1 (Cconj z) = Cconj (lens_eq2 a e1 z) /\ det_jac2 a e1 (Cconj z) = det_jac2 a e1 z /\
  lens_eq3 a r3 (- psi) e1 e2 (Cconj z) = Cconj (lens_eq3 a r3 psi e1 e2 z) /\
  det_jac3 a r3 (- psi) e1 e2 (Cconj z) = det_jac3 a r3 psi e1 e2 z.
Proof. intros. split. apply lens_eq2_conj. split. apply det_jac2_conj. split. apply lens_eq3_conj. apply det_jac3_conj. Qed.
Print Assumptions C12_lens_reflection.
Theorem C12_lens_swap : forall a e1 z,
  lens_eq2 a (1 - e1) (- z) = - lens_eq2 a e1 z /\ det_jac2 a (1 - e1) (- z) = det_jac2 a e1 z.
Proof. intros. split. apply lens_eq2_neg. apply det_jac2_neg. Qed.
Print Assumptions C12_lens_swap.
Theorem C12_binary_magnification_reflection_partial : forall poly_roots s q w p, (0 < q)%R ->
  off_lens_positions (binary_lens s q) w -> p_s p = Some s -> p_q p = Some q ->
  (forall cs i, hd (RtoC 0) cs <> 0 -> splits cs (poly_roots cs i)) ->
  mag_point_source poly_roots 2 p (Cconj w) = mag_point_source poly_roots 2 p w.
Proof. intros; eapply mag2_conj; eauto. Qed.
Print Assumptions C12_binary_magnification_reflection_partial.
Theorem C12_binary_magnification_swap_partial : forall poly_roots s q w p p', (0 < q)%R ->
  off_lens_positions (binary_lens s q) w -> p_s p = Some s -> p_q p = Some q ->
  (forall cs i, hd (RtoC 0) cs <> 0 -> splits cs (poly_roots cs i)) ->
  p_s p' = Some s -> p_q p' = Some (1 / q)%R ->
  mag_point_source poly_roots 2 p' (- w) = mag_point_source poly_roots 2 p w.
Proof. intros; eapply mag2_swap; eauto. Qed.
Theorem C12_triple_magnification_reflection_partial : forall poly_roots s q q3 r3 psi w p p', (0 < q)%R -> (0 < q3)%R ->
  off_lens_positions (triple_lens s q q3 (from_midpoint s q r3 psi)) w ->
  p_s p = Some s -> p_q p = Some q -> p_q3 p = Some q3 -> p_r3 p = Some r3 -> p_psi p = Some psi ->
  (forall cs i, hd (RtoC 0) cs <> 0 -> splits cs (poly_roots cs i)) ->
  p_s p' = Some s -> p_q p' = Some q -> p_q3 p' = Some q3 -> p_r3 p' = Some r3 -> p_psi p' = Some (- psi)%R ->
  mag_point_source poly_roots 3 p' (Cconj w) = mag_point_source poly_roots 3 p w.
Proof. intros pr s q q3 r3 psi w p p'. intros. apply (mag3_conj pr s q q3 r3 psi w p p'); auto. Qed.
(** image sets of mirrored and exchanged configurations *)
Theorem C12_image_sets : forall L w z,
  (is_image (conj_lens L) (Cconj w) (Cconj z) <-> is_image L w z) /\
  (forall c, is_image (shift_lens c L) (w + c) (z + c) <-> is_image L w z).
Proof. intros. split. apply conj_image. intros; apply shift_image. Qed.
Print Assumptions C12_image_sets.

(** an exact solver exists, so the solver hypotheses of C07 and C12 can be met for all inputs at once *)
Example C12_exact_solver_exists : exists poly_roots : list C -> option (list C) -> list C,
  forall cs i, hd (RtoC 0) cs <> 0 -> splits cs (poly_roots cs i).
Proof.
  destruct (ClassicalChoice.choice (fun cs rs => hd (RtoC 0) cs <> 0 -> splits cs rs)) as (f & F).
  - intros cs. destruct (Ceq_dec (hd (RtoC 0) cs) 0) as [E|E]. exists []. intros; contradiction.
    destruct (splits_exists cs E) as (rs & S). exists rs; auto.
  - exists (fun cs _ => f cs). intros; now apply F.
Qed.

(** ** C13 lens counts *)
Theorem C13_unsupported_rejected : forall poly_roots npts n p init z w, n <> 1%Z -> n <> 2%Z -> n <> 3%Z ->
  lens_eq n p z = Raise ValueError /\ lens_eq_det_jac n p z = Raise ValueError /\
  images_point_source poly_roots n p init w = Raise ValueError /\ mag_point_source poly_roots n p w = Raise ValueError /\
  critical_and_caustic_curves poly_roots npts n p = Raise ValueError.
Proof. exact unsupported. Qed.
Print Assumptions C13_unsupported_rejected.
Theorem C13_supported_accepted : forall poly_roots npts n p init z w, (n = 1 \/ n = 2 \/ n = 3)%Z -> full_params p ->
  returns (lens_eq n p z) /\ returns (lens_eq_det_jac n p z) /\
  returns (images_point_source poly_roots n p init w) /\ returns (mag_point_source poly_roots n p w) /\
  returns (critical_and_caustic_curves poly_roots npts n p).
Proof. exact supported. Qed.
Theorem C13_missing_parameter : forall poly_roots (n : Z) p w, (n = 2 \/ n = 3)%Z -> p_s p = None \/ p_q p = None ->
  mag_point_source poly_roots n p w = Raise KeyError.
Proof. exact missing_key. Qed.
Print Assumptions C13_missing_parameter.
Example C13_example : full_params (mkparams (Some 1) (Some 1) (Some 1) (Some 1) (Some 0) (Some 1) (Some 0.5) (Some 0.5))%R.
Proof. repeat split; discriminate. Qed.

(** ** C46 origin of the third lens position *)
(** (r3, psi) are measured from the mid-point of the first two lenses (proved by C06/C07), which is
    neither the centre of mass nor the first lens *)
Theorem C46_origin_is_midpoint : forall s q r psi, (1 + q <> 0)%R ->
  third_lens r psi + RtoC (x_cm (0.5 * s) q) = from_midpoint s q r psi.
Proof. intros; symmetry; now apply from_midpoint_value. Qed.
Print Assumptions C46_origin_is_midpoint.
Theorem C46_documented_origin_refuted : exists s q q3 r psi z,
  let c := RtoC (x_cm (0.5 * s) q) in
  let code := lens_eq3 (0.5 * s) r psi (q / (1 + q + q3)) (1 / (1 + q + q3)) (z - c) + c in
  (0 < s /\ 0 < q /\ 0 < q3 /\ 0 < r)%R /\
  code <> lens_map (triple_lens s q q3 (from_com r psi)) z /\ code <> lens_map (triple_lens s q q3 (from_first s q r psi)) z.
Proof.
  exists 1%R, 3%R, 4%R, 2%R, 0%R, (RtoC 3). cbv zeta. split. lra.
  rewrite lens_eq3_map, <- (frame_lens _ _ _ _ (triple_frame 1 3 4 (third_lens 2 0) ltac:(lra) ltac:(lra))).
  rewrite <- from_midpoint_value by lra. unfold from_midpoint, from_first.
  replace (from_com 2 0) with (RtoC 2) by (unfold from_com; rewrite cos_0, sin_0; apply Ceq; simpl; ring).
  rewrite <- !RtoC_plus. unfold lens_map, triple_lens. rewrite !deflection_cons. cbn [deflection].
  rewrite <- !RtoC_minus, !Cconj_RtoC, <- !RtoC_div, <- !RtoC_plus, <- !RtoC_minus by lra.
  split; intros E; apply RtoC_inj in E; field_simplify in E; lra.
Qed.

(** ** C47 the two masses and the reported frame *)
(** the frame in which source positions and critical curves are expressed has the centre of mass of the
    first two lenses at the origin *)
Theorem C47_frame_is_centre_of_mass : forall s q, (1 + q <> 0)%R ->
  let a := (0.5 * s)%R in let e1 := (q / (1 + q))%R in let c := x_cm a q in
  (e1 * (a + c) + (1 - e1) * (- a + c) = 0)%R /\
  Permutation (binary_lens s q) (map (fun mp => (fst mp, snd mp + RtoC c)) (binary_mid a e1)).
Proof.
  intros s q Hq a e1 c. split. unfold e1, c, a, x_cm. change 0.5%R with (5/10)%R. field. auto. now apply binary_frame.
Qed.

Print Assumptions C05_binary_magnification_exact_partial.
Print Assumptions C05_worked.
Print Assumptions C06_triple_magnification_exact_partial.
Print Assumptions C06_worked.
Print Assumptions C07_triple_curves.
Print Assumptions C08_single_jacobian_refuted.
Print Assumptions C09_single_images.
Print Assumptions C10_single_magnification_refuted.
Print Assumptions C11_single_critical.
Print Assumptions C12_triple_magnification_reflection_partial.
Print Assumptions C12_binary_magnification_swap_partial.
Print Assumptions C13_supported_accepted.
Print Assumptions C46_documented_origin_refuted.
Print Assumptions C47_frame_is_centre_of_mass.
