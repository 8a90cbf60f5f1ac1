(** Three equal masses at the corners of a triangle with equal sides: a worked case for the three-lens theorems of C06 and C75. *)
From Coq Require Import Reals List Lra Lia ZArith.
From Coquelicot Require Import Complex.
From Verif Require Import Base_R Base_List Base_C M_Utils M_Coeffs M_PointSource S_PointSource S_Poly
  P_Lens P_Poly P_PolyRoots P_PointSource P_Images P_Count P_RootsCont P_MagCont P_MagLens P_Trefoil Thm_PointSource Thm_FarField Thm_MagCont.
Import ListNotations.
Local Open Scope R_scope.

(** the corners are the cube root of six from the centre; the source is behind the centre *)
Definition tri_lens_system : lens_system := triple_lens tri_s 1 1 (from_midpoint tri_s 1 tri_r3 (PI / 2)).
Lemma tri_p3 : from_midpoint tri_s 1 tri_r3 (PI / 2) = (0, tri_r3).
Proof. rewrite from_midpoint_value by lra; rewrite tri_third, tri_xcm; ring. Qed.
Lemma tri_r3_pos : 0 < tri_r3. Proof. pose proof tri_pos. unfold tri_r3. lra. Qed.
Lemma tri_frame : Permutation.Permutation tri_lens_system (shift_lens (RtoC 0) (triple_mid (0.5 * tri_s) tri_e tri_e (third_lens tri_r3 (PI / 2)))).
Proof. pose proof (tP tri_s 1 1 tri_r3 (PI / 2) ltac:(lra) ltac:(lra)) as F. rewrite tri_xcm in F. exact F. Qed.
Lemma tri_source : off_lens_positions tri_lens_system tri_w.
Proof.
  pose proof tri_pos as P. unfold tri_lens_system. rewrite tri_p3.
  intros m x [E|[E|[E|[]]]]; injection E as <- <-; unfold tri_w; intros E; apply (f_equal snd) in E; cbn in E; unfold tri_r3 in E; lra.
Qed.
Lemma tri_not_real x : from_midpoint tri_s 1 tri_r3 (PI / 2) <> RtoC x.
Proof. pose proof tri_r3_pos. rewrite tri_p3. intros E; apply (f_equal snd) in E; cbn in E; lra. Qed.
Lemma tri_map z : lens_map tri_lens_system z = lens_eq3 (0.5 * tri_s) tri_r3 (PI / 2) tri_e tri_e z.
Proof. rewrite (frame_lens _ _ _ _ tri_frame), lens_eq3_map, Cplus_0_r. f_equal. ring. Qed.
Lemma tri_off r : off_masses tri_lens_system (r + tri_w)%C <-> (r * r * r + i6)%C <> RtoC 0.
Proof.
  rewrite (frame_off _ _ _ _ tri_frame). replace (r + tri_w - RtoC 0)%C with (r + tri_w)%C by ring. rewrite off_triple, tri_third, <- tri_H.
  assert (E1 : (r + tri_w - RtoC (0.5 * tri_s) = r - tri_c2)%C) by (unfold tri_w, tri_c2; apply Ceq; cbn; lra).
  assert (E2 : (r + tri_w + RtoC (0.5 * tri_s) = r - tri_c1)%C) by (unfold tri_w, tri_c1; apply Ceq; cbn; lra).
  assert (E3 : (r + tri_w - (0, tri_r3)%R = r - tri_c3)%C) by (unfold tri_w, tri_c3, tri_r3; apply Ceq; cbn; lra).
  rewrite E1, E2, E3. split.
  - intros (H1 & H2 & H3). repeat apply Cmult_neq_0; auto.
  - intros H. repeat split; intros E; apply H; rewrite E; ring.
Qed.
Lemma tri_jac z : off_masses tri_lens_system z -> jacobian_det tri_lens_system z (det_jac3 (0.5 * tri_s) tri_r3 (PI / 2) tri_e tri_e z).
Proof.
  intros O. rewrite det_jac3_shear.
  assert (ES : shear (triple_mid (0.5 * tri_s) tri_e tri_e (third_lens tri_r3 (PI / 2))) z = shear tri_lens_system z) by (rewrite (frame_shear _ _ _ _ tri_frame); f_equal; ring). rewrite ES. now apply jac_det_shear.
Qed.

(** its four images: at the centre, and behind each mass at distance two from the centre *)
Definition tri_cubes : list C := [(0, 2); (sqrt 3, - (1)); (- sqrt 3, - (1))].
Lemma tri_cubes_split : splits (cube_of tri_X0) tri_cubes.
Proof.
  assert (Q : sqrt 3 * sqrt 3 = 3) by (apply sqrt_sqrt; lra). intros Z. unfold cube_of, tri_cubes, tri_X0. cbn [peval length hd map prodC].
  assert (E1 : ((sqrt 3, - (1))%R + (- sqrt 3, - (1))%R = (0, - (2))%R)%C) by (apply Ceq; cbn; lra).
  assert (E2 : ((sqrt 3, - (1))%R * (- sqrt 3, - (1))%R = - (4))%C) by (apply Ceq; cbn; nra).
  transitivity (RtoC 1 * ((Z - (0, 2)%R) * (Z * Z - ((sqrt 3, - (1))%R + (- sqrt 3, - (1))%R) * Z + (sqrt 3, - (1))%R * (- sqrt 3, - (1))%R)))%C; [|ring].
  rewrite E1, E2. destruct Z as [x y]. apply Ceq; cbn; ring.
Qed.
Definition tri_images : list C := map (fun r => r + tri_w)%C (RtoC 0 :: tri_cubes).
Lemma tri_images_all : all_images tri_lens_system tri_w tri_images.
Proof.
  assert (Q : 0 < sqrt 3) by (apply sqrt_lt_R0; lra). assert (Q2 : sqrt 2 * sqrt 2 = 2) by (apply sqrt_sqrt; lra). split.
  - unfold tri_images. apply FinFun.Injective_map_NoDup.
    + intros x y E. apply (f_equal (fun t => t - tri_w)%C) in E. replace x with (x + tri_w - tri_w)%C by ring. replace y with (y + tri_w - tri_w)%C by ring. exact E.
    + unfold tri_cubes. repeat constructor; cbn [In]; intros H; repeat destruct H as [H|H]; try exact H; pose proof (f_equal fst H) as H1; pose proof (f_equal snd H) as H2; cbn in H1, H2; lra.
  - intros z. split.
    + intros Hin. apply in_map_iff in Hin. destruct Hin as (r & <- & [<-|Hin]).
      * destruct tri_at0 as (R0 & _). split; [apply tri_off; intros E; apply i6_neq; replace (- i6)%C with (- (RtoC 0 * RtoC 0 * RtoC 0 + i6))%C by ring; rewrite E; ring|]. rewrite tri_map. apply Cminus_eq_0. now apply Cmod_eq_0.
      * pose proof (cube_in _ _ _ tri_cubes_split Hin) as E. destruct (tri_at_X0 r E) as (R0 & _). split; [apply tri_off; rewrite E; unfold tri_X0, i6; intros X; apply (f_equal snd) in X; cbn in X; lra|]. rewrite tri_map. apply Cminus_eq_0. now apply Cmod_eq_0.
    + intros (O & I). set (r := (z - tri_w)%C). assert (Ez : z = (r + tri_w)%C) by (unfold r; ring). apply in_map_iff. exists r. split; [now symmetry|]. rewrite Ez in O, I. rewrite tri_map in I.
      assert (Z0 : Cmod (lens_eq3 (0.5 * tri_s) tri_r3 (PI / 2) tri_e tri_e (r + tri_w) - tri_w)%C = 0) by (rewrite I; replace (tri_w - tri_w)%C with (RtoC 0) by ring; apply Cmod_0).
      assert (Im : is_image (triple_mid (0.5 * tri_s) tri_e tri_e (from_com tri_r3 (PI / 2))) tri_w (r + tri_w)%C).
      { replace (from_com tri_r3 (PI / 2)) with (third_lens tri_r3 (PI / 2)) by (unfold third_lens, from_com, cexpi; apply Ceq; cbn; ring). split.
        - apply (frame_off _ _ _ _ tri_frame) in O. now replace (r + tri_w - RtoC 0)%C with (r + tri_w)%C in O by ring.
        - now rewrite <- lens_eq3_map. }
      pose proof (C06_triple_image_is_root _ _ _ _ _ _ _ Im) as K. pose proof tri_coeffs as TC. rewrite tri_xcm in TC. replace (tri_w - RtoC 0)%C with tri_w in TC by ring. change (1 / (1 + 1 + 1)) with tri_e in TC. rewrite TC in K.
      replace (r + tri_w - tri_w)%C with r in K by ring. rewrite tri_poly in K. apply Cmult_integral in K. destruct K as [K|K]; [now apply i6_neq in K|]. apply Cmult_integral in K. destruct K as [K|K]; [now left|]. right.
      rewrite tri_factor in K. apply Cmult_integral in K. destruct K as [K|K]; [|apply Cmult_integral in K; destruct K as [K|K]; apply Cminus_eq_0 in K; exfalso].
      * pose proof (cube_prod _ _ r tri_cubes_split) as Pr. rewrite K in Pr. revert Pr. generalize tri_cubes. induction l as [|x l IH]; cbn [map prodC]; intros E; [exfalso; injection E; lra|].
        apply Cmult_integral in E. destruct E as [E|E]; [left; symmetry; now apply Cminus_eq_0|right; auto].
      * pose proof (tri_far r (sqrt 2) Q2 K). lra.
      * pose proof (tri_far r (- sqrt 2) ltac:(lra) K). lra.
Qed.
(** the exactness theorem of C06: no root that is no image is within the tolerance; the central image counts fully, each of the others for 1/99 *)
Example C06_triangle : length tri_images = 4%nat /\ exists D,
  (forall z, In z tri_images -> jacobian_det tri_lens_system z (D z) /\ D z <> 0) /\ sumR (map (fun z => 1 / Rabs (D z)) tri_images) = 34 / 33 /\
  forall poly_roots p, solved3 poly_roots tri_s 1 1 tri_r3 (PI / 2) tri_w ->
  p_s p = Some tri_s -> p_q p = Some 1 -> p_q3 p = Some 1 -> p_r3 p = Some tri_r3 -> p_psi p = Some (PI / 2) ->
  mag_point_source poly_roots 3 p tri_w = Ok (34 / 33).
Proof.
  pose proof tri_images_all as All. split; [reflexivity|]. set (D := det_jac3 (0.5 * tri_s) tri_r3 (PI / 2) tri_e tri_e). exists D.
  assert (HD : forall z, In z tri_images -> jacobian_det tri_lens_system z (D z) /\ D z <> 0).
  { intros z Hin. split; [apply tri_jac; now apply All|]. apply in_map_iff in Hin. destruct Hin as (r & <- & [<-|Hin]); unfold D.
    - rewrite (proj2 tri_at0). lra.
    - rewrite (proj2 (tri_at_X0 r (cube_in _ _ _ tri_cubes_split Hin))). lra. }
  assert (HS : sumR (map (fun z => 1 / Rabs (D z)) tri_images) = 34 / 33).
  { unfold tri_images. rewrite map_map. cbn [map sumR]. unfold D. rewrite (proj2 tri_at0).
    assert (K : forall r, In r tri_cubes -> det_jac3 (0.5 * tri_s) tri_r3 (PI / 2) tri_e tri_e (r + tri_w)%C = - (99)) by (intros r Hin; exact (proj2 (tri_at_X0 r (cube_in _ _ _ tri_cubes_split Hin)))).
    unfold tri_cubes in *. cbn [map sumR]. rewrite !K by (cbn; auto). rewrite Rabs_R1, Rabs_Ropp, Rabs_pos_eq by lra. field. }
  split; auto. split; auto. intros pr p Hsol Es Eq E3 Er Ep. rewrite <- HS. pose proof tri_s_pos.
  apply (C06_triple_magnification_exact_partial pr tri_s 1 1 tri_r3 (PI / 2) tri_w p tri_images D); auto; try lra; try apply tri_not_real; try exact tri_source.
  fold tri_lens_system. assert (Hsp := Hsol). unfold solved3 in Hsp. cbv zeta in Hsp. rewrite tri_coeffs in Hsp |- *. cbn [fst snd] in Hsp |- *. intros r Hin. cbv zeta. rewrite tri_xcm, Cplus_0_r. apply in_map_iff in Hin. destruct Hin as (r0 & <- & Hin). rewrite tri_map. intros Lt.
  destruct (tri_cases _ Hsp r0 Hin) as [(d & _ & R0 & _)|G]; [|lra]. apply Cminus_eq_0. now apply Cmod_eq_0.
Qed.
(** three lenses, every hypothesis met: equal masses at the corners of a triangle with equal sides, the corners the cube root of six
    from the centre, the source behind the centre.  Six of the ten roots are no images.  The value is 34/33 *)
Example C75_triple_worked : (exists rs, splits (fst (poly_coeffs_triple_CM (tri_w - RtoC (x_cm (0.5 * tri_s) 1))%C (0.5 * tri_s) (third_lens tri_r3 (PI / 2)) (1 / (1 + 1 + 1)) (1 / (1 + 1 + 1)))) rs) /\
  forall poly_roots, solved3 poly_roots tri_s 1 1 tri_r3 (PI / 2) tri_w ->
  exists d, 0 < d /\ forall s q q3 r3 psi w p,
    Rabs (s - tri_s) < d -> Rabs (q - 1) < d -> Rabs (q3 - 1) < d -> Rabs (r3 - tri_r3) < d -> Rabs (psi - PI / 2) < d -> Cmod (w - tri_w)%C < d ->
    p_s p = Some s -> p_q p = Some q -> p_q3 p = Some q3 -> p_r3 p = Some r3 -> p_psi p = Some psi -> solved3 poly_roots s q q3 r3 psi w ->
    exists A, mag_point_source poly_roots 3 p w = Ok A /\ Rabs (A - 34 / 33) < 1 / 1000.
Proof.
  pose proof tri_pos as P. pose proof tri_s_pos as Ps. split; [apply splits_exists; rewrite tri_coeffs; cbn [fst]; rewrite tri_hd; exact i6_neq|]. intros pr Hsol.
  assert (Hsp := Hsol). unfold solved3 in Hsp. cbv zeta in Hsp. rewrite tri_coeffs in Hsp. cbn [fst] in Hsp. set (cs := triple_cm_body (RtoC 0) tri_c1 tri_c2 tri_c3 tri_e tri_e tri_e) in *.
  destruct (C75_triple_continuous_partial pr tri_s 1 1 tri_r3 (PI / 2) tri_w) as (A0 & E0 & K); try lra; try apply tri_not_real; try exact tri_source; auto.
  - fold tri_lens_system. unfold candidates3. cbv zeta. rewrite tri_coeffs, tri_xcm. intros z Hz. apply in_map_iff in Hz. destruct Hz as (r & <- & Hr). rewrite Cplus_0_r, tri_map.
    destruct (tri_cases _ Hsp r Hr) as [(d & Nd & R0 & D0)|G]; [|split; [intros E; lra|intros E; lra]]. rewrite R0. split; [lra|]. intros _ J. apply Nd. rewrite <- D0.
    apply (jac_det_unique tri_lens_system (r + tri_w)%C); auto. apply tri_jac. apply tri_images_all. apply tri_images_all. split; [|rewrite tri_map; apply Cminus_eq_0; now apply Cmod_eq_0].
    apply (frame_off _ _ _ _ tri_frame). replace (r + tri_w - RtoC 0)%C with (r + tri_w)%C by ring.
    apply (t_off pr tri_s 1 1 tri_r3 (PI / 2) tri_w); try lra; try apply tri_not_real; try exact tri_source; auto.
    cbv zeta. rewrite tri_coeffs. apply in_map_iff. exists r. split; auto.
  - destruct (K (1 / 1000)) as (d & Hd & Kd); [lra|]. exists d. split; auto.
    assert (EA : A0 = 34 / 33).
    { specialize (E0 (mkparams (Some tri_s) (Some 1) (Some 1) (Some tri_r3) (Some (PI / 2)) None None None) eq_refl eq_refl eq_refl eq_refl eq_refl). unfold mag_point_source in E0. cbn [Z.eqb Pos.eqb p_s p_q p_q3 p_r3 p_psi getp] in E0. injection E0 as E0.
      unfold images3 in E0. rewrite tri_coeffs in E0. rewrite sum_inv_terms, map_map in E0. rewrite <- E0. rewrite <- (tri_sum _ Hsp). apply f_equal. apply map_ext. intros r. rewrite tri_xcm. replace (tri_w - RtoC 0)%C with tri_w by ring. reflexivity. }
    rewrite <- EA. exact Kd.
Qed.

