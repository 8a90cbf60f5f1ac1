(** Finiteness and number of images; worked configurations. *)
From Coq Require Import Reals List Lra Lia Bool Arith ZArith Permutation Classical_Prop.
From Coquelicot Require Import Complex.
From Verif Require Import Base_R Base_List Base_C M_Utils M_Coeffs M_PointSource S_PointSource S_Poly
  P_Lens P_Poly P_PolyRoots P_PointSource P_Images.
Import ListNotations.
Local Open Scope R_scope.
Local Open Scope C_scope.

Lemma finite_subset (Q : C -> Prop) (rs : list C) : (forall z, Q z -> In z rs) ->
  exists l, NoDup l /\ forall z, In z l <-> Q z.
Proof.
  revert Q; induction rs as [|r t IH]; intros Q H.
  - exists []. split. constructor. intros z; split; [easy|]. intros Hz. elim (H z Hz).
  - destruct (IH (fun z => Q z /\ z <> r)) as (l & Hn & Hl).
    { intros z (Hz & N). destruct (H z Hz); auto. congruence. }
    destruct (classic (Q r)) as [Hr|Hr].
    + exists (r :: l). split. constructor; auto. intros Hin. apply Hl in Hin. tauto.
      intros z. simpl. rewrite Hl. split. intros [<-|]; tauto. intros Hz. destruct (Ceq_dec r z); auto.
    + exists l. split; auto. intros z. rewrite Hl. split. tauto. intros Hz. split; auto. intros ->. contradiction.
Qed.
Lemma images_finite cs L w : hd (RtoC 0) cs <> 0 -> (forall z, is_image L w z -> peval cs z = 0) ->
  exists imgs, all_images L w imgs /\ (length imgs <= length cs - 1)%nat.
Proof.
  intros Hd H. destruct (splits_exists cs Hd) as (rs & S).
  destruct (finite_subset (is_image L w) rs) as (l & Hn & Hl).
  { intros z Hz. apply (splits_root cs); auto. }
  exists l. split. split; auto. apply roots_le; auto. intros z Hz. apply H. now apply Hl.
Qed.
Lemma frame_all_images_back L Lm (c : C) w imgs : Permutation L (shift_lens c Lm) -> all_images Lm (w - c) imgs ->
  all_images L w (map (fun z => z + c) imgs).
Proof.
  intros P (Hn & Hi). split.
  - apply FinFun.Injective_map_NoDup; auto. intros x y E. replace x with (x + c - c) by ring. rewrite E. ring.
  - intros z. rewrite in_map_iff. split.
    + intros (x & <- & Hx). apply (frame_image L Lm c); auto. replace (x + c - c) with x by ring. now apply Hi.
    + intros H. exists (z - c). split. ring. apply Hi. now apply (frame_image L).
Qed.
Lemma binary_images_finite s q w : (0 < q)%R -> off_lens_positions (binary_lens s q) w ->
  exists imgs, all_images (binary_lens s q) w imgs /\ (length imgs <= 5)%nat.
Proof.
  intros Hq Hw. pose proof (p0_neq s q w Hq Hw) as Hd.
  destruct (images_finite _ (binary_mid (0.5 * s) (q / (1 + q))) (w - RtoC (x_cm (0.5 * s) q)) Hd) as (l & Hl & Hn).
  { intros z. apply binary_image_is_root. }
  exists (map (fun z => z + RtoC (x_cm (0.5 * s) q)) l). split; [|now rewrite map_length].
  apply (frame_all_images_back _ (binary_mid (0.5 * s) (q / (1 + q)))); auto. apply binary_frame. lra.
Qed.
Lemma triple_images_finite s q q3 r3 psi w : let L := triple_lens s q q3 (from_midpoint s q r3 psi) in
  (0 < q)%R -> (0 < q3)%R -> off_lens_positions L w ->
  exists imgs, all_images L w imgs /\ (length imgs <= 10)%nat.
Proof.
  intros L Hq Hq3 Hw. pose proof (tp0 s q q3 r3 psi w Hq Hq3 Hw) as Hd.
  set (a := (0.5 * s)%R) in *. set (c := RtoC (x_cm a q)) in *. set (e1 := (q / (1 + q + q3))%R) in *. set (e2 := (1 / (1 + q + q3))%R) in *.
  set (p3 := third_lens r3 psi) in *. set (sh := snd (poly_coeffs_triple_CM (w - c) a p3 e1 e2)).
  set (Lm := triple_mid a e1 e2 p3).
  destruct (images_finite _ (shift_lens (- sh) Lm) (w - c + - sh) Hd) as (l & Hl & Hn).
  { intros z Hz. replace z with (z + sh + - sh) in Hz by ring. apply shift_image in Hz.
    pose proof (triple_image_root_body a e1 e2 r3 psi (w - c) (z + sh) Hz) as T.
    replace z with (z + sh - sh) by ring. exact T. }
  apply (frame_all_images_back Lm (shift_lens (- sh) Lm) sh (w - c)) in Hl.
  apply (frame_all_images_back L Lm c w) in Hl.
  - eexists. split; [exact Hl|]. now rewrite !map_length.
  - unfold L. rewrite from_midpoint_value by lra. apply triple_frame; lra.
  - unfold shift_lens. rewrite map_map. rewrite (map_ext _ (fun x => x)). now rewrite map_id.
    intros (m, pp); simpl. f_equal. ring.
Qed.

(** ** s = sqrt 5, q = 1, w = 0 : images 0, 3/2, -3/2 *)
Section Worked.
Let s := sqrt 5.
Let a := (0.5 * s)%R.
Lemma wa2 : (a * a = 5 / 4)%R.
Proof. unfold a, s. replace (0.5 * sqrt 5 * (0.5 * sqrt 5))%R with (0.25 * (sqrt 5 * sqrt 5))%R by lra. rewrite sqrt_sqrt; lra. Qed.
Lemma wa2C : RtoC a * a = RtoC (5 / 4).
Proof. rewrite <- RtoC_mult. f_equal. apply wa2. Qed.
Definition worked_roots : list C := [RtoC 0; RtoC (3/2); RtoC (- (3/2)); RtoC (1/2); RtoC (- (1/2))].
Lemma w_e1 : (1 / (1 + 1) = 1 / 2)%R. Proof. lra. Qed.
Lemma w_xcm : x_cm a 1 = 0%R. Proof. unfold x_cm. lra. Qed.
Lemma worked_splits : splits (poly_coeffs_binary (0 - RtoC (x_cm a 1)) a (1 / (1 + 1))) worked_roots.
Proof.
  rewrite w_xcm, w_e1. intros z. replace (RtoC 0 - RtoC 0) with (RtoC 0) by ring.
  unfold poly_coeffs_binary, worked_roots. cbn [peval length hd map prodC]. rewrite Cconj_RtoC.
  pose proof wa2C as A. 
  replace (RtoC (- (3/2))) with (- RtoC (3/2)) by now rewrite RtoC_opp. replace (RtoC (- (1/2))) with (- RtoC (1/2)) by now rewrite RtoC_opp.
  replace (RtoC (3/2)) with (3 * RtoC (1/2)) by (rewrite <- RtoC_mult; f_equal; lra).
  assert (H2 : RtoC (1/2) * 2 = 1) by (rewrite <- RtoC_mult; f_equal; lra).
  set (h := RtoC (1/2)) in *. 
  assert (A2 : RtoC a * a = 5 * h * h). { rewrite A. unfold h. rewrite <- !RtoC_mult. f_equal. lra. }
  set (b := RtoC a) in *. 
  assert (E2 : 2 * h = 1) by (rewrite <- H2; ring).
  assert (EH : forall x y : C, 4 * h * h * x = 4 * h * h * y -> x = y).
  { intros x y E. assert (F : 4 * h * h = 1). { replace (4 * h * h) with ((2 * h) * (2 * h)) by ring. rewrite E2. ring. }
    rewrite F in E. replace x with (1 * x) by ring. rewrite E. ring. }
  replace (1 - 2 * h) with (RtoC 0) by (rewrite E2; ring). replace (2 * h - 1) with (RtoC 0) by (rewrite E2; ring).
  replace (2 * (h * h) - 2 * h + 1) with h.
  2:{ transitivity ((2 * h) * h - 2 * h + 1). rewrite E2. ring. ring. }
  replace (b * b * b * (b * b * b)) with ((b * b) * (b * b) * (b * b)) by ring.
  rewrite !A2.
  (* everything is now polynomial in h with 2h = 1 *)
  replace h with (RtoC (1/2)) by reflexivity.
  replace (RtoC (1/2)) with (1 / 2). 2:{ rewrite <- RtoC_div by lra. f_equal. }
  field. apply RtoC_neq0; lra.
Qed.
Let L := binary_lens s 1.
Lemma worked_pos : L = [((1/2)%R, RtoC (- a)); ((1/2)%R, RtoC a)].
Proof.
  unfold L, binary_lens. replace (1 / (1 + 1))%R with (1 / 2)%R by lra.
  replace (- s * 1 / (1 + 1))%R with (- a)%R by (unfold a; lra). replace (s / (1 + 1))%R with a by (unfold a; lra). reflexivity.
Qed.
Lemma worked_off (t : R) : (t * t <> 5 / 4)%R -> off_masses L (RtoC t).
Proof.
  intros H m p. rewrite worked_pos. pose proof wa2.
  intros [E|[E|[]]]; injection E as <- <-; intros E; apply RtoC_inj in E; apply H; rewrite E; lra.
Qed.
Lemma worked_nz (t : R) : (t * t <> 5 / 4)%R -> (t - a <> 0)%R /\ (t + a <> 0)%R.
Proof. intros H. pose proof wa2. split; intros E; apply H; [replace t with a by lra|replace t with (-a)%R by lra]; lra. Qed.
Lemma worked_map (t : R) : (t * t <> 5 / 4)%R -> lens_map L (RtoC t) = RtoC (t - t / (t * t - 5 / 4)).
Proof.
  intros H. destruct (worked_nz t H). unfold lens_map. rewrite worked_pos. rewrite !deflection_cons. cbn [deflection].
  rewrite <- !RtoC_minus, !Cconj_RtoC, <- !RtoC_div, <- !RtoC_plus, <- !RtoC_minus by lra. f_equal. rewrite <- wa2. field.
  repeat split; try lra. replace (t * t - a * a)%R with ((t - a) * (t + a))%R by ring. now apply Rmult_integral_contrapositive.
Qed.
Definition worked_det (z : C) : R := (1 - ((Re z * Re z + 5 / 4) / (Re z * Re z - 5 / 4) ^ 2) ^ 2)%R.
Lemma worked_jac (t : R) : (t * t <> 5 / 4)%R -> jacobian_det L (RtoC t) (worked_det (RtoC t)).
Proof.
  intros H. destruct (worked_nz t H).
  assert (Hd : (t * t - a * a <> 0)%R). { replace (t * t - a * a)%R with ((t - a) * (t + a))%R by ring. now apply Rmult_integral_contrapositive. }
  pose proof (jac_det_shear L (RtoC t) (worked_off t H)) as J. rewrite det_jac_of in J.
  replace (worked_det (RtoC t)) with (1 - Cmod (shear L (RtoC t)) * Cmod (shear L (RtoC t)))%R; auto.
  unfold worked_det, Re. simpl fst. f_equal. f_equal.
  replace (shear L (RtoC t)) with (RtoC ((t * t + 5 / 4) / (t * t - 5 / 4) ^ 2)).
  - rewrite Cmod_R. rewrite <- Rabs_mult. rewrite Rabs_pos_eq; [ring|]. apply Rle_0_sqr.
  - rewrite worked_pos, !shear_cons. cbn [shear].
    rewrite <- !RtoC_minus, !Cconj_RtoC, <- !RtoC_pow, <- !RtoC_div, <- !RtoC_plus by (apply pow_nonzero; lra). f_equal. rewrite <- wa2. field.
    repeat split; lra.
Qed.
Lemma worked_w : off_lens_positions L (RtoC 0). Proof. apply worked_off. lra. Qed.
Definition worked_images : list C := [RtoC 0; RtoC (3/2); RtoC (- (3/2))].
Lemma worked_mag_eq : forall p, p_s p = Some s -> p_q p = Some 1%R ->
  all_images L (RtoC 0) worked_images /\ mag_point_source (fun _ _ => worked_roots) 2 p (RtoC 0) = Ok (133 / 45)%R.
Proof.
  intros p Es Eq.
  assert (I3 : forall t, (t * t <> 5 / 4)%R -> (t - t / (t * t - 5 / 4) = 0)%R -> is_image L (RtoC 0) (RtoC t)).
  { intros t H1 H2. split. now apply worked_off. rewrite worked_map, H2; auto. }
  assert (AI : all_images L (RtoC 0) worked_images).
  { split.
    - unfold worked_images. repeat constructor; simpl; intros H; repeat (destruct H as [H|H]; [apply RtoC_inj in H; lra|]); auto.
    - intros z. split.
      + intros [<-|[<-|[<-|[]]]]; apply I3; first [lra | field; lra].
      + intros Hz. destruct (binary_image_listed (fun _ _ => worked_roots) s 1 (RtoC 0) ltac:(lra) worked_w worked_splits z Hz) as (k & Hk & E & _).
        cbn [images2 fst] in Hk, E. fold a in E. rewrite w_xcm in E. rewrite Cplus_0_r in E.
        assert (Hin : In z worked_roots) by (rewrite <- E; now apply nth_In).
        destruct Hin as [<-|[<-|[<-|[<-|[<-|[]]]]]]; simpl; auto; exfalso; destruct Hz as (_ & Hz); rewrite worked_map in Hz by lra;
          apply RtoC_inj in Hz; field_simplify in Hz; lra. }
  split; auto.
  assert (HD : forall z, In z worked_images -> jacobian_det L z (worked_det z) /\ worked_det z <> 0%R).
  { intros z [<-|[<-|[<-|[]]]]; (split; [apply worked_jac; lra|unfold worked_det, Re; simpl; intros E; field_simplify in E; lra]). }
  rewrite (mag_binary_exact (fun _ _ => worked_roots) s 1 (RtoC 0)) with (imgs := worked_images) (D := worked_det); auto.
  - f_equal. unfold worked_images. cbn [map sumR].
    replace (worked_det (RtoC 0)) with (9 / 25)%R by (unfold worked_det, Re; simpl; field; lra).
    replace (worked_det (RtoC (3/2))) with (- (45 / 4))%R by (unfold worked_det, Re; simpl; field; lra).
    replace (worked_det (RtoC (- (3/2)))) with (- (45 / 4))%R by (unfold worked_det, Re; simpl; field; lra).
    rewrite Rabs_Ropp, !Rabs_pos_eq by lra. lra.
  - unfold s. apply Rgt_not_eq. apply sqrt_lt_R0. lra.
  - lra.
  - apply worked_w.
  - apply worked_splits.
  - fold a. rewrite w_xcm. intros r Hr. rewrite Cplus_0_r. intros Hc.
    destruct Hr as [<-|[<-|[<-|[<-|[<-|[]]]]]]; fold L in Hc |- *; rewrite worked_map in * by lra; try (f_equal; field; lra);
      exfalso; rewrite <- RtoC_minus, Cmod_R in Hc; revert Hc; apply Rle_not_lt; match goal with |- (_ <= Rabs ?x)%R => field_simplify x end; unfold Rabs; destruct (Rcase_abs _); lra.
Qed.
End Worked.
