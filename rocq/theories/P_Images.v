(** Image lists and point-source magnification at API level. *)
From Coq Require Import Reals List Lra Lia Bool Arith ZArith Permutation.
From Coquelicot Require Import Complex.
From Verif Require Import Base_R Base_List Base_C M_Utils M_Coeffs M_PolySolver M_PointSource S_PointSource S_Poly P_Lens P_Poly P_PointSource.
Import ListNotations.
Local Open Scope R_scope.
Local Open Scope C_scope.

(** ** sums over masked lists *)
Lemma sum_masked (f : C -> R) (mask : C -> bool) rs :
  sumR (map (fun p => (f (fst p) * (if snd p : bool then 1 else 0))%R) (combine rs (map mask rs)))
  = sumR (map f (filter mask rs)).
Proof. induction rs as [|r t IH]; simpl; auto. rewrite IH. destruct (mask r); simpl; lra. Qed.

Lemma NoDup_filter_once (mask : C -> bool) rs :
  (forall z, mask z = true -> In z rs -> ~ exists l1 l2, rs = l1 ++ z :: l2 /\ In z (l1 ++ l2)) ->
  NoDup (filter mask rs).
Proof.
  induction rs as [|r t IH]; intros H; simpl. constructor.
  assert (IHt : NoDup (filter mask t)).
  { apply IH. intros z Hz Hin (l1 & l2 & -> & Hin2). apply (H z Hz). now right.
    exists (r :: l1), l2. split; auto. simpl. auto. }
  destruct (mask r) eqn:E; auto. constructor; auto. intros Hin. apply filter_In in Hin.
  apply (H r E). now left. exists [], t. split; simpl; auto. tauto.
Qed.
Lemma sum_incl (f : C -> R) l l' : NoDup l -> incl l l' -> (forall x, In x l' -> 0 <= f x)%R ->
  (sumR (map f l) <= sumR (map f l'))%R.
Proof.
  revert l'; induction l as [|x l IH]; intros l' Hn Hi Hp; simpl.
  - apply sumR_nonneg. intros y Hy. apply in_map_iff in Hy. destruct Hy as (z & <- & Hz); auto.
  - inversion Hn; subst. destruct (in_split x l') as (l1 & l2 & ->). { apply Hi; now left. }
    assert (Hs : (sumR (map f l) <= sumR (map f (l1 ++ l2)))%R).
    { apply IH; auto.
      - intros y Hy. assert (In y (l1 ++ x :: l2)) as H by (apply Hi; now right).
        apply in_app_or in H. apply in_or_app. destruct H as [|[->|]]; auto. contradiction.
      - intros y Hy. apply Hp. apply in_app_or in Hy. apply in_or_app. simpl. tauto. }
    rewrite map_app, sumR_app in *. simpl. lra.
Qed.

(** ** generic image list: solver output [rs] (mid-point frame), lens system [L] *)
Section Generic.
Variables (L : lens_system) (w : C) (tol : R) (rs : list C) (lens : C -> C) (det : C -> R).
Hypothesis Htol : (0 < tol)%R.
Hypothesis Hlens : forall z, lens z = lens_map L z.
Hypothesis Hdet : forall z, det z = det2 (jac_of (shear L z)).
Let mask (z : C) := Rltb (Cmod (lens z - w)) tol.

Lemma image_mask z : is_image L w z -> mask z = true.
Proof.
  intros (_ & E). unfold mask. rewrite Hlens, E. replace (w - w) with (RtoC 0) by ring. rewrite Cmod_0.
  apply Rltb_true. exact Htol.
Qed.
Lemma inv_abs_nonneg x : (0 <= 1 / Rabs x)%R.
Proof.
  unfold Rdiv. rewrite Rmult_1_l. destruct (Req_dec x 0) as [->|N]. rewrite Rabs_R0, Rinv_0. lra.
  left. apply Rinv_0_lt_compat. now apply Rabs_pos_lt.
Qed.
Hypothesis Hall : forall z, is_image L w z -> In z rs.
Lemma mag_generic_ge imgs : all_images L w imgs ->
  (sumR (map (fun z => 1 / Rabs (det z))%R imgs) <= sum_inv_det det (rs, map mask rs))%R.
Proof.
  intros (Hn & Hi). unfold sum_inv_det; simpl. rewrite (sum_masked (fun z => 1 / Rabs (det z))%R mask rs).
  apply sum_incl; auto.
  - intros z Hz. apply Hi in Hz. apply filter_In. split; auto. now apply image_mask.
  - intros. apply inv_abs_nonneg.
Qed.
Hypothesis Hgap : forall z, In z rs -> mask z = true -> is_image L w z.
Hypothesis Honce : forall z, is_image L w z -> ~ exists l1 l2, rs = l1 ++ z :: l2 /\ In z (l1 ++ l2).
Lemma mag_generic imgs : all_images L w imgs ->
  sum_inv_det det (rs, map mask rs) = sumR (map (fun z => 1 / Rabs (det z))%R imgs).
Proof.
  intros (Hn & Hi). unfold sum_inv_det; simpl. rewrite (sum_masked (fun z => 1 / Rabs (det z))%R mask rs).
  apply sumR_perm. apply Permutation_map. apply NoDup_Permutation; auto.
  - apply NoDup_filter_once. intros z Hm Hin. apply Honce. now apply Hgap.
  - intros z. rewrite filter_In, Hi. split.
    + intros (H1 & H2). now apply Hgap.
    + intros H. split; auto. now apply image_mask.
Qed.
End Generic.

(** ** binary lens in the user's frame *)
Lemma jac_det_unique L z D D' : jacobian_det L z D -> jacobian_det L z D' -> D = D'.
Proof.
  intros (M & H & <-) (M' & H' & <-). now rewrite (has_derivative_unique _ _ _ _ H H').
Qed.
Lemma jac_det_shear L z : off_masses L z -> jacobian_det L z (det2 (jac_of (shear L z))).
Proof. intros H. eexists. split; [|reflexivity]. now apply lens_map_derivative. Qed.

Lemma binary_frame s q : (1 + q <> 0)%R ->
  Permutation (binary_lens s q) (shift_lens (RtoC (x_cm (0.5 * s) q)) (binary_mid (0.5 * s) (q / (1 + q)))).
Proof.
  intros Hq. unfold binary_lens, shift_lens, binary_mid, x_cm; simpl.
  change 0.5%R with (5/10)%R.
  rewrite <- !RtoC_plus.
  replace (5/10 * s + 5/10 * s * (1 - q) / (1 + q))%R with (s / (1 + q))%R by (field; auto).
  replace (- (5/10 * s) + 5/10 * s * (1 - q) / (1 + q))%R with (- s * q / (1 + q))%R by (field; auto).
  replace (1 - q / (1 + q))%R with (1 / (1 + q))%R by (field; auto). apply perm_swap.
Qed.
Lemma frame_image L Lm (c : C) w z : Permutation L (shift_lens c Lm) ->
  (is_image L w z <-> is_image Lm (w - c) (z - c)).
Proof.
  intros P. rewrite <- (shift_image c Lm). replace (w - c + c) with w by ring. replace (z - c + c) with z by ring.
  split; apply perm_image; auto. now apply Permutation_sym.
Qed.
Lemma frame_shear L Lm (c : C) z : Permutation L (shift_lens c Lm) -> shear L z = shear Lm (z - c).
Proof.
  intros P. rewrite (perm_shear _ _ z P). replace z with (z - c + c) at 1 by ring. apply shift_shear.
Qed.
Lemma frame_lens L Lm (c : C) z : Permutation L (shift_lens c Lm) -> lens_map L z = lens_map Lm (z - c) + c.
Proof.
  intros P. unfold lens_map at 1. rewrite (perm_deflection _ _ z P).
  replace z with (z - c + c) at 2 by ring. rewrite shift_deflection. unfold lens_map. ring.
Qed.
Lemma frame_off L Lm (c : C) z : Permutation L (shift_lens c Lm) -> (off_masses L z <-> off_masses Lm (z - c)).
Proof.
  intros P. rewrite <- (shift_off c Lm). replace (z - c + c) with z by ring.
  split; apply perm_off; auto. now apply Permutation_sym.
Qed.
Lemma frame_all_images L Lm (c : C) w imgs : Permutation L (shift_lens c Lm) -> all_images L w imgs ->
  all_images Lm (w - c) (map (fun z => z - c) imgs).
Proof.
  intros P (Hn & Hi). split.
  - apply FinFun.Injective_map_NoDup; auto. intros x y E.
    replace x with (x - c + c) by ring. rewrite E. ring.
  - intros z. rewrite in_map_iff. split.
    + intros (x & <- & Hx). apply Hi in Hx. now apply (frame_image L).
    + intros H. exists (z + c). split. ring. apply Hi. apply (frame_image L Lm c); auto.
      replace (z + c - c) with z by ring. auto.
Qed.

Section Binary.
Variables (poly_roots : list C -> option (list C) -> list C) (s q : R) (w : C).
Hypothesis Hs : s <> 0%R. Hypothesis Hq : (0 < q)%R.
Let a := (0.5 * s)%R. Let e1 := (q / (1 + q))%R. Let c := RtoC (x_cm a q).
Hypothesis Hw : off_lens_positions (binary_lens s q) w.
Let cs := poly_coeffs_binary (w - c) a e1.
Hypothesis Hsolve : splits cs (poly_roots cs None).
Let rs := poly_roots cs None.
Let P : Permutation (binary_lens s q) (shift_lens c (binary_mid a e1)).
Proof. apply binary_frame. lra. Qed.
Lemma e1_range : (0 < e1 < 1)%R.
Proof. unfold e1. split. apply Rdiv_lt_0_compat; lra. apply (Rmult_lt_reg_r (1 + q)); [lra|]. field_simplify; lra. Qed.
Lemma w_off : w - c - a <> 0 /\ w - c + a <> 0.
Proof.
  apply (off_binary a e1). apply (frame_off _ _ c w P). exact Hw.
Qed.
Lemma p0_neq : hd (RtoC 0) cs <> 0.
Proof.
  destruct w_off as (H1 & H2). destruct (conj_pm _ _ H1 H2) as (H3 & H4).
  unfold cs, poly_coeffs_binary; simpl hd.
  replace (- (RtoC a * a) + Cconj (w - c) * Cconj (w - c)) with ((Cconj (w - c) - a) * (Cconj (w - c) + a)) by ring.
  now apply Cmult_neq_0.
Qed.
Lemma binary_roots_iff z : In z rs <-> peval cs z = 0.
Proof. symmetry. apply splits_root; auto. apply p0_neq. Qed.
Lemma binary_roots_off z : In z rs -> off_masses (binary_mid a e1) z.
Proof.
  intros H. apply binary_roots_iff in H. pose proof e1_range as He. destruct w_off as (H1 & H2).
  assert (Ha : a <> 0%R) by (unfold a; lra).
  apply off_binary. split; intros E.
  - assert (z = a) as -> by now apply Cminus_eq_0. unfold cs in H. rewrite binary_poly_at_a in H.
    revert H. repeat apply Cmult_neq_0; try apply Cpow_neq0; try apply RtoC_neq0; try lra.
    intros E'. apply H1. replace (w - c - a) with (- (a - (w - c))) by ring. rewrite E'. ring.
  - assert (z = - RtoC a) as -> by (apply Cminus_eq_0; rewrite <- E; ring). unfold cs in H. rewrite binary_poly_at_ma in H.
    revert H. repeat apply Cmult_neq_0; try apply Cpow_neq0; try apply RtoC_neq0; try lra.
    + rewrite <- RtoC_minus. apply RtoC_neq0. lra.
    + rewrite <- RtoC_minus. apply RtoC_neq0. lra.
    + intros E'. apply H2. transitivity (a + (w - c)); [ring|exact E'].
Qed.
Lemma binary_all z : is_image (binary_mid a e1) (w - c) z -> In z rs.
Proof. intros H. apply binary_roots_iff. now apply binary_image_is_root. Qed.

(** no image is lost: it is in the list and its mask is true *)
Lemma binary_image_listed z : is_image (binary_lens s q) w z ->
  exists k, (k < length (fst (images2 poly_roots a e1 (w - c)%C None)))%nat /\
    nth k (fst (images2 poly_roots a e1 (w - c)%C None)) (RtoC 0) + c = z /\
    nth k (snd (images2 poly_roots a e1 (w - c)%C None)) false = true.
Proof.
  intros H. apply (frame_image _ _ c w z P) in H.
  pose proof (binary_all _ H) as Hin. destruct (In_nth _ _ (RtoC 0) Hin) as (k & Hk & E).
  exists k. simpl. fold cs. fold rs. split; auto. split. { fold rs in E. rewrite E. ring. }
  rewrite (nth_map_lt _ _ _ (RtoC 0)) by auto. rewrite E.
  apply (image_mask (binary_mid a e1)); auto. lra. apply lens_eq2_map.
Qed.
(** listed and masked true means the residual is below 1e-6, off the masses *)
Lemma binary_mask_sound k : (k < length (fst (images2 poly_roots a e1 (w - c)%C None)))%nat ->
  nth k (snd (images2 poly_roots a e1 (w - c)%C None)) false = true ->
  let z := nth k (fst (images2 poly_roots a e1 (w - c)%C None)) (RtoC 0) + c in
  off_masses (binary_lens s q) z /\ (Cmod (lens_map (binary_lens s q) z - w)%C < 1e-6)%R.
Proof.
  simpl. fold cs. fold rs. intros Hk Hm. rewrite (nth_map_lt _ _ _ (RtoC 0)) in Hm by auto.
  set (r := nth k rs (RtoC 0)) in *. apply Rltb_true in Hm. split.
  - apply (frame_off _ _ c _ P). replace (r + c - c) with r by ring. apply binary_roots_off. now apply nth_In.
  - rewrite (frame_lens _ _ c _ P). replace (r + c - c) with r by ring. rewrite <- lens_eq2_map.
    replace (lens_eq2 a e1 r + c - w) with (lens_eq2 a e1 r - (w - c)) by ring. exact Hm.
Qed.

Lemma binary_det_neq0 (z : C) D : is_image (binary_mid a e1) (w - c) z -> D <> 0%R ->
  det_jac2 a e1 z = D -> ~ exists l1 l2, rs = l1 ++ z :: l2 /\ In z (l1 ++ l2).
Proof.
  intros Hi HD E H. pose proof (splits_double _ _ _ Hsolve ltac:(discriminate) H) as Z.
  unfold cs in Z. rewrite binary_deriv_at_image in Z by auto. revert Z.
  destruct Hi as (Ho & _). apply off_binary in Ho. destruct Ho as (H1 & H2). destruct (conj_pm _ _ H1 H2) as (H3 & H4).
  apply Cmult_neq_0; [apply Cmult_neq_0|].
  - apply Cpow_neq0. replace (z ^ 2 - a ^ 2) with ((z - a) * (z + a)) by ring. now apply Cmult_neq_0.
  - replace (Cconj z ^ 2 - a ^ 2) with ((Cconj z - a) * (Cconj z + a)) by ring. now apply Cmult_neq_0.
  - rewrite E. now apply RtoC_neq0.
Qed.
Lemma binary_D z D : is_image (binary_lens s q) w z -> jacobian_det (binary_lens s q) z D -> det_jac2 a e1 (z - c) = D.
Proof.
  intros Hi HD. rewrite det_jac2_shear, <- (frame_shear _ _ c z P).
  eapply jac_det_unique; [|exact HD]. apply jac_det_shear. apply Hi.
Qed.
Lemma map_det_shift (D : C -> R) imgs : all_images (binary_lens s q) w imgs ->
  (forall z, In z imgs -> jacobian_det (binary_lens s q) z (D z)) ->
  map (fun z => 1 / Rabs (det_jac2 a e1 z))%R (map (fun z => z - c) imgs) = map (fun z => 1 / Rabs (D z))%R imgs.
Proof.
  intros (_ & Hi) HD. rewrite map_map. apply map_ext_in. intros z Hz.
  rewrite (binary_D z (D z)); auto. now apply Hi.
Qed.

Theorem mag_binary_ge p imgs D : p_s p = Some s -> p_q p = Some q ->
  all_images (binary_lens s q) w imgs -> (forall z, In z imgs -> jacobian_det (binary_lens s q) z (D z)) ->
  exists A, mag_point_source poly_roots 2 p w = Ok A /\ (sumR (map (fun z => 1 / Rabs (D z))%R imgs) <= A)%R.
Proof.
  intros Es Eq Hi HD. unfold mag_point_source; simpl. rewrite Es, Eq; simpl. eexists. split; [reflexivity|].
  fold a e1 c. unfold images2. fold cs rs. rewrite <- (map_det_shift D imgs Hi HD).
  eapply (mag_generic_ge (binary_mid a e1) (w - c)).
  - lra.
  - apply lens_eq2_map.
  - apply binary_all.
  - now apply (frame_all_images (binary_lens s q)).
Qed.
Theorem mag_binary_exact p imgs D : p_s p = Some s -> p_q p = Some q ->
  all_images (binary_lens s q) w imgs ->
  (forall z, In z imgs -> jacobian_det (binary_lens s q) z (D z) /\ D z <> 0%R) ->
  (forall r, In r rs -> (Cmod (lens_map (binary_lens s q) (r + c) - w)%C < 1e-6)%R -> lens_map (binary_lens s q) (r + c) = w) ->
  mag_point_source poly_roots 2 p w = Ok (sumR (map (fun z => 1 / Rabs (D z))%R imgs)).
Proof.
  intros Es Eq Hi HD Hgap. unfold mag_point_source; simpl. rewrite Es, Eq; simpl. f_equal.
  fold a e1 c. unfold images2. fold cs rs.
  rewrite <- (map_det_shift D imgs Hi) by (intros; now apply HD).
  eapply (mag_generic (binary_mid a e1) (w - c)).
  - lra.
  - apply lens_eq2_map.
  - apply binary_all.
  - intros z Hin Hm. apply Rltb_true in Hm. rewrite lens_eq2_map in Hm. split. now apply binary_roots_off.
    specialize (Hgap z Hin). rewrite (frame_lens _ _ c _ P) in Hgap. replace (z + c - c) with z in Hgap by ring.
    replace (lens_map (binary_mid a e1) z + c - w) with (lens_map (binary_mid a e1) z - (w - c)) in Hgap by ring.
    specialize (Hgap Hm). rewrite <- Hgap. ring.
  - intros z Hz. assert (Hz' : is_image (binary_lens s q) w (z + c)).
    { apply (frame_image _ _ c _ _ P). replace (z + c - c) with z by ring. auto. }
    destruct (HD (z + c)) as (J & N). { now apply Hi. }
    apply (binary_det_neq0 z (D (z + c))); auto. 
    rewrite <- (binary_D (z + c) (D (z + c))); auto. f_equal. ring.
  - now apply (frame_all_images (binary_lens s q)).
Qed.
End Binary.

(** ** triple lens *)
Lemma shift_cm_value a p3 e1 e2 :
  triple_shift_cm a p3 e1 e2 = RtoC e2 * (- RtoC a) + e1 * a + (1 - e1 - e2)%R * p3.
Proof. apply Ceq; unfold triple_shift_cm, Re, Im; simpl; ring. Qed.
Lemma off_triple (a e1 e2 : R) (p3 z : C) : off_masses (triple_mid a e1 e2 p3) z <-> z - a <> 0 /\ z + a <> 0 /\ z - p3 <> 0.
Proof.
  unfold off_masses, triple_mid. split.
  - intros H. repeat split; intros E.
    + apply (H e1 a). now left. now apply Cminus_eq_0.
    + apply (H e2 (- a)%R). right; now left. rewrite RtoC_opp. apply Cminus_eq_0. rewrite <- E. ring.
    + apply (H (1 - e1 - e2)%R p3). right; right; now left. now apply Cminus_eq_0.
  - intros (H1 & H2 & H3) m p [E|[E|[E|[]]]]; injection E; intros; subst; intros ->.
    + apply H1. ring. + apply H2. rewrite RtoC_opp. ring. + apply H3. ring.
Qed.
Lemma Cneq_sub (x y : C) : x <> y -> x - y <> 0.
Proof. intros H E. apply H. now apply Cminus_eq_0. Qed.

Section TripleMid.
Variables (a e1 e2 r3 psi : R) (w : C).
Let p3 := third_lens r3 psi.
Let e3 := (1 - e1 - e2)%R.
Let sh := triple_shift_cm a p3 e1 e2.
Let L := triple_mid a e1 e2 p3.
Let body := triple_cm_body (w - sh) (- RtoC a - sh) (RtoC a - sh) (p3 - sh) e2 e1 e3.
Lemma triple_Hm : (e2 + e1 + e3 = 1)%R.
Proof. unfold e3. ring. Qed.
Lemma triple_Hcm : RtoC e2 * (- RtoC a - sh) + e1 * (RtoC a - sh) + e3 * (p3 - sh) = 0.
Proof.
  transitivity (RtoC e2 * (- RtoC a) + e1 * a + e3 * p3 - RtoC (e2 + e1 + e3) * sh).
  - rewrite !RtoC_plus. ring.
  - rewrite triple_Hm. unfold sh. rewrite shift_cm_value. fold e3. ring.
Qed.
Section Img.
Variable z : C.
Hypothesis Himg : is_image L w z.
Let Z := z - sh.
Lemma tri_off : z - a <> 0 /\ z + a <> 0 /\ z - p3 <> 0.
Proof. apply (off_triple a e1 e2). apply Himg. Qed.
Lemma tri_offc : Cconj (z - a) <> 0 /\ Cconj (z + a) <> 0 /\ Cconj (z - p3) <> 0.
Proof. destruct tri_off as (A & B & D). repeat split; now apply Cconj_neq0. Qed.
Lemma tri_eq : w = z - (e1 / Cconj (z - a) + e2 / Cconj (z + a) + e3 / Cconj (z - p3)).
Proof.
  destruct Himg as (_ & <-). unfold lens_map, L, triple_mid. rewrite !deflection_cons. simpl deflection. fold e3.
  rewrite RtoC_opp. replace (z - - a) with (z + a) by ring. ring.
Qed.
Lemma tri_t : e2 / (Z - (- RtoC a - sh)) + e1 / (Z - (RtoC a - sh)) + e3 / (Z - (p3 - sh)) = Cconj z - Cconj w.
Proof.
  rewrite tri_eq. autorewrite with cconj. unfold Z.
  replace (z - sh - (- RtoC a - sh)) with (z + a) by ring.
  replace (z - sh - (RtoC a - sh)) with (z - a) by ring.
  replace (z - sh - (p3 - sh)) with (z - p3) by ring. ring.
Qed.
Lemma tri_w1 : Cconj (w - sh - (- RtoC a - sh)) + (Cconj z - Cconj w) = Cconj (z + a).
Proof. replace (w - sh - (- RtoC a - sh)) with (w + a) by ring. rewrite !Cconj_plus. ring. Qed.
Lemma tri_w2 : Cconj (w - sh - (RtoC a - sh)) + (Cconj z - Cconj w) = Cconj (z - a).
Proof. replace (w - sh - (RtoC a - sh)) with (w - a) by ring. rewrite !Cconj_minus. ring. Qed.
Lemma tri_w3 : Cconj (w - sh - (p3 - sh)) + (Cconj z - Cconj w) = Cconj (z - p3).
Proof. replace (w - sh - (p3 - sh)) with (w - p3) by ring. rewrite !Cconj_minus. ring. Qed.
Lemma tri_Zoff : Z - (- RtoC a - sh) <> 0 /\ Z - (RtoC a - sh) <> 0 /\ Z - (p3 - sh) <> 0.
Proof.
  destruct tri_off as (A & B & D). unfold Z. repeat split.
  - now replace (z - sh - (- RtoC a - sh)) with (z + a) by ring.
  - now replace (z - sh - (RtoC a - sh)) with (z - a) by ring.
  - now replace (z - sh - (p3 - sh)) with (z - p3) by ring.
Qed.
Lemma tri_Zw : Z - (w - sh) = e2 / Cconj (z + a) + e1 / Cconj (z - a) + e3 / Cconj (z - p3).
Proof. rewrite tri_eq. unfold Z. ring. Qed.

Lemma triple_image_root_body : peval body Z = 0.
Proof.
  destruct tri_Zoff as (N1 & N2 & N3). destruct tri_offc as (M1 & M2 & M3). unfold body.
  rewrite (triple_poly_zeta (w - sh) _ _ _ e2 e1 e3 triple_Hm triple_Hcm Z N1 N2 N3).
  rewrite tri_t, tri_w1, tri_w2, tri_w3, tri_Zw. 
  match goal with |- ?h * ?x = _ => replace x with (RtoC 0) end. ring.
  field. auto.
Qed.
Lemma RtoC_det3 : RtoC (det_jac3 a r3 psi e1 e2 z) =
  1 - (e2 / (z + a) ^ 2 + e1 / (z - a) ^ 2 + e3 / (z - p3) ^ 2)
    * (e2 / Cconj (z + a) ^ 2 + e1 / Cconj (z - a) ^ 2 + e3 / Cconj (z - p3) ^ 2).
Proof.
  unfold det_jac3. rewrite RtoC_minus. f_equal. simpl pow. rewrite Rmult_1_r, <- Cmult_conj. fold p3 e3.
  autorewrite with cconj. cbn [Cpow]. ring.
Qed.
Lemma triple_image_deriv : exists K : C, K <> 0 /\ peval (pderiv body) Z = K * RtoC (det_jac3 a r3 psi e1 e2 z).
Proof.
  destruct tri_Zoff as (N1 & N2 & N3). destruct tri_offc as (M1 & M2 & M3).
  pose proof (triple_deriv_zeta (w - sh) _ _ _ e2 e1 e3 triple_Hm triple_Hcm Z N1 N2 N3) as T.
  rewrite tri_t, tri_w1, tri_w2, tri_w3, tri_Zw in T. specialize (T M2 M1 M3 eq_refl).
  eexists. split; [|unfold body; rewrite T, RtoC_det3; f_equal].
  - apply Cmult_neq_0; [|repeat apply Cmult_neq_0; auto]. apply Cpow_neq0.
    rewrite polyH_fact. repeat apply Cmult_neq_0; auto.
  - unfold Z. replace (z - sh - (- RtoC a - sh)) with (z + a) by ring.
    replace (z - sh - (RtoC a - sh)) with (z - a) by ring.
    replace (z - sh - (p3 - sh)) with (z - p3) by ring. reflexivity.
Qed.
End Img.

Hypothesis He1 : e1 <> 0%R. Hypothesis He2 : e2 <> 0%R. Hypothesis He3 : e3 <> 0%R.
Hypothesis Ha : a <> 0%R. Hypothesis Hp3 : p3 - a <> 0. Hypothesis Hp3' : p3 + a <> 0.
Hypothesis Hw : off_masses L w.
Lemma tri_p10 : hd (RtoC 0) body <> 0.
Proof.
  apply off_triple in Hw. destruct Hw as (H1 & H2 & H3).
  unfold body, triple_cm_body; simpl hd. rewrite Cmult_1_l.
  replace (w - sh - (- RtoC a - sh)) with (w + a) by ring.
  replace (w - sh - (RtoC a - sh)) with (w - a) by ring.
  replace (w - sh - (p3 - sh)) with (w - p3) by ring.
  repeat apply Cmult_neq_0; now apply Cconj_neq0.
Qed.
Lemma neq_sym (x y : C) : x - y <> 0 -> y - x <> 0.
Proof. intros H E. apply H. replace (x - y) with (- (y - x)) by ring. rewrite E. ring. Qed.
Lemma tri_root_off Z : peval body Z = 0 -> off_masses L (Z + sh).
Proof.
  intros HR. apply off_triple in Hw. destruct Hw as (H1 & H2 & H3).
  assert (H2a : RtoC a + a <> 0) by (rewrite <- RtoC_plus; apply RtoC_neq0; lra).
  assert (Hp3s : a - p3 <> 0) by now apply neq_sym.
  apply off_triple. repeat split; intros E.
  - assert (Z = RtoC a - sh) as -> by (apply Cminus_eq_0; rewrite <- E; ring).
    unfold body in HR. rewrite (triple_at_c2 _ _ _ _ _ _ _ triple_Hm triple_Hcm) in HR. revert HR.
    replace (RtoC a - sh - (w - sh)) with (a - w) by ring.
    replace (RtoC a - sh - (- RtoC a - sh)) with (RtoC a + a) by ring.
    replace (RtoC a - sh - (p3 - sh)) with (a - p3) by ring.
    apply Cmult_neq_0; [now apply neq_sym|]. apply Cpow_neq0. repeat apply Cmult_neq_0; auto. now apply RtoC_neq0.
  - assert (Z = - RtoC a - sh) as -> by (apply Cminus_eq_0; rewrite <- E; ring).
    unfold body in HR. rewrite (triple_at_c1 _ _ _ _ _ _ _ triple_Hm triple_Hcm) in HR. revert HR.
    replace (- RtoC a - sh - (w - sh)) with (- RtoC a - w) by ring.
    replace (- RtoC a - sh - (RtoC a - sh)) with (- (RtoC a + a)) by ring.
    replace (- RtoC a - sh - (p3 - sh)) with (- (p3 + a)) by ring.
    apply Cmult_neq_0. { intros E'. apply H2. replace (w + a) with (- (- RtoC a - w)) by ring. rewrite E'. ring. }
    apply Cpow_neq0. repeat apply Cmult_neq_0; auto; try now apply Copp_neq0. now apply RtoC_neq0.
  - assert (Z = p3 - sh) as -> by (apply Cminus_eq_0; rewrite <- E; ring).
    unfold body in HR. rewrite (triple_at_c3 _ _ _ _ _ _ _ triple_Hm triple_Hcm) in HR. revert HR.
    replace (p3 - sh - (w - sh)) with (p3 - w) by ring.
    replace (p3 - sh - (- RtoC a - sh)) with (p3 + a) by ring.
    replace (p3 - sh - (RtoC a - sh)) with (p3 - a) by ring.
    apply Cmult_neq_0; [now apply neq_sym|]. apply Cpow_neq0. repeat apply Cmult_neq_0; auto. now apply RtoC_neq0.
Qed.
End TripleMid.

Lemma triple_frame s q q3 p3 : (1 + q <> 0)%R -> (1 + q + q3 <> 0)%R ->
  Permutation (triple_lens s q q3 (p3 + RtoC (x_cm (0.5 * s) q)))
    (shift_lens (RtoC (x_cm (0.5 * s) q)) (triple_mid (0.5 * s) (q / (1 + q + q3)) (1 / (1 + q + q3)) p3)).
Proof.
  intros Hq Hq3. unfold triple_lens, shift_lens, triple_mid, x_cm; simpl.
  change 0.5%R with (5/10)%R.
  rewrite <- !RtoC_plus.
  replace (5/10 * s + 5/10 * s * (1 - q) / (1 + q))%R with (s / (1 + q))%R by (field; auto).
  replace (- (5/10 * s) + 5/10 * s * (1 - q) / (1 + q))%R with (- s * q / (1 + q))%R by (field; auto).
  replace (1 - q / (1 + q + q3) - 1 / (1 + q + q3))%R with (q3 / (1 + q + q3))%R by (field; auto). apply perm_swap.
Qed.
Lemma from_midpoint_value s q r psi : (1 + q <> 0)%R ->
  from_midpoint s q r psi = third_lens r psi + RtoC (x_cm (0.5 * s) q).
Proof.
  intros Hq. unfold from_midpoint, third_lens, x_cm, from_com, cexpi. change 0.5%R with (5/10)%R.
  apply Ceq; simpl; field; auto.
Qed.

Section TripleApi.
Variables (poly_roots : list C -> option (list C) -> list C) (s q q3 r3 psi : R) (w : C).
Let p3u := from_midpoint s q r3 psi.
Let L := triple_lens s q q3 p3u.
Hypothesis Hs : s <> 0%R. Hypothesis Hq : (0 < q)%R. Hypothesis Hq3 : (0 < q3)%R.
Hypothesis Hp3 : p3u <> RtoC (- s * q / (1 + q)). Hypothesis Hp3' : p3u <> RtoC (s / (1 + q)).
Hypothesis Hw : off_lens_positions L w.
Let a := (0.5 * s)%R. Let e1 := (q / (1 + q + q3))%R. Let e2 := (1 / (1 + q + q3))%R.
Let c := RtoC (x_cm a q).
Let p3 := third_lens r3 psi.
Let cs := fst (poly_coeffs_triple_CM (w - c) a p3 e1 e2).
Let sh := snd (poly_coeffs_triple_CM (w - c) a p3 e1 e2).
Let rs := map (fun r => r + sh) (poly_roots cs None).
Let Lm := triple_mid a e1 e2 p3.
Hypothesis Hsolve : splits cs (poly_roots cs None).
Lemma tP : Permutation L (shift_lens c Lm).
Proof. unfold L, p3u. rewrite from_midpoint_value by lra. apply triple_frame; lra. Qed.
Lemma te : (0 < e1 /\ 0 < e2 /\ 0 < 1 - e1 - e2)%R.
Proof.
  unfold e1, e2. repeat split; try (apply Rdiv_lt_0_compat; lra).
  replace (1 - q / (1 + q + q3) - 1 / (1 + q + q3))%R with (q3 / (1 + q + q3))%R by (field; lra).
  apply Rdiv_lt_0_compat; lra.
Qed.
Lemma ta : a <> 0%R. Proof. unfold a; lra. Qed.
Lemma tp3 : p3 - a <> 0 /\ p3 + a <> 0.
Proof.
  unfold p3u in *. rewrite from_midpoint_value in Hp3, Hp3' by lra. split; intros E.
  - apply Hp3'. fold p3. replace p3 with (RtoC a) by (symmetry; now apply Cminus_eq_0).
    rewrite <- RtoC_plus. f_equal. unfold a, x_cm. change 0.5%R with (5/10)%R. field. lra.
  - apply Hp3. fold p3. replace p3 with (- RtoC a) by (symmetry; apply Cminus_eq_0; rewrite <- E; ring).
    rewrite <- RtoC_opp, <- RtoC_plus. f_equal. unfold a, x_cm. change 0.5%R with (5/10)%R. field. lra.
Qed.
Lemma tw : off_masses Lm (w - c).
Proof. apply (frame_off _ _ c w tP). exact Hw. Qed.
Lemma tp0 : hd (RtoC 0) cs <> 0.
Proof. apply tri_p10. apply tw. Qed.
Lemma t_in z : In z rs <-> peval cs (z - sh) = 0.
Proof.
  unfold rs. rewrite in_map_iff. split.
  - intros (r & <- & H). replace (r + sh - sh) with r by ring. apply (splits_root _ _ _ Hsolve tp0). auto.
  - intros H. exists (z - sh). split. ring. apply (splits_root _ _ _ Hsolve tp0). auto.
Qed.
Lemma t_all z : is_image Lm (w - c) z -> In z rs.
Proof. intros H. apply t_in. now apply triple_image_root_body. Qed.
Lemma t_off z : In z rs -> off_masses Lm z.
Proof.
  intros H. apply t_in in H. destruct te as (H1 & H2 & H3). destruct tp3 as (P1 & P2).
  replace z with (z - sh + sh) by ring. apply (tri_root_off a e1 e2 r3 psi (w - c)); try lra; auto. apply ta. apply tw.
Qed.
Lemma map_split {A B} (f : A -> B) (l : list A) l1 x l2 : map f l = l1 ++ x :: l2 ->
  exists k1 y k2, l = k1 ++ y :: k2 /\ l1 = map f k1 /\ x = f y /\ l2 = map f k2.
Proof.
  revert l1; induction l as [|b l IH]; intros [|u l1] H; simpl in H; try discriminate.
  - injection H; intros; subst. exists [], b, l. auto.
  - injection H as Hb E. subst u. destruct (IH _ E) as (k1 & y & k2 & -> & -> & -> & ->).
    exists (b :: k1), y, k2. auto.
Qed.
Lemma t_once z D : is_image Lm (w - c) z -> D <> 0%R -> det_jac3 a r3 psi e1 e2 z = D ->
  ~ exists l1 l2, rs = l1 ++ z :: l2 /\ In z (l1 ++ l2).
Proof.
  intros Hi HD E (l1 & l2 & E1 & E2).
  unfold rs in E1. destruct (map_split _ _ _ _ _ E1) as (k1 & y & k2 & Ek & -> & Ey & ->).
  assert (Ey' : y = z - sh) by (rewrite Ey; ring).
  assert (Hin : In y (k1 ++ k2)).
  { rewrite <- map_app in E2. apply in_map_iff in E2. destruct E2 as (y' & Ey2 & Hin).
    replace y with y'; auto. rewrite Ey'. rewrite <- Ey2. ring. }
  assert (Z : peval (pderiv cs) (z - sh) = 0).
  { apply (splits_double _ _ _ Hsolve). discriminate. exists k1, k2. rewrite <- Ey'. auto. }
  destruct (triple_image_deriv a e1 e2 r3 psi (w - c) z Hi) as (K & HK & T).
  unfold cs, sh in Z. simpl in Z. cbn [fst snd poly_coeffs_triple_CM] in Z. fold p3 in T. 
  change (peval (pderiv cs) (z - sh) = 0) in Z. change (peval (pderiv cs) (z - sh) = K * RtoC (det_jac3 a r3 psi e1 e2 z)) in T.
  rewrite Z, E in T. symmetry in T. revert T. apply Cmult_neq_0; auto. now apply RtoC_neq0.
Qed.
Lemma t_D z D : is_image L w z -> jacobian_det L z D -> det_jac3 a r3 psi e1 e2 (z - c) = D.
Proof.
  intros Hi HD. rewrite det_jac3_shear. fold p3 Lm. rewrite <- (frame_shear _ _ c z tP).
  eapply jac_det_unique; [|exact HD]. apply jac_det_shear. apply Hi.
Qed.
Lemma t_map_det (D : C -> R) imgs : all_images L w imgs ->
  (forall z, In z imgs -> jacobian_det L z (D z)) ->
  map (fun z => 1 / Rabs (det_jac3 a r3 psi e1 e2 z))%R (map (fun z => z - c) imgs) = map (fun z => 1 / Rabs (D z))%R imgs.
Proof.
  intros (_ & Hi) HD. rewrite map_map. apply map_ext_in. intros z Hz.
  rewrite (t_D z (D z)); auto. now apply Hi.
Qed.
Lemma images3_eq : images3 poly_roots a r3 psi e1 e2 (w - c) =
  (rs, map (fun zi => Rltb (Cmod (lens_eq3 a r3 psi e1 e2 zi - (w - c))) 1e-3) rs).
Proof. reflexivity. Qed.
Lemma triple_image_listed z : is_image L w z ->
  exists k, (k < length (fst (images3 poly_roots a r3 psi e1 e2 (w - c)%C)))%nat /\
    nth k (fst (images3 poly_roots a r3 psi e1 e2 (w - c)%C)) (RtoC 0) + c = z /\
    nth k (snd (images3 poly_roots a r3 psi e1 e2 (w - c)%C)) false = true.
Proof.
  intros H. apply (frame_image _ _ c w z tP) in H. rewrite images3_eq. cbn [fst snd].
  pose proof (t_all _ H) as Hin. destruct (In_nth _ _ (RtoC 0) Hin) as (k & Hk & E).
  exists k. split; auto. split. { rewrite E. ring. }
  rewrite (nth_map_lt _ _ _ (RtoC 0)) by auto. rewrite E.
  apply (image_mask Lm); auto. lra. apply lens_eq3_map.
Qed.
Lemma triple_mask_sound k : (k < length (fst (images3 poly_roots a r3 psi e1 e2 (w - c)%C)))%nat ->
  nth k (snd (images3 poly_roots a r3 psi e1 e2 (w - c)%C)) false = true ->
  let z := nth k (fst (images3 poly_roots a r3 psi e1 e2 (w - c)%C)) (RtoC 0) + c in
  off_masses L z /\ (Cmod (lens_map L z - w)%C < 1e-3)%R.
Proof.
  rewrite images3_eq. cbn [fst snd]. intros Hk Hm. rewrite (nth_map_lt _ _ _ (RtoC 0)) in Hm by auto.
  set (r := nth k rs (RtoC 0)) in *. apply Rltb_true in Hm. cbv zeta. split.
  - apply (frame_off _ _ c _ tP). replace (r + c - c) with r by ring. apply t_off. now apply nth_In.
  - rewrite (frame_lens _ _ c _ tP). replace (r + c - c) with r by ring. rewrite lens_eq3_map in Hm. fold p3 Lm in Hm.
    replace (lens_map Lm r + c - w) with (lens_map Lm r - (w - c)) by ring. exact Hm.
Qed.
Variable p : params.
Hypothesis Es : p_s p = Some s. Hypothesis Eq : p_q p = Some q. Hypothesis Eq3 : p_q3 p = Some q3.
Hypothesis Er : p_r3 p = Some r3. Hypothesis Ep : p_psi p = Some psi.
Lemma mag3_eq : mag_point_source poly_roots 3 p w =
  Ok (sum_inv_det (det_jac3 a r3 psi e1 e2) (images3 poly_roots a r3 psi e1 e2 (w - c))).
Proof. unfold mag_point_source. simpl. rewrite Es, Eq, Eq3, Er, Ep. reflexivity. Qed.
Theorem mag_triple_ge imgs D :
  all_images L w imgs -> (forall z, In z imgs -> jacobian_det L z (D z)) ->
  exists A, mag_point_source poly_roots 3 p w = Ok A /\ (sumR (map (fun z => 1 / Rabs (D z))%R imgs) <= A)%R.
Proof.
  intros Hi HD. rewrite mag3_eq. eexists. split; [reflexivity|].
  rewrite images3_eq. rewrite <- (t_map_det D imgs Hi HD).
  eapply (mag_generic_ge Lm (w - c)).
  - lra.
  - apply lens_eq3_map.
  - apply t_all.
  - apply (frame_all_images L); auto. apply tP.
Qed.
Theorem mag_triple_exact imgs D :
  all_images L w imgs ->
  (forall z, In z imgs -> jacobian_det L z (D z) /\ D z <> 0%R) ->
  (forall r, In r rs -> (Cmod (lens_map L (r + c) - w)%C < 1e-3)%R -> lens_map L (r + c) = w) ->
  mag_point_source poly_roots 3 p w = Ok (sumR (map (fun z => 1 / Rabs (D z))%R imgs)).
Proof.
  intros Hi HD Hgap. rewrite mag3_eq. f_equal. rewrite images3_eq.
  rewrite <- (t_map_det D imgs Hi) by (intros; now apply HD).
  eapply (mag_generic Lm (w - c)).
  - lra.
  - apply lens_eq3_map.
  - apply t_all.
  - intros z Hin Hm. apply Rltb_true in Hm. rewrite lens_eq3_map in Hm. split. now apply t_off.
    specialize (Hgap z Hin). rewrite (frame_lens _ _ c _ tP) in Hgap. replace (z + c - c) with z in Hgap by ring.
    replace (lens_map Lm z + c - w) with (lens_map Lm z - (w - c)) in Hgap by ring.
    specialize (Hgap Hm). rewrite <- Hgap. ring.
  - intros z Hz. assert (Hz' : is_image L w (z + c)).
    { apply (frame_image _ _ c _ _ tP). replace (z + c - c) with z by ring. auto. }
    destruct (HD (z + c)) as (J & N). { now apply Hi. }
    apply (t_once z (D (z + c))); auto. 
    rewrite <- (t_D (z + c) (D (z + c))); auto. f_equal. ring.
  - apply (frame_all_images L); auto. apply tP.
Qed.
End TripleApi.
