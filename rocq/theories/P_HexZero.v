(** The hexadecapole sum at zero source radius. *)
From Coq Require Import Reals List Bool Arith ZArith Lia Lra.
From Coquelicot Require Import Coquelicot.
From Verif Require Import Base_R Base_List Base_C S_PointSource S_Multipole M_Utils M_Coeffs M_PointSource M_MagFft M_Multipole
  M_Limb P_Lens P_PointSource P_Single P_Limb P_Jets P_Multipole P_Branch.
Import ListNotations.
Local Open Scope R_scope.
Local Open Scope C_scope.

Lemma cassan_zero W u1 : cassan_of W 0 u1 = (mu0 (W 2%nat), 0%R, 0%R).
Proof. unfold cassan_of, cassan. cbv zeta. f_equal; [f_equal|]; ring. Qed.
Lemma jac_det_W L z D : off_masses L z -> jacobian_det L z D -> D = (1 - Cmod (Wk L z 2) ^ 2)%R.
Proof.
  intros O (M & HM & <-). destruct (jac_W L z O) as (M' & HM' & <-). now rewrite (has_derivative_unique _ _ _ _ HM HM').
Qed.
Lemma hex_zero_gen (W : C -> nat -> C) (d : C -> R) zs mask u1 : (forall z, In z zs -> Rabs (mu0 (W z 2%nat)) = (/ Rabs (d z))%R) ->
  hex_sum W zs mask 0 u1 = (sumR (map (fun zm => if snd zm : bool then / Rabs (d (fst zm)) else 0)%R (combine zs mask)), 0%R).
Proof.
  intros H. 
  assert (F2 : Forall2 (fun z t => cassan_of (W z) 0 u1 = t) zs (map (fun z => (mu0 (W z 2%nat), 0%R, 0%R)) zs)).
  { clear H. induction zs; cbn [map]; constructor; [apply cassan_zero|exact IHzs]. }
  rewrite (hex_sum_masked W zs mask 0 u1 _ F2). clear F2. f_equal.
  - revert mask. induction zs as [|z zs IH]; intros mask; [reflexivity|]. destruct mask as [|m mask]; [reflexivity|].
    cbn [map combine sumR masked_sum fst snd]. rewrite IH by (intros; apply H; right; assumption). f_equal. destruct m; [|reflexivity].
    cbn [total]. rewrite !Rplus_0_r. apply H. left; reflexivity.
  - revert mask. clear H. induction zs as [|z zs IH]; intros mask; [cbn; ring|]. destruct mask as [|m mask]; [cbn; ring|].
    cbn [map masked_sum second third]. specialize (IH mask). rewrite Rabs_R0. destruct m; lra.
Qed.
Lemma mu0_abs L z D (W2 : C) : W2 = Wk L z 2 -> off_masses L z -> jacobian_det L z D -> D <> 0%R -> Rabs (mu0 W2) = (/ Rabs D)%R.
Proof.
  intros -> O J N. rewrite (jac_det_W L z D O J) in *. unfold mu0. unfold Rdiv. rewrite Rmult_1_l. apply Rabs_inv.
Qed.
Lemma hex_zero_one : forall p zs mask u1 D, length mask = length zs ->
  (forall z, In z zs -> off_masses single_lens z /\ jacobian_det single_lens z (D z) /\ D z <> 0%R) ->
  mag_hexadecapole 1 p zs mask 0 u1 = Ok (sumR (map (fun zm => if snd zm : bool then / Rabs (D (fst zm)) else 0)%R (combine zs mask)), 0%R).
Proof.
  intros p zs mask u1 D _ H. unfold mag_hexadecapole. simpl. f_equal. apply hex_zero_gen. intros z I. destruct (H z I) as (O & J & N).
  apply (mu0_abs single_lens z); auto. apply W_one_k.
Qed.
Lemma hex_zero_two : forall p a e1 zs mask u1 D, p_a p = Some a -> p_e1 p = Some e1 -> length mask = length zs ->
  (forall z, In z zs -> off_masses (binary_mid a e1) z /\ jacobian_det (binary_mid a e1) z (D z) /\ D z <> 0%R) ->
  mag_hexadecapole 2 p zs mask 0 u1 = Ok (sumR (map (fun zm => if snd zm : bool then / Rabs (D (fst zm)) else 0)%R (combine zs mask)), 0%R).
Proof.
  intros p a e1 zs mask u1 D Ea Ee _ H. unfold mag_hexadecapole. simpl. rewrite Ea, Ee. simpl. f_equal. apply hex_zero_gen.
  intros z I. destruct (H z I) as (O & J & N). apply (mu0_abs (binary_mid a e1) z); auto. apply W_two_k.
Qed.
Lemma hex_zero_three : forall p a r3 e1 e2 zs mask u1 D, p_a p = Some a -> p_r3 p = Some r3 -> p_e1 p = Some e1 -> p_e2 p = Some e2 ->
  length mask = length zs -> let L := triple_mid a e1 e2 (RtoC r3) in
  (forall z, In z zs -> off_masses L z /\ jacobian_det L z (D z) /\ D z <> 0%R) ->
  mag_hexadecapole 3 p zs mask 0 u1 = Ok (sumR (map (fun zm => if snd zm : bool then / Rabs (D (fst zm)) else 0)%R (combine zs mask)), 0%R).
Proof.
  intros p a r3 e1 e2 zs mask u1 D Ea Er Ee E2 _ L H. unfold mag_hexadecapole. simpl. rewrite Ea, Er, Ee, E2. simpl. f_equal. apply hex_zero_gen.
  intros z I. destruct (H z I) as (O & J & N). apply (mu0_abs L z); auto. apply W_three_k.
Qed.
Lemma det_W2 L z : det2 (jac_of (shear L z)) = (1 - Cmod (Wk L z 2) ^ 2)%R.
Proof. rewrite det_jac_of, shear_W, Cmod_opp, Cmod_conj. simpl. ring. Qed.
Lemma sum_inv_det_eq d zs mask : sum_inv_det d (zs, mask) = sumR (map (fun zm => if snd zm : bool then / Rabs (d (fst zm)) else 0)%R (combine zs mask)).
Proof.
  unfold sum_inv_det. cbn [fst snd]. f_equal. apply map_ext. intros [z m]. cbn [fst snd]. destruct m; [unfold Rdiv|]; ring.
Qed.
Lemma Ok_inj {A} (x y : A) : Ok x = Ok y -> x = y.
Proof. intros H; now injection H. Qed.
Lemma hex_point_two : forall pr p s q w u1,
  p_s p = Some s -> p_q p = Some q -> p_a p = Some (0.5 * s)%R -> p_e1 p = Some (q / (1 + q))%R ->
  forall zs mask, images_point_source pr 2 p None (w - RtoC (x_cm (0.5 * s) q)) = Ok (zs, mask) ->
  (forall z, In z zs -> det_jac2 (0.5 * s) (q / (1 + q)) z <> 0%R) ->
  exists A, mag_point_source pr 2 p w = Ok A /\ mag_hexadecapole 2 p zs mask 0 u1 = Ok (A, 0%R).
Proof.
  intros pr p s q w u1 Es Eq Ea Ee zs mask HI HD. unfold images_point_source in HI. cbn [Z.eqb Pos.eqb] in HI. rewrite Ea, Ee in HI. cbn [getp] in HI.
  apply Ok_inj in HI. unfold mag_point_source, mag_hexadecapole. cbn [Z.eqb Pos.eqb]. rewrite Es, Eq, Ea, Ee. cbn [getp]. cbv zeta.
  eexists. split; [reflexivity|]. f_equal. rewrite HI, sum_inv_det_eq. apply hex_zero_gen.
  intros z I. rewrite W_two_k. specialize (HD z I). rewrite det_jac2_shear, det_W2 in *. unfold mu0, Rdiv. rewrite Rmult_1_l.
  apply Rabs_inv.
Qed.
Lemma third_axis r3 : third_lens r3 0 = RtoC r3.
Proof. unfold third_lens, cexpi. rewrite cos_0, sin_0. apply Ceq; simpl; ring. Qed.
Lemma hex_point_three : forall pr p s q q3 r3 w u1,
  p_s p = Some s -> p_q p = Some q -> p_q3 p = Some q3 -> p_r3 p = Some r3 -> p_psi p = Some 0%R ->
  p_a p = Some (0.5 * s)%R -> p_e1 p = Some (q / (1 + q + q3))%R -> p_e2 p = Some (1 / (1 + q + q3))%R ->
  forall zs mask, images_point_source pr 3 p None (w - RtoC (x_cm (0.5 * s) q)) = Ok (zs, mask) ->
  (forall z, In z zs -> det_jac3 (0.5 * s) r3 0 (q / (1 + q + q3)) (1 / (1 + q + q3)) z <> 0%R) ->
  exists A, mag_point_source pr 3 p w = Ok A /\ mag_hexadecapole 3 p zs mask 0 u1 = Ok (A, 0%R).
Proof.
  intros pr p s q q3 r3 w u1 Es Eq Eq3 Er Ep Ea Ee E2 zs mask HI HD. unfold images_point_source in HI. cbn [Z.eqb Pos.eqb] in HI.
  rewrite Ea, Ee, E2, Er, Ep in HI. cbn [getp] in HI.
  apply Ok_inj in HI. unfold mag_point_source, mag_hexadecapole. cbn [Z.eqb Pos.eqb]. rewrite Es, Eq, Eq3, Er, Ep, Ea, Ee, E2. cbn [getp]. cbv zeta.
  eexists. split; [reflexivity|]. f_equal. rewrite HI, sum_inv_det_eq. apply hex_zero_gen.
  intros z I. rewrite W_three_k. specialize (HD z I). rewrite det_jac3_shear, third_axis, det_W2 in *. unfold mu0, Rdiv. rewrite Rmult_1_l.
  apply Rabs_inv.
Qed.
Lemma hex_psi_ignored : forall n p p' zs mask rho u1, p_a p = p_a p' -> p_r3 p = p_r3 p' -> p_e1 p = p_e1 p' -> p_e2 p = p_e2 p' ->
  mag_hexadecapole n p zs mask rho u1 = mag_hexadecapole n p' zs mask rho u1.
Proof. intros n p p' zs mask rho u1 A B C D. unfold mag_hexadecapole. rewrite A, B, C, D. reflexivity. Qed.
(** one lens *)
Lemma single_img_off w zs mask : w <> RtoC 0 -> images1 w = (zs, mask) -> forall z, In z zs -> off_masses single_lens z.
Proof.
  intros N E z I. assert (K : is_image single_lens w z) by (apply single_images_iff; [exact N|rewrite E; exact I]). apply K.
Qed.
Lemma hex_point_one : forall (w : C) p u1, w <> RtoC 0 -> mag_hexadecapole 1 p (fst (images1 w)) (snd (images1 w)) 0 u1 = Ok (A_point (Cmod w), 0%R).
Proof.
  intros w p u1 N.
  assert (O : forall z, In z (fst (images1 w)) -> off_masses single_lens z).
  { apply (single_img_off w _ (snd (images1 w)) N). apply surjective_pairing. }
  assert (J : forall z, In z (fst (images1 w)) -> jacobian_det single_lens z (1 - Cmod (Wk single_lens z 2) ^ 2)%R) by (intros z I; apply jac_W; auto).
  rewrite <- (true_mag1 w N _ J). unfold mag_hexadecapole. simpl (1 =? 1)%Z. cbv iota. f_equal.
  rewrite (hex_zero_gen W_one (fun z => 1 - Cmod (Wk single_lens z 2) ^ 2)%R).
  - f_equal. unfold images1. cbn [fst snd combine map sumR]. unfold Rdiv. ring.
  - intros z I. rewrite W_one_k. unfold mu0, Rdiv. rewrite Rmult_1_l. apply Rabs_inv.
Qed.
Lemma hex_three_refuted : exists p z w A, let L := triple_mid 0.5 (1/3) (1/3) (third_lens 1 PI) in
  p_s p = Some 1%R /\ p_q p = Some 1%R /\ p_q3 p = Some 1%R /\ p_r3 p = Some 1%R /\ p_psi p = Some PI /\
  p_a p = Some 0.5%R /\ p_e1 p = Some (1 / 3)%R /\ p_e2 p = Some (1 / 3)%R /\
  is_image L w z /\ jacobian_det L z A /\ A <> 0%R /\
  lens_eq_det_jac 3 p z = Ok A /\ (forall u1 res, mag_hexadecapole 3 p [z] [true] 0 u1 <> Ok (/ Rabs A, res)%R).
Proof.
  set (P := third_lens 1 PI). assert (EP' : P = RtoC (-1)).
  { unfold P, third_lens, cexpi. rewrite cos_PI, sin_PI. apply Ceq; simpl; ring. }
  set (L := triple_mid 0.5 (1/3) (1/3) P).
  assert (O : off_masses L (RtoC 2)).
  { intros m q [I|[I|[I|[]]]]; injection I as <- <-; intros Q; apply (f_equal fst) in Q; rewrite ?EP' in Q; simpl in Q; lra. }
  set (s := (1 / 3 * (4 / 9 + 4 / 25 + 1 / 9))%R).
  assert (S1 : Wk L (RtoC 2) 2 = RtoC (- s)).
  { unfold Wk, L, triple_mid. cbn [Wsum]. rewrite EP'. unfold wfac. simpl fact. simpl INR.
    rewrite <- !RtoC_minus, <- !RtoC_pow, <- !RtoC_div by (simpl; lra). rewrite <- !RtoC_plus, <- RtoC_mult. f_equal. unfold s. replace 0.5%R with (1 / 2)%R by lra. simpl. field. }
  exists (mkparams (Some 1) (Some 1) (Some 1) (Some 1) (Some PI) (Some 0.5) (Some (1/3)) (Some (1/3)))%R, (RtoC 2), (lens_map L (RtoC 2)), (1 - s ^ 2)%R.
  cbv zeta. repeat (split; [reflexivity|]). split; [split; [exact O|reflexivity]|].
  assert (D : (1 - Cmod (Wk L (RtoC 2) 2) ^ 2 = 1 - s ^ 2)%R).
  { rewrite S1, Cmod_R, Rabs_Ropp, Rabs_pos_eq by (unfold s; lra). reflexivity. }
  split; [rewrite <- D; apply jac_W; exact O|]. split; [unfold s; simpl; lra|]. split.
  - unfold lens_eq_det_jac. simpl. f_equal. rewrite det_jac3_shear. fold P. fold L. rewrite det_W2. exact D.
  - intros u1 res Q.
    assert (W' : W_three 0.5 1 (1/3) (1/3) (RtoC 2) 2 = RtoC (- (1 / 3 * (4 / 9 + 4 / 25 + 1)))%R).
    { unfold W_three, wfac. simpl fact. simpl INR. rewrite <- !RtoC_minus, <- !RtoC_plus, <- !RtoC_pow, <- !RtoC_div by (simpl; lra).
      rewrite <- !RtoC_plus, <- RtoC_mult. f_equal. replace 0.5%R with (1 / 2)%R by lra. simpl. field. }
    assert (M : hex_sum (W_three 0.5 1 (1/3) (1/3)) [RtoC 2] [true] 0 u1 =
      (sumR [/ Rabs (1 - Cmod (W_three 0.5 1 (1/3) (1/3) (RtoC 2) 2) ^ 2)]%R, 0%R)).
    { apply (hex_zero_gen _ (fun z => 1 - Cmod (W_three 0.5 1 (1/3) (1/3) z 2) ^ 2)%R).
      intros z _. unfold mu0, Rdiv. rewrite Rmult_1_l. apply Rabs_inv. }
    unfold mag_hexadecapole in Q. cbn [Z.eqb Pos.eqb getp p_a p_r3 p_e1 p_e2] in Q. rewrite M in Q. apply Ok_inj in Q.
    apply (f_equal fst) in Q. cbn [fst sumR] in Q. rewrite W', Cmod_R, Rabs_Ropp, Rplus_0_r in Q.
    rewrite (Rabs_pos_eq (1 / 3 * (4 / 9 + 4 / 25 + 1))) in Q by lra. apply (f_equal Rinv) in Q. rewrite !Rinv_inv in Q.
    revert Q. rewrite !Rabs_pos_eq; unfold s; simpl; lra.
Qed.

Lemma moment_unique f k m m' : radial_moment f k m -> radial_moment f k m' -> m = m'.
Proof. intros A B. rewrite <- (is_RInt_unique _ _ _ _ A). apply (is_RInt_unique _ _ _ _ B). Qed.
Lemma hex_terms_gen' L (W : C -> nat -> C) zs mask rho u1 mom2 mom4 ts : (forall z k, W z k = Wk L z k) -> 
  mom2 = (1 / 2 * (1 - 2 * u1 / (3 - u1) / 5))%R -> mom4 = (1 / 3 * (1 - 11 * (2 * u1 / (3 - u1)) / 35))%R ->
  Forall2 (fun z t => let '((m0, l1), l2) := t in expansion_at L (lens_map L z) z m0 l1 l2) zs ts ->
  let ds := map (disc_terms rho mom2 mom4) ts in
  hex_sum W zs mask rho u1 = (masked_sum total ds mask, (masked_sum second ds mask + masked_sum third ds mask)%R).
Proof.
  intros HW E2 E4 H ds. apply hex_sum_masked. unfold ds. induction H as [|z t zs ts E H IH]; cbn [map]; constructor; [|exact IH].
  apply (cassan_terms L (lens_map L z) z); auto.
Qed.
Lemma hex_terms_gen L (W : C -> nat -> C) zs mask rho u1 f mom2 mom4 ts : (forall z k, W z k = Wk L z k) -> u1 <> 3%R ->
  (forall d, (0 <= d)%R -> Is_limb_1st d u1 = Some (f d)) -> radial_moment f 2 mom2 -> radial_moment f 4 mom4 ->
  Forall2 (fun z t => let '((m0, l1), l2) := t in expansion_at L (lens_map L z) z m0 l1 l2) zs ts ->
  let ds := map (disc_terms rho mom2 mom4) ts in
  hex_sum W zs mask rho u1 = (masked_sum total ds mask, (masked_sum second ds mask + masked_sum third ds mask)%R).
Proof.
  intros HW N Hf M2 M4 H ds. apply hex_terms_gen' with (L := L); auto.
  - apply (moment_unique f 2); [exact M2|]. apply (limb_mom2 u1 1 f N ltac:(lra) Hf).
  - apply (moment_unique f 4); [exact M4|]. apply (limb_mom4 u1 1 f N ltac:(lra) Hf).
Qed.
Lemma c33_example : exists f mom2 mom4 t, let L := binary_mid 0.5 0.3 in
  (forall d, (0 <= d)%R -> Is_limb_1st d 0.5 = Some (f d)) /\ radial_moment f 2 mom2 /\ radial_moment f 4 mom4 /\
  Forall2 (fun z t => let '((m0, l1), l2) := t in expansion_at L (lens_map L z) z m0 l1 l2) [RtoC 3] [t].
Proof.
  set (L := binary_mid 0.5 0.3).
  assert (O : off_masses L (RtoC 3)). { apply off_binary. rewrite <- RtoC_minus, <- RtoC_plus. split; apply RtoC_neq0; lra. }
  assert (E : Wk L (RtoC 3) 2 = RtoC (- (0.3 / 6.25 + 0.7 / 12.25))%R).
  { unfold L. rewrite <- W_two_k. unfold W_two, wfac. simpl fact. simpl INR. rewrite <- !RtoC_minus, <- !RtoC_plus, <- !RtoC_pow, <- !RtoC_div by (simpl; lra).
    rewrite <- !RtoC_plus, <- RtoC_mult. f_equal. simpl. lra. }
  assert (ND : (1 - Cmod (Wk L (RtoC 3) 2) ^ 2 <> 0)%R).
  { rewrite E, Cmod_R, Rabs_Ropp, Rabs_pos_eq by lra. simpl. lra. }
  destruct (branch_exists L (RtoC 3) _ O (jac_W L (RtoC 3) O) ND) as (r & a & HB & Ea).
  destruct (expansion_exists L _ r a HB) as (m0 & l1 & l2 & X). rewrite Ea in X.
  set (f := fun d => match Is_limb_1st d 0.5 with Some v => v | None => 0%R end).
  assert (Hf : forall d, (0 <= d)%R -> Is_limb_1st d 0.5 = Some (f d)).
  { intros d Hd. unfold f. destruct (limb_defined d 0.5 Hd) as [v ->]. reflexivity. }
  exists f. do 2 eexists. exists ((m0, l1), l2). cbv zeta. split; [exact Hf|].
  split; [apply (limb_mom2 0.5 1 f ltac:(lra) ltac:(lra) Hf)|]. split; [apply (limb_mom4 0.5 1 f ltac:(lra) ltac:(lra) Hf)|].
  constructor; [exact X|constructor].
Qed.
