(** Closed-form central magnifications are profile-weighted averages. *)
From Coq Require Import Reals Lra Lia.
From Coquelicot Require Import Coquelicot.
From Verif Require Import Base_R Base_Int M_Special S_Special P_Elliptic P_Agm M_MagFft S_MagFft P_Single.
Local Open Scope R_scope.

(** [u A(u)] without the singularity *)
Definition ww (u : R) : R := sqrt (u ^ 2 + 4).
Definition uA (u : R) : R := (u ^ 2 + 2) / ww u.
Lemma w_pos u : 0 < ww u.
Proof. apply sqrt_lt_R0. pose proof (pow2_ge_0 u). lra. Qed.
Lemma w_sq u : ww u * ww u = u ^ 2 + 4.
Proof. apply sqrt_sqrt. pose proof (pow2_ge_0 u). lra. Qed.
Lemma uA_eq u : 0 < u -> A_point u * u = uA u.
Proof. intros H. unfold A_point, uA. rewrite Rabs_pos_eq by lra. pose proof (w_pos u). fold (ww u). field. lra. Qed.
Lemma w_derive u : is_derive ww u (u / ww u).
Proof.
  pose proof (w_pos u). pose proof (pow2_ge_0 u). unfold ww at 1. auto_derive.
  - replace (u * (u * 1) + 4) with (u ^ 2 + 4) by ring. lra.
  - replace (u * (u * 1) + 4) with (u ^ 2 + 4) by ring. fold (ww u). field. lra.
Qed.
Lemma w_Derive u : Derive (fun x => ww x) u = u / ww u.
Proof. apply is_derive_unique. apply w_derive. Qed.
Lemma w_ex u : ex_derive (fun x => ww x) u.
Proof. eexists. apply w_derive. Qed.
Lemma uA_cont u : continuous uA u.
Proof.
  apply (ex_derive_continuous (V := R_NormedModule)). unfold uA. pose proof (w_pos u). auto_derive.
  repeat split; try apply w_ex; lra.
Qed.
Lemma int_uA rho : is_RInt uA 0 rho (rho * ww rho / 2).
Proof.
  replace (rho * ww rho / 2) with (rho * ww rho / 2 - 0 * ww 0 / 2) by (unfold Rdiv; ring).
  apply (I_derive (fun u => u * ww u / 2)).
  - intros u _. pose proof (w_pos u) as Hw. pose proof (w_sq u) as Hs. auto_derive.
    + apply w_ex.
    + rewrite w_Derive. unfold uA. apply (Rmult_eq_reg_r (2 * ww u)); [|lra].
      transitivity (ww u * ww u + u ^ 2); [field; lra|]. rewrite Hs. field. lra.
  - intros u _. apply uA_cont.
Qed.
Lemma num_ext (s : R -> R) rho : 0 < rho -> RInt (fun u => s u * A_point u * u) 0 rho = RInt (fun u => s u * uA u) 0 rho.
Proof.
  intros H. apply I_ext. intros u Hu. rewrite Rmin_left in Hu by lra. rewrite Rmult_assoc, uA_eq by lra. reflexivity.
Qed.
Lemma disk_average rho : 0 < rho -> disk_A0 rho = central_average (profile_uniform rho) rho.
Proof.
  intros H. unfold central_average. rewrite num_ext by auto. unfold profile_uniform.
  assert (E1 : RInt (fun u => 1 * uA u) 0 rho = rho * ww rho / 2).
  { rewrite (I_ext _ uA). apply I_unique, int_uA. intros; ring. }
  assert (E2 : RInt (fun u => 1 * u) 0 rho = rho ^ 2 / 2).
  { apply I_unique. replace (rho ^ 2 / 2) with (rho ^ 2 / 2 - 0 ^ 2 / 2) by field. apply (I_derive (fun u => u ^ 2 / 2)).
    intros u _. auto_derive; auto. field. intros u _. apply (ex_derive_continuous (V := R_NormedModule)). auto_derive. auto. }
  rewrite E1, E2. unfold disk_A0. fold (ww rho). field. lra.
Qed.
(** the quadratic profile *)
Lemma arcsinh_derive u : is_derive (fun u => arcsinh (u / 2)) u (1 / ww u).
Proof.
  assert (H : is_derive arcsinh (u / 2) (/ sqrt ((u / 2) ^ 2 + 1))) by (apply is_derive_Reals; apply derivable_pt_lim_arcsinh).
  assert (E : sqrt ((u / 2) ^ 2 + 1) = ww u / 2).
  { unfold ww. replace ((u / 2) ^ 2 + 1) with ((u ^ 2 + 4) / 2 ^ 2) by field. pose proof (pow2_ge_0 u).
    rewrite sqrt_div_alt by lra. rewrite (sqrt_pow2 2) by lra. reflexivity. }
  rewrite E in H. pose proof (w_pos u).
  replace (1 / ww u) with (1 / 2 * / (ww u / 2)) by (field; lra).
  apply (is_derive_comp arcsinh (fun u => u / 2)); [exact H|]. auto_derive; auto. 
Qed.
Lemma limb2_average rho : 0 < rho -> limb2_A0 rho = central_average (profile_quadratic rho) rho.
Proof.
  intros H. unfold central_average. rewrite num_ext by auto. unfold profile_quadratic.
  set (F := fun u => u * ww u / 2 - (u ^ 3 * ww u / 4 - u * ww u / 2 + 2 * arcsinh (u / 2)) / rho ^ 2).
  assert (E1 : RInt (fun u => (1 - (u / rho) ^ 2) * uA u) 0 rho = F rho - F 0).
  { apply I_unique. apply I_derive.
    - intros u _. unfold F. pose proof (w_pos u) as Hw. pose proof (w_sq u) as Hs. pose proof (arcsinh_derive u) as D2.
      set (g := fun x => arcsinh (x / 2)) in *. 
      change (is_derive (fun u => u * ww u / 2 - (u ^ 3 * ww u / 4 - u * ww u / 2 + 2 * g u) / rho ^ 2) u ((1 - (u / rho) ^ 2) * uA u)).
      auto_derive.
      + repeat split; auto; try apply w_ex. eexists. exact D2.
      + rewrite w_Derive. replace (Derive (fun x => g x) u) with (1 / ww u) by (symmetry; apply is_derive_unique; exact D2).
        unfold uA. apply (Rmult_eq_reg_r (4 * ww u)); [|lra].
        transitivity (2 * (ww u * ww u + u ^ 2) - (u ^ 4 + 3 * u ^ 2 * (ww u * ww u) - 2 * (ww u * ww u) - 2 * u ^ 2 + 8) / rho ^ 2); [field; lra|].
        rewrite Hs. field. lra.
    - intros u _. apply (continuous_mult (fun u => 1 - (u / rho) ^ 2) uA); [|apply uA_cont].
      apply (ex_derive_continuous (V := R_NormedModule)). auto_derive. lra. }
  assert (E2 : RInt (fun u => (1 - (u / rho) ^ 2) * u) 0 rho = rho ^ 2 / 4).
  { apply I_unique. replace (rho ^ 2 / 4) with ((rho ^ 2 / 2 - rho ^ 4 / (4 * rho ^ 2)) - (0 ^ 2 / 2 - 0 ^ 4 / (4 * rho ^ 2))) by (field; lra).
    apply (I_derive (fun u => u ^ 2 / 2 - u ^ 4 / (4 * rho ^ 2))).
    intros u _. auto_derive; auto. field. lra. intros u _. apply (ex_derive_continuous (V := R_NormedModule)). auto_derive. lra. }
  rewrite E1, E2. unfold F, limb2_A0. replace (4 + rho ^ 2) with (rho ^ 2 + 4) by ring. fold (ww rho).
  replace (0 / 2) with 0 by field. rewrite arcsinh_0. field. lra.
Qed.

(** ** the square-root profile *)
Lemma root_cont rho u : continuous (fun u => sqrt (1 - (u / rho) ^ 2)) u.
Proof.
  apply (continuous_comp (fun u => 1 - (u / rho) ^ 2) sqrt).
  - unfold Rdiv. apply (ex_derive_continuous (V := R_NormedModule)). auto_derive. auto.
  - apply continuous_sqrt.
Qed.
(** substituting [u = rho sin t] *)
Lemma sin_subst rho (f : R -> R) : 0 < rho -> (forall u, continuous f u) ->
  RInt f 0 rho = RInt (fun t => rho * cos t * f (rho * sin t)) 0 (PI / 2).
Proof.
  intros Hr Hc.
  assert (H : RInt (fun y => scal (rho * cos y) (f (rho * sin y))) 0 (PI / 2) = RInt f (rho * sin 0) (rho * sin (PI / 2))).
  { apply (RInt_comp (V := R_CompleteNormedModule) f (fun t => rho * sin t) (fun t => rho * cos t)).
    - intros. apply Hc.
    - intros x _. split. auto_derive; auto. ring. apply (ex_derive_continuous (V := R_NormedModule)). auto_derive. auto. }
  rewrite sin_0, sin_PI2, Rmult_0_r, Rmult_1_r in H. rewrite <- H. reflexivity.
Qed.
Lemma root_sin rho t : 0 < rho -> 0 <= t <= PI / 2 -> sqrt (1 - (rho * sin t / rho) ^ 2) = cos t.
Proof.
  intros Hr Ht. replace (rho * sin t / rho) with (sin t) by (field; lra). rewrite sc1. replace (1 - (1 - cos t ^ 2)) with (cos t ^ 2) by ring.
  apply sqrt_pow2. apply cos_ge_0; lra.
Qed.
Lemma root_flux rho : 0 < rho -> RInt (fun u => sqrt (1 - (u / rho) ^ 2) * u) 0 rho = rho ^ 2 / 3.
Proof.
  intros Hr. rewrite sin_subst; auto.
  - rewrite (I_ext _ (fun t => rho ^ 2 * (cos t ^ 2 * sin t))).
    + apply I_unique. replace (rho ^ 2 / 3) with (- rho ^ 2 * cos (PI / 2) ^ 3 / 3 - - rho ^ 2 * cos 0 ^ 3 / 3) by (rewrite cos_PI2, cos_0; field).
      apply (I_derive (fun t => - rho ^ 2 * cos t ^ 3 / 3)).
      * intros x _. auto_derive; auto. field.
      * intros x _. apply (ex_derive_continuous (V := R_NormedModule)). auto_derive. auto.
    + intros t Ht. pose proof PI_RGT_0. rewrite Rmin_left, Rmax_right in Ht by lra. rewrite root_sin by lra. ring.
  - intros u. apply (continuous_mult (fun u => sqrt (1 - (u / rho) ^ 2)) (fun u => u)); [apply root_cont|apply continuous_id].
Qed.
(** the total derivative behind the reduction *)
Lemma scD_derive a b (x : R) : 0 < a -> 0 < b -> is_derive (fun t => sin t * cos t * Dl a b t) x
  ((cos x ^ 2 - sin x ^ 2) * Dl a b x + (b ^ 2 - a ^ 2) * (sin x ^ 2 * cos x ^ 2) / Dl a b x).
Proof.
  intros Ha Hb. pose proof (Dl_pos a b x Ha Hb) as HD. pose proof (Dl_derive a b x Ha Hb) as Hd. auto_derive.
  - eexists. exact Hd.
  - replace (Derive (fun t => Dl a b t) x) with ((b ^ 2 - a ^ 2) * (sin x * cos x) / Dl a b x) by (symmetry; apply is_derive_unique; exact Hd).
    field. lra.
Qed.
Lemma root_num rho : 0 < rho ->
  RInt (fun u => sqrt (1 - (u / rho) ^ 2) * uA u) 0 rho =
  (2 * (rho ^ 2 + 2) * ellint_E (- rho ^ 2 / 4) - (rho ^ 2 + 4) * ellint_K (- rho ^ 2 / 4)) / (3 * rho).
Proof.
  intros Hr. pose proof PI_RGT_0 as HP. assert (Hr2 : 0 < rho ^ 2) by (apply pow_lt; auto).
  rewrite sin_subst; auto.
  2:{ intros u. apply (continuous_mult (fun u => sqrt (1 - (u / rho) ^ 2)) uA); [apply root_cont|apply uA_cont]. }
  rewrite K_GI, E_GJ by lra. set (b := sqrt (1 - - rho ^ 2 / 4)).
  assert (Hb2 : b ^ 2 = 1 + rho ^ 2 / 4) by (unfold b; rewrite pow2_sqrt; lra).
  assert (Hb : 0 < b) by (apply sqrt_lt_R0; lra). assert (H1 : 0 < 1) by lra.
  pose proof (Dl_ex 1 b 0 (PI / 2) H1 Hb) as X1. pose proof (iDl_ex 1 b 0 (PI / 2) H1 Hb) as X2.
  set (dF := fun x => (cos x ^ 2 - sin x ^ 2) * Dl 1 b x + (b ^ 2 - 1 ^ 2) * (sin x ^ 2 * cos x ^ 2) / Dl 1 b x).
  assert (HF : is_RInt dF 0 (PI / 2) 0).
  { replace 0 with (sin (PI / 2) * cos (PI / 2) * Dl 1 b (PI / 2) - sin 0 * cos 0 * Dl 1 b 0) at 2 by (rewrite cos_PI2, sin_0; ring).
    apply (I_derive (fun t => sin t * cos t * Dl 1 b t)).
    - intros x _. apply scD_derive; lra.
    - intros x _. unfold dF. apply (ex_derive_continuous (V := R_NormedModule)). pose proof (Dl_pos 1 b x H1 Hb).
      assert (ex_derive (fun t => Dl 1 b t) x) by (eexists; apply Dl_derive; auto). auto_derive. repeat split; auto. lra. }
  rewrite (I_ext _ (fun t => 2 * rho / 3 * dF t + (4 * (rho ^ 2 / 2 + 1) / (3 * rho) * Dl 1 b t + (- (4 * (rho ^ 2 / 4 + 1) / (3 * rho))) * (1 / Dl 1 b t)))).
  - rewrite (I_plus (fun t => 2 * rho / 3 * dF t)).
    2: apply (exI_scal dF); eexists; exact HF.
    2: apply (exI_plus (fun t => 4 * (rho ^ 2 / 2 + 1) / (3 * rho) * Dl 1 b t)); [apply (exI_scal (fun t => Dl 1 b t)); exact X1|apply (exI_scal (fun t => 1 / Dl 1 b t)); exact X2].
    rewrite (I_plus (fun t => 4 * (rho ^ 2 / 2 + 1) / (3 * rho) * Dl 1 b t)).
    2: apply (exI_scal (fun t => Dl 1 b t)); exact X1. 2: apply (exI_scal (fun t => 1 / Dl 1 b t)); exact X2.
    rewrite (I_scal dF) by (eexists; exact HF). rewrite (I_scal (fun t => Dl 1 b t)) by exact X1. rewrite (I_scal (fun t => 1 / Dl 1 b t)) by exact X2.
    rewrite (I_unique _ _ _ _ HF). fold (GI 1 b). fold (GJ 1 b). apply Rminus_diag_uniq. field. lra.
  - intros t Ht. rewrite Rmin_left, Rmax_right in Ht by lra. rewrite root_sin by lra. pose proof (Dl_pos 1 b t H1 Hb) as HD. pose proof (Dl_sq 1 b t H1 Hb) as HS.
    assert (HW : ww (rho * sin t) = 2 * Dl 1 b t).
    { unfold ww, Dl. replace (2 * sqrt (Q2 1 b t)) with (sqrt (2 ^ 2) * sqrt (Q2 1 b t)) by (rewrite (sqrt_pow2 2) by lra; reflexivity). rewrite <- sqrt_mult_alt by lra. f_equal. unfold Q2. rewrite Hb2. rewrite Rpow_mult_distr, sc1. field. }
    unfold uA. rewrite HW. unfold dF. rewrite Hb2. apply (Rmult_eq_reg_r (3 * rho * Dl 1 b t)); [|apply Rgt_not_eq; repeat apply Rmult_lt_0_compat; lra].
    transitivity (3 * rho ^ 2 * cos t ^ 2 * (rho ^ 2 * sin t ^ 2 + 2) / 2); [field; lra|].
    transitivity (2 * rho ^ 2 * ((cos t ^ 2 - sin t ^ 2) * Dl 1 b t ^ 2 + rho ^ 2 / 4 * (sin t ^ 2 * cos t ^ 2)) + 4 * (rho ^ 2 / 2 + 1) * Dl 1 b t ^ 2 - 4 * (rho ^ 2 / 4 + 1)); [|field; lra].
    rewrite HS. unfold Q2. rewrite Hb2, sc1. field.
Qed.
Lemma limb1_average rho : 0 < rho -> limb1_A0 ellint_K ellint_E rho = central_average (profile_root rho) rho.
Proof.
  intros H. unfold central_average. rewrite num_ext by auto. unfold profile_root. rewrite root_num, root_flux by auto.
  unfold limb1_A0. field. lra.
Qed.

(** ** the linear limb-darkening law *)
Lemma uniform_num rho : RInt (fun u => profile_uniform rho u * uA u) 0 rho = rho * ww rho / 2.
Proof. unfold profile_uniform. rewrite (I_ext _ uA). apply I_unique, int_uA. intros; ring. Qed.
Lemma linear_average a1 rho : 0 < rho ->
  central_average (profile_linear a1 rho) rho =
  (3 * (1 - a1) * disk_A0 rho + 2 * a1 * limb1_A0 ellint_K ellint_E rho) / (3 - a1).
Proof.
  intros H. pose proof (disk_average rho H) as HA. pose proof (limb1_average rho H) as HB. unfold central_average in *.
  rewrite num_ext in HA, HB |- * by auto. unfold profile_uniform, profile_root in *.
  assert (X1 : ex_RInt (fun u => 1 * uA u) 0 rho) by (apply (exI_scal uA); eexists; apply int_uA).
  assert (X2 : ex_RInt (fun u => sqrt (1 - (u / rho) ^ 2) * uA u) 0 rho).
  { apply exI_cont. intros u _. apply (continuous_mult (fun u => sqrt (1 - (u / rho) ^ 2)) uA); [apply root_cont|apply uA_cont]. }
  assert (X3 : ex_RInt (fun u => 1 * u) 0 rho).
  { apply exI_cont. intros u _. apply (ex_derive_continuous (V := R_NormedModule)). auto_derive. auto. }
  assert (X4 : ex_RInt (fun u => sqrt (1 - (u / rho) ^ 2) * u) 0 rho).
  { apply exI_cont. intros u _. apply (continuous_mult (fun u => sqrt (1 - (u / rho) ^ 2)) (fun u => u)); [apply root_cont|apply continuous_id]. }
  assert (E3 : RInt (fun u => 1 * u) 0 rho = rho ^ 2 / 2).
  { apply I_unique. replace (rho ^ 2 / 2) with (rho ^ 2 / 2 - 0 ^ 2 / 2) by field. apply (I_derive (fun u => u ^ 2 / 2)).
    intros u _. auto_derive; auto. field. intros u _. apply (ex_derive_continuous (V := R_NormedModule)). auto_derive. auto. }
  rewrite E3 in HA. rewrite root_flux in HB by auto.
  rewrite (I_ext (fun u => profile_linear a1 rho u * uA u) (fun u => (1 - a1) * (1 * uA u) + a1 * (sqrt (1 - (u / rho) ^ 2) * uA u))) by (intros; unfold profile_linear; ring).
  rewrite (I_ext (fun u => profile_linear a1 rho u * u) (fun u => (1 - a1) * (1 * u) + a1 * (sqrt (1 - (u / rho) ^ 2) * u))) by (intros; unfold profile_linear; ring).
  rewrite (I_plus (fun u => (1 - a1) * (1 * uA u)) (fun u => a1 * (sqrt (1 - (u / rho) ^ 2) * uA u))) ; [|apply (exI_scal (fun u => 1 * uA u)); exact X1|apply (exI_scal (fun u => sqrt (1 - (u / rho) ^ 2) * uA u)); exact X2].
  rewrite (I_plus (fun u => (1 - a1) * (1 * u)) (fun u => a1 * (sqrt (1 - (u / rho) ^ 2) * u))) ; [|apply (exI_scal (fun u => 1 * u)); exact X3|apply (exI_scal (fun u => sqrt (1 - (u / rho) ^ 2) * u)); exact X4].
  rewrite (I_scal (fun u => 1 * uA u)) by exact X1. rewrite (I_scal (fun u => sqrt (1 - (u / rho) ^ 2) * uA u)) by exact X2.
  rewrite (I_scal (fun u => 1 * u)) by exact X3. rewrite (I_scal (fun u => sqrt (1 - (u / rho) ^ 2) * u)) by exact X4.
  rewrite E3, root_flux by auto. rewrite HA, HB.
  set (P := RInt (fun u => 1 * uA u) 0 rho). set (Q := RInt (fun u => sqrt (1 - (u / rho) ^ 2) * uA u) 0 rho).
  destruct (Req_dec a1 3) as [->|Hne].
  - replace ((1 - 3) * (rho ^ 2 / 2) + 3 * (rho ^ 2 / 3)) with 0 by field. replace (3 - 3) with 0 by ring. unfold Rdiv. rewrite Rinv_0. ring.
  - assert (rho ^ 2 <> 0) by (apply pow_nonzero; lra). assert (3 - a1 <> 0) by lra. field. repeat split; auto; try lra. 
    intros E. apply H1. apply (Rmult_eq_reg_r (rho ^ 2)); auto. lra.
Qed.
(** a centrally concentrated profile is magnified more than a uniform one *)
Lemma root_gt_uniform rho : 0 < rho -> disk_A0 rho < limb1_A0 ellint_K ellint_E rho.
Proof.
  intros H. rewrite disk_average, limb1_average by auto. unfold central_average. rewrite !num_ext by auto.
  assert (E3 : RInt (fun u => profile_uniform rho u * u) 0 rho = rho ^ 2 / 2).
  { unfold profile_uniform. apply I_unique. replace (rho ^ 2 / 2) with (rho ^ 2 / 2 - 0 ^ 2 / 2) by field. apply (I_derive (fun u => u ^ 2 / 2)).
    intros u _. auto_derive; auto. field. intros u _. apply (ex_derive_continuous (V := R_NormedModule)). auto_derive. auto. }
  assert (E4 : RInt (fun u => profile_root rho u * u) 0 rho = rho ^ 2 / 3) by (apply root_flux; auto).
  rewrite E3, E4. assert (Hr2 : 0 < rho ^ 2) by (apply pow_lt; auto).
  set (us := rho * sqrt (5 / 9)). assert (Hq : 0 < sqrt (5 / 9) < 1).
  { split. apply sqrt_lt_R0; lra. rewrite <- sqrt_1. apply sqrt_lt_1_alt. lra. }
  assert (Hus : 0 < us < rho) by (unfold us; split; nra).
  set (As := A_point us).
  (* g is the sign-definite product *)
  set (g := fun u => (3 * profile_root rho u - 2 * profile_uniform rho u) * (uA u - As * u)).
  assert (Hgc : forall u, continuous g u).
  { intros u. unfold g, profile_root, profile_uniform.
    apply (continuous_mult (fun u => 3 * sqrt (1 - (u / rho) ^ 2) - 2 * 1) (fun u => uA u - As * u)).
    - apply (continuous_minus (V := R_NormedModule) (fun u => 3 * sqrt (1 - (u / rho) ^ 2))); [|apply continuous_const].
      apply (continuous_scal_r (V := R_NormedModule) 3 (fun u => sqrt (1 - (u / rho) ^ 2))). apply root_cont.
    - apply (continuous_minus (V := R_NormedModule) uA); [apply uA_cont|]. apply (continuous_scal_r (V := R_NormedModule) As (fun u => u)). apply continuous_id. }
  assert (Hroot : forall u, 0 <= u <= rho -> u < us -> 2 / 3 < sqrt (1 - (u / rho) ^ 2)).
  { intros u Hu Hlt. rewrite <- (sqrt_pow2 (2 / 3)) by lra. apply sqrt_lt_1_alt. split; [lra|].
    assert (Hd : 0 <= u / rho < sqrt (5 / 9)).
    { split. apply Rmult_le_pos; [lra|]. left; apply Rinv_0_lt_compat; auto.
      apply (Rmult_lt_reg_r rho); auto. replace (u / rho * rho) with u by (field; lra). unfold us in Hlt. lra. }
    pose proof (sqrt_sqrt (5 / 9)). nra. }
  assert (Hroot2 : forall u, 0 <= u <= rho -> us < u -> sqrt (1 - (u / rho) ^ 2) < 2 / 3).
  { intros u Hu Hlt. rewrite <- (sqrt_pow2 (2 / 3)) by lra. 
    assert (Hd : sqrt (5 / 9) < u / rho <= 1).
    { split; apply (Rmult_lt_reg_r rho) || apply (Rmult_le_reg_r rho); auto; replace (u / rho * rho) with u by (field; lra); unfold us in Hlt; lra. }
    apply sqrt_lt_1_alt. pose proof (sqrt_sqrt (5 / 9)). split; nra. }
  assert (Hdec : forall u, 0 < u -> u < us -> As * u < uA u).
  { intros u Hu Hlt. rewrite <- uA_eq by auto. apply Rmult_lt_compat_r; auto. apply A_point_decreasing; auto. }
  assert (Hdec2 : forall u, us < u -> uA u < As * u).
  { intros u Hlt. rewrite <- uA_eq by lra. apply Rmult_lt_compat_r; [lra|]. apply A_point_decreasing; lra. }
  assert (G1 : 0 < RInt g 0 us).
  { apply RInt_gt_0; [lra| |auto]. intros u Hu. unfold g, profile_uniform, profile_root. pose proof (Hroot u). pose proof (Hdec u). apply Rmult_lt_0_compat; lra. }
  assert (G2 : 0 < RInt g us rho).
  { apply RInt_gt_0; [lra| |auto]. intros u Hu. unfold g, profile_uniform, profile_root. pose proof (Hroot2 u). pose proof (Hdec2 u).
    replace ((3 * sqrt (1 - (u / rho) ^ 2) - 2 * 1) * (uA u - As * u)) with ((2 - 3 * sqrt (1 - (u / rho) ^ 2)) * (As * u - uA u)) by ring.
    apply Rmult_lt_0_compat; lra. }
  assert (Hgx : forall a b, ex_RInt g a b) by (intros; apply exI_cont; intros; apply Hgc).
  pose proof (I_chasles g 0 us rho (Hgx _ _) (Hgx _ _)) as HC.
  assert (X1 : ex_RInt (fun u => profile_uniform rho u * uA u) 0 rho) by (unfold profile_uniform; apply (exI_scal uA); eexists; apply int_uA).
  assert (X2 : ex_RInt (fun u => profile_root rho u * uA u) 0 rho).
  { apply exI_cont. intros u _. apply (continuous_mult (fun u => sqrt (1 - (u / rho) ^ 2)) uA); [apply root_cont|apply uA_cont]. }
  assert (X3 : ex_RInt (fun u => profile_uniform rho u * u) 0 rho).
  { apply exI_cont. intros u _. unfold profile_uniform. apply (ex_derive_continuous (V := R_NormedModule)). auto_derive. auto. }
  assert (X4 : ex_RInt (fun u => profile_root rho u * u) 0 rho).
  { apply exI_cont. intros u _. apply (continuous_mult (fun u => sqrt (1 - (u / rho) ^ 2)) (fun u => u)); [apply root_cont|apply continuous_id]. }
  assert (EG : RInt g 0 rho = 3 * RInt (fun u => profile_root rho u * uA u) 0 rho + ((-2) * RInt (fun u => profile_uniform rho u * uA u) 0 rho
     + ((-3 * As) * RInt (fun u => profile_root rho u * u) 0 rho + (2 * As) * RInt (fun u => profile_uniform rho u * u) 0 rho))).
  { set (h1 := fun u => profile_root rho u * uA u) in *. set (h2 := fun u => profile_uniform rho u * uA u) in *.
    set (h3 := fun u => profile_root rho u * u) in *. set (h4 := fun u => profile_uniform rho u * u) in *.
    rewrite <- (I_scal h1), <- (I_scal h2), <- (I_scal h3), <- (I_scal h4) by auto.
    rewrite <- (I_plus (fun x => -3 * As * h3 x)) by (apply exI_scal; auto).
    rewrite <- (I_plus (fun x => -2 * h2 x)) ; [|apply exI_scal; auto|apply (exI_plus (fun x => -3 * As * h3 x)); apply exI_scal; auto].
    rewrite <- (I_plus (fun x => 3 * h1 x)).
    - apply I_ext. intros u _. unfold g, h1, h2, h3, h4. ring.
    - apply exI_scal; auto.
    - apply (exI_plus (fun x => -2 * h2 x)); [apply exI_scal; auto|]. apply (exI_plus (fun x => -3 * As * h3 x)); apply exI_scal; auto. }
  rewrite E3, E4 in EG. rewrite <- HC in EG.
  set (P := RInt (fun u => profile_uniform rho u * uA u) 0 rho) in *. set (Q := RInt (fun u => profile_root rho u * uA u) 0 rho) in *.
  assert (HPQ : 2 * P < 3 * Q) by lra.
  replace (P / (rho ^ 2 / 2)) with (2 * P / rho ^ 2) by (field; lra). replace (Q / (rho ^ 2 / 3)) with (3 * Q / rho ^ 2) by (field; lra).
  apply Rmult_lt_compat_r; auto. apply Rinv_0_lt_compat; auto.
Qed.
Lemma mag_limb_wrong rho a1 : 0 < rho -> 0 < a1 < 1 ->
  mag_limb_A0 ellint_K ellint_E rho a1 < disk_A0 rho < central_average (profile_linear a1 rho) rho.
Proof.
  intros H Ha. pose proof (root_gt_uniform rho H) as HG. rewrite linear_average by auto. unfold mag_limb_A0. fold (limb1_A0 ellint_K ellint_E rho). fold (disk_A0 rho).
  set (D := disk_A0 rho) in *. set (L := limb1_A0 ellint_K ellint_E rho) in *. split.
  - apply (Rmult_lt_reg_r (1 - a1)); [lra|]. replace ((D - a1 * L) / (1 - a1) * (1 - a1)) with (D - a1 * L) by (field; lra). nra.
  - apply (Rmult_lt_reg_r (3 - a1)); [lra|]. match goal with |- _ < ?X / _ * _ => replace (X / (3 - a1) * (3 - a1)) with X by (field; lra) end. nra.
Qed.
