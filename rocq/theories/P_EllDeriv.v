(** The derivative rules of special.py for the elliptic integrals are the true derivatives. *)
From Coq Require Import Reals Lra Lia.
From Coquelicot Require Import Coquelicot.
From Verif Require Import Base_R Base_Int M_Special S_Special P_Elliptic P_Agm.
Local Open Scope R_scope.

Lemma rad_pos m t : m < 1 -> 0 < 1 - m * sin t ^ 2.
Proof.
  intros Hm. pose proof (pow2_ge_0 (sin t)). pose proof (pow2_ge_0 (cos t)). pose proof (sc1 t).
  destruct (Rle_lt_dec m 0); nra.
Qed.
Lemma rad_Dl m t : m < 1 -> sqrt (1 - m * sin t ^ 2) = Dl 1 (sqrt (1 - m)) t.
Proof. intros Hm. unfold Dl, Q2. rewrite pow2_sqrt by lra. f_equal. rewrite sc1. ring. Qed.
Lemma cont2_rad m t : continuity_2d_pt (fun u v => 1 - u * sin v ^ 2) m t.
Proof.
  apply continuity_2d_pt_minus; [apply continuity_2d_pt_const|].
  apply continuity_2d_pt_mult; [apply continuity_2d_pt_id1|].
  apply (continuity_1d_2d_pt_comp (fun v => sin v ^ 2) (fun u v => v)); [|apply continuity_2d_pt_id2].
  apply derivable_continuous_pt. apply ex_derive_Reals_0. auto_derive. auto.
Qed.
Lemma cont2_root m t : m < 1 -> continuity_2d_pt (fun u v => sqrt (1 - u * sin v ^ 2)) m t.
Proof.
  intros Hm. apply (continuity_1d_2d_pt_comp sqrt (fun u v => 1 - u * sin v ^ 2)); [|apply cont2_rad].
  apply continuity_pt_sqrt. left. apply rad_pos; auto.
Qed.
Lemma loc_lt1 m : m < 1 -> locally m (fun y => y < 1).
Proof. intros H. apply (open_lt 1). auto. Qed.

Lemma dK_point m t : m < 1 -> is_derive (fun z => 1 / sqrt (1 - z * sin t ^ 2)) m (sin t ^ 2 / (2 * sqrt (1 - m * sin t ^ 2) ^ 3)).
Proof.
  intros Hm. pose proof (rad_pos m t Hm) as H. assert (HS : 0 < sqrt (1 - m * sin t ^ 2)) by (apply sqrt_lt_R0; auto). 
  pose proof (sqrt_sqrt (1 - m * sin t ^ 2) (Rlt_le _ _ H)) as Hq.
  set (q := sin t ^ 2) in *. auto_derive.
  - replace (1 + - (m * q)) with (1 - m * q) by ring. repeat split; auto; lra.
  - replace (1 + - (m * q)) with (1 - m * q) by ring. field. lra.
Qed.
Lemma dE_point m t : m < 1 -> is_derive (fun z => sqrt (1 - z * sin t ^ 2)) m (- sin t ^ 2 / (2 * sqrt (1 - m * sin t ^ 2))).
Proof.
  intros Hm. pose proof (rad_pos m t Hm) as H. assert (HS : 0 < sqrt (1 - m * sin t ^ 2)) by (apply sqrt_lt_R0; auto). 
  set (q := sin t ^ 2) in *. auto_derive.
  - replace (1 + - (m * q)) with (1 - m * q) by ring. auto.
  - replace (1 + - (m * q)) with (1 - m * q) by ring. field. lra.
Qed.
Lemma K_derive_int m : m < 1 -> is_derive ellint_K m (RInt (fun t => Derive (fun u => 1 / sqrt (1 - u * sin t ^ 2)) m) 0 (PI / 2)).
Proof.
  intros Hm. assert (H1 : 0 < 1) by lra.
  apply (is_derive_RInt_param (fun u t => 1 / sqrt (1 - u * sin t ^ 2))).
    - apply (filter_imp (fun y => y < 1)); [|apply loc_lt1; auto]. intros y Hy t _. eexists. apply dK_point; auto.
    - intros t _. apply (continuity_2d_pt_ext_loc (fun u v => sin v ^ 2 / (2 * sqrt (1 - u * sin v ^ 2) ^ 3))).
      + assert (He : 0 < 1 - m) by lra. exists (mkposreal _ He). intros u v Hu _. simpl in Hu. symmetry. apply is_derive_unique, dK_point.
        apply Rabs_lt_between in Hu. lra.
      + pose proof (rad_pos m t Hm) as Hp. assert (HS : 0 < sqrt (1 - m * sin t ^ 2)) by (apply sqrt_lt_R0; auto).
        apply continuity_2d_pt_mult.
        * apply (continuity_1d_2d_pt_comp (fun v => sin v ^ 2) (fun u v => v)); [|apply continuity_2d_pt_id2].
          apply derivable_continuous_pt. apply ex_derive_Reals_0. auto_derive. auto.
        * apply continuity_2d_pt_inv.
          -- apply (continuity_1d_2d_pt_comp (fun x => 2 * x ^ 3) (fun u v => sqrt (1 - u * sin v ^ 2))); [|apply cont2_root; auto].
             apply derivable_continuous_pt. apply ex_derive_Reals_0. auto_derive. auto.
          -- apply Rgt_not_eq. apply Rmult_lt_0_compat; [lra|]. apply pow_lt. auto.
    - apply (filter_imp (fun y => y < 1)); [|apply loc_lt1; auto]. intros y Hy. 
      apply (exI_ext (fun t => 1 / Dl 1 (sqrt (1 - y)) t)). intros x _. rewrite rad_Dl by auto. reflexivity. apply iDl_ex; auto. apply sqrt_lt_R0; lra.
Qed.
Lemma K_derive m : m < 1 -> m <> 0 -> is_derive ellint_K m ((ellint_E m - (1 - m) * ellint_K m) / (2 * m * (1 - m))).
Proof.
  intros Hm H0. set (b := sqrt (1 - m)). assert (Hb : 0 < b) by (apply sqrt_lt_R0; lra). assert (H1 : 0 < 1) by lra.
  assert (Hb2 : b ^ 2 = 1 - m) by (apply pow2_sqrt; lra).
  pose proof (iDl3_ex 1 b 0 (PI / 2) H1 Hb) as X3. pose proof (iDl_ex 1 b 0 (PI / 2) H1 Hb) as X2.
  pose proof (K_derive_int m Hm) as HD.
  replace ((ellint_E m - (1 - m) * ellint_K m) / (2 * m * (1 - m))) with (RInt (fun t => Derive (fun u => 1 / sqrt (1 - u * sin t ^ 2)) m) 0 (PI / 2)); auto.
  pose proof (GD3 1 b H1 Hb) as G3. rewrite K_GI, E_GJ by auto. fold b.
  rewrite (I_ext _ (fun t => 1 / (2 * m) * (1 / Dl 1 b t ^ 3) + (- (1 / (2 * m))) * (1 / Dl 1 b t))).
  - rewrite (I_plus (fun t => 1 / (2 * m) * (1 / Dl 1 b t ^ 3)) (fun t => (- (1 / (2 * m))) * (1 / Dl 1 b t))).
    2: apply (exI_scal (fun t => 1 / Dl 1 b t ^ 3)); exact X3. 2: apply (exI_scal (fun t => 1 / Dl 1 b t)); exact X2.
    rewrite (I_scal (fun t => 1 / Dl 1 b t ^ 3)) by exact X3. rewrite (I_scal (fun t => 1 / Dl 1 b t)) by exact X2. fold (GI 1 b).
    rewrite <- G3, Hb2. apply Rminus_diag_uniq. field. lra.
  - intros t _. etransitivity; [exact (is_derive_unique _ _ _ (dK_point m t Hm))|]. rewrite rad_Dl by auto. fold b.
    pose proof (Dl_pos 1 b t H1 Hb) as HDp. pose proof (Dl_sq 1 b t H1 Hb) as HS. 
    assert (Hs : sin t ^ 2 = (1 - Dl 1 b t ^ 2) / m) by (rewrite HS; unfold Q2; rewrite Hb2, (sc1 t); field; lra).
    rewrite Hs. field. lra.
Qed.
Lemma E_derive m : m < 1 -> m <> 0 -> is_derive ellint_E m ((ellint_E m - ellint_K m) / (2 * m)).
Proof.
  intros Hm H0. set (b := sqrt (1 - m)). assert (Hb : 0 < b) by (apply sqrt_lt_R0; lra). assert (H1 : 0 < 1) by lra.
  assert (Hb2 : b ^ 2 = 1 - m) by (apply pow2_sqrt; lra).
  pose proof (Dl_ex 1 b 0 (PI / 2) H1 Hb) as X1. pose proof (iDl_ex 1 b 0 (PI / 2) H1 Hb) as X2.
  assert (HD : is_derive ellint_E m (RInt (fun t => Derive (fun u => sqrt (1 - u * sin t ^ 2)) m) 0 (PI / 2))).
  { apply (is_derive_RInt_param (fun u t => sqrt (1 - u * sin t ^ 2))).
    - apply (filter_imp (fun y => y < 1)); [|apply loc_lt1; auto]. intros y Hy t _. eexists. apply dE_point; auto.
    - intros t _. apply (continuity_2d_pt_ext_loc (fun u v => - sin v ^ 2 / (2 * sqrt (1 - u * sin v ^ 2)))).
      + assert (He : 0 < 1 - m) by lra. exists (mkposreal _ He). intros u v Hu _. simpl in Hu. symmetry. apply is_derive_unique, dE_point.
        apply Rabs_lt_between in Hu. lra.
      + pose proof (rad_pos m t Hm) as Hp. assert (HS : 0 < sqrt (1 - m * sin t ^ 2)) by (apply sqrt_lt_R0; auto).
        apply continuity_2d_pt_mult.
        * apply (continuity_1d_2d_pt_comp (fun v => - sin v ^ 2) (fun u v => v)); [|apply continuity_2d_pt_id2].
          apply derivable_continuous_pt. apply ex_derive_Reals_0. auto_derive. auto.
        * apply continuity_2d_pt_inv.
          -- apply (continuity_1d_2d_pt_comp (fun x => 2 * x) (fun u v => sqrt (1 - u * sin v ^ 2))); [|apply cont2_root; auto].
             apply derivable_continuous_pt. apply ex_derive_Reals_0. auto_derive. auto.
          -- lra.
    - apply (filter_imp (fun y => y < 1)); [|apply loc_lt1; auto]. intros y Hy. 
      apply (exI_ext (fun t => Dl 1 (sqrt (1 - y)) t)). intros x _. rewrite rad_Dl by auto. reflexivity. apply Dl_ex; auto. apply sqrt_lt_R0; lra. }
  replace ((ellint_E m - ellint_K m) / (2 * m)) with (RInt (fun t => Derive (fun u => sqrt (1 - u * sin t ^ 2)) m) 0 (PI / 2)); auto.
  rewrite K_GI, E_GJ by auto. fold b.
  rewrite (I_ext _ (fun t => 1 / (2 * m) * Dl 1 b t + (- (1 / (2 * m))) * (1 / Dl 1 b t))).
  - rewrite (I_plus (fun t => 1 / (2 * m) * Dl 1 b t) (fun t => (- (1 / (2 * m))) * (1 / Dl 1 b t))).
    2: apply (exI_scal (fun t => Dl 1 b t)); exact X1. 2: apply (exI_scal (fun t => 1 / Dl 1 b t)); exact X2.
    rewrite (I_scal (fun t => Dl 1 b t)) by exact X1. rewrite (I_scal (fun t => 1 / Dl 1 b t)) by exact X2. fold (GI 1 b). fold (GJ 1 b).
    apply Rminus_diag_uniq. field. lra.
  - intros t _. etransitivity; [exact (is_derive_unique _ _ _ (dE_point m t Hm))|]. rewrite rad_Dl by auto. fold b.
    pose proof (Dl_pos 1 b t H1 Hb) as HDp. pose proof (Dl_sq 1 b t H1 Hb) as HS. 
    assert (Hs : sin t ^ 2 = (1 - Dl 1 b t ^ 2) / m) by (rewrite HS; unfold Q2; rewrite Hb2, (sc1 t); field; lra).
    rewrite Hs. field. lra.
Qed.
Lemma int_sin2 : RInt (fun t => sin t ^ 2) 0 (PI / 2) = PI / 4.
Proof.
  apply I_unique. replace (PI / 4) with ((PI / 2 - sin (PI / 2) * cos (PI / 2)) / 2 - (0 - sin 0 * cos 0) / 2) by (rewrite cos_PI2, sin_0; field).
  apply (I_derive (fun t => (t - sin t * cos t) / 2)).
  - intros x _. auto_derive; auto. pose proof (sc1 x) as H. replace (cos x * cos x) with (1 - sin x ^ 2) by lra. simpl. nra.
  - intros x _. apply (ex_derive_continuous (V := R_NormedModule)). auto_derive. auto.
Qed.
Lemma K_derive_0 : is_derive ellint_K 0 (PI / 8).
Proof.
  assert (H : 0 < 1) by lra. pose proof (K_derive_int 0 H) as HD.
  replace (PI / 8) with (RInt (fun t => Derive (fun u => 1 / sqrt (1 - u * sin t ^ 2)) 0) 0 (PI / 2)); auto.
  rewrite (I_ext _ (fun t => 1 / 2 * sin t ^ 2)).
  - rewrite (I_scal (fun t => sin t ^ 2)). rewrite int_sin2. lra.
    apply exI_cont. intros x _. apply (ex_derive_continuous (V := R_NormedModule)). auto_derive. auto.
  - intros t _. etransitivity; [exact (is_derive_unique _ _ _ (dK_point 0 t H))|]. rewrite Rmult_0_l, Rminus_0_r, sqrt_1. field.
Qed.
(** at [m = 0] the integrals are differentiable, with derivatives PI/8 and -PI/8; the rule is 0/0 *)
Lemma tangent_zero k e md : ellipk_tangent k e 0 md = None /\ ellipe_tangent k e 0 md = None.
Proof.
  unfold ellipk_tangent, ellipe_tangent. rewrite Rmult_0_r, Rmult_0_l. destruct (Reqb_spec 0 0); [|congruence]. auto.
Qed.
