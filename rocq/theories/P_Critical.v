(** Critical curves and caustics of two and three lenses (C07). *)
From Coq Require Import Reals List Lra Lia Bool Arith ZArith Permutation.
From Coquelicot Require Import Complex.
From Verif Require Import Base_R Base_List Base_C M_Utils M_Coeffs M_PointSource S_PointSource S_Poly
  P_Utils P_Lens P_Poly P_PolyRoots P_PointSource P_Images P_Single.
Import ListNotations.
Local Open Scope R_scope.
Local Open Scope C_scope.

(** ** the polynomial *)
Definition kappa2 (a e1 : R) (z : C) : C := e1 / (z - a) ^ 2 + (1 - e1)%R / (z + a) ^ 2.
Definition kappa3 (a e1 e2 : R) (p3 z : C) : C := e1 / (z - a) ^ 2 + e2 / (z + a) ^ 2 + (1 - e1 - e2)%R / (z - p3) ^ 2.
Lemma kappa2_shear (a e1 : R) (z : C) : shear (binary_mid a e1) z = Cconj (kappa2 a e1 z).
Proof.
  unfold kappa2, binary_mid. rewrite !shear_cons. cbn [shear]. autorewrite with cconj. rewrite RtoC_opp.
  replace (Cconj z - - RtoC a) with (Cconj z + a) by ring. ring.
Qed.
Lemma kappa3_shear (a e1 e2 : R) (p3 z : C) : shear (triple_mid a e1 e2 p3) z = Cconj (kappa3 a e1 e2 p3 z).
Proof.
  unfold kappa3, triple_mid. rewrite !shear_cons. cbn [shear]. autorewrite with cconj. rewrite RtoC_opp.
  replace (Cconj z - - RtoC a) with (Cconj z + a) by ring. ring.
Qed.
Lemma crit2_id phi (a e1 : R) (z : C) : z - a <> 0 -> z + a <> 0 ->
  peval (poly_coeffs_critical_binary phi a e1) z = ((z - a) * (z + a)) ^ 2 * (cexpi (- phi) - kappa2 a e1 z).
Proof.
  intros H1 H2. unfold poly_coeffs_critical_binary, kappa2. cbn [peval length]. rewrite RtoC_minus. field. auto.
Qed.
Lemma crit3_id phi (a e1 e2 : R) (p3 z : C) : z - a <> 0 -> z + a <> 0 -> z - p3 <> 0 ->
  peval (poly_coeffs_critical_triple phi a p3 e1 e2) z
  = ((z - a) * (z + a) * (z - p3)) ^ 2 * (cexpi (- phi) - kappa3 a e1 e2 p3 z).
Proof.
  intros H1 H2 H3. unfold poly_coeffs_critical_triple, kappa3. cbn [peval length]. rewrite !RtoC_minus. field. auto.
Qed.
Lemma crit2_at_a phi (a e1 : R) : peval (poly_coeffs_critical_binary phi a e1) a = - (4) * a ^ 2 * e1.
Proof. unfold poly_coeffs_critical_binary. cbn [peval length]. ring. Qed.
Lemma crit2_at_ma phi (a e1 : R) : peval (poly_coeffs_critical_binary phi a e1) (- a) = - (4) * a ^ 2 * (1 - e1).
Proof. unfold poly_coeffs_critical_binary. cbn [peval length]. ring. Qed.
Lemma crit3_at_a phi (a e1 e2 : R) p3 : peval (poly_coeffs_critical_triple phi a p3 e1 e2) a = - e1 * (2 * a * (a - p3)) ^ 2.
Proof. unfold poly_coeffs_critical_triple. cbn [peval length]. ring. Qed.
Lemma crit3_at_ma phi (a e1 e2 : R) p3 : peval (poly_coeffs_critical_triple phi a p3 e1 e2) (- a) = - e2 * (2 * a * (a + p3)) ^ 2.
Proof. unfold poly_coeffs_critical_triple. cbn [peval length]. ring. Qed.
Lemma crit3_at_p3 phi (a e1 e2 : R) p3 : peval (poly_coeffs_critical_triple phi a p3 e1 e2) p3
  = - (1 - e1 - e2) * ((p3 - a) * (p3 + a)) ^ 2.
Proof. unfold poly_coeffs_critical_triple. cbn [peval length]. ring. Qed.

Lemma root_phase2 phi (a e1 : R) (z : C) : z - a <> 0 -> z + a <> 0 ->
  (peval (poly_coeffs_critical_binary phi a e1) z = 0 <-> shear (binary_mid a e1) z = cexpi phi).
Proof.
  intros H1 H2. rewrite crit2_id, kappa2_shear by auto. split; intros E.
  - apply Cmult_integral in E. destruct E as [E|E].
    + exfalso. revert E. apply Cpow_neq0. now apply Cmult_neq_0.
    + apply Cminus_eq_0 in E. rewrite <- E, Cconj_cexpi. now rewrite Ropp_involutive.
  - replace (kappa2 a e1 z) with (cexpi (- phi)). ring. rewrite <- (Cconj_conj (kappa2 _ _ _)), E. now rewrite Cconj_cexpi.
Qed.
Lemma root_phase3 phi (a e1 e2 : R) (p3 z : C) : z - a <> 0 -> z + a <> 0 -> z - p3 <> 0 ->
  (peval (poly_coeffs_critical_triple phi a p3 e1 e2) z = 0 <-> shear (triple_mid a e1 e2 p3) z = cexpi phi).
Proof.
  intros H1 H2 H3. rewrite crit3_id, kappa3_shear by auto. split; intros E.
  - apply Cmult_integral in E. destruct E as [E|E].
    + exfalso. revert E. apply Cpow_neq0. repeat apply Cmult_neq_0; auto.
    + apply Cminus_eq_0 in E. rewrite <- E, Cconj_cexpi. now rewrite Ropp_involutive.
  - replace (kappa3 a e1 e2 p3 z) with (cexpi (- phi)). ring. rewrite <- (Cconj_conj (kappa3 _ _ _ _ _)), E. now rewrite Cconj_cexpi.
Qed.
Lemma jac0_shear L z : off_masses L z -> (jacobian_det L z 0 <-> Cmod (shear L z) = 1%R).
Proof.
  intros H. pose proof (jac_det_shear L z H) as J. rewrite det_jac_of in J. split; intros E.
  - pose proof (jac_det_unique _ _ _ _ J E). pose proof (Cmod_ge_0 (shear L z)). nra.
  - rewrite E in J. replace 0%R with (1 - 1 * 1)%R by ring. exact J.
Qed.
(** critical points off the masses = roots for some phase *)
Lemma critical2_iff (a e1 : R) (z : C) : off_masses (binary_mid a e1) z ->
  ((exists phi, (- PI <= phi <= PI)%R /\ peval (poly_coeffs_critical_binary phi a e1) z = 0) <-> jacobian_det (binary_mid a e1) z 0).
Proof.
  intros H. rewrite jac0_shear by auto. pose proof (proj1 (off_binary _ _ _) H) as (H1 & H2). split.
  - intros (phi & _ & E). apply root_phase2 in E; auto. rewrite E. apply Cmod_cexpi.
  - intros E. destruct (unit_polar _ E) as (t & B & Et). exists t. split; auto. now apply root_phase2.
Qed.
Lemma critical3_iff (a e1 e2 : R) (p3 z : C) : off_masses (triple_mid a e1 e2 p3) z ->
  ((exists phi, (- PI <= phi <= PI)%R /\ peval (poly_coeffs_critical_triple phi a p3 e1 e2) z = 0) <-> jacobian_det (triple_mid a e1 e2 p3) z 0).
Proof.
  intros H. rewrite jac0_shear by auto. pose proof (proj1 (off_triple _ _ _ _ _) H) as (H1 & H2 & H3). split.
  - intros (phi & _ & E). apply root_phase3 in E; auto. rewrite E. apply Cmod_cexpi.
  - intros E. destruct (unit_polar _ E) as (t & B & Et). exists t. split; auto. now apply root_phase3.
Qed.

(** ** matched rows *)
Lemma match_scan_rows nb rows : forall carry, length carry = nb -> (forall r, In r rows -> length r = nb) ->
  length (match_scan carry rows) = length rows /\
  forall i, (i < length rows)%nat -> Permutation (nth i (match_scan carry rows) []) (nth i rows []).
Proof.
  induction rows as [|z t IH]; intros carry Hc Hr; simpl. split; auto; intros; lia.
  assert (Hz : length z = nb) by (apply Hr; now left).
  assert (P : Permutation (gather (RtoC 0) z (match_points carry z)) z) by (apply gather_perm, match_points_perm; congruence).
  destruct (IH (gather (RtoC 0) z (match_points carry z))) as (L & N).
  - rewrite (Permutation_length P). auto.
  - intros r Hin; apply Hr; now right.
  - split. auto. intros [|i] Hi; auto. apply N. lia.
Qed.
(** for every phase index, the values over the branches are a permutation of that phase's roots *)
Lemma crit_finish_spec nb lens xcm rows0 zcr zca : (forall r, In r rows0 -> length r = nb) ->
  crit_finish nb lens xcm rows0 = (zcr, zca) ->
  length zcr = nb /\ length zca = nb /\
  (forall b, (b < nb)%nat -> length (nth b zcr []) = length rows0 /\ length (nth b zca []) = length rows0) /\
  forall i, (i < length rows0)%nat -> exists col, Permutation col (nth i rows0 []) /\
    forall b, (b < nb)%nat -> nth i (nth b zcr []) (RtoC 0) = nth b col (RtoC 0) + xcm /\
       nth i (nth b zca []) (RtoC 0) = lens (nth b col (RtoC 0)) + xcm.
Proof.
  intros Hr E. unfold crit_finish in E. injection E as <- <-.
  set (rows := match_scan (nth 0 rows0 []) rows0).
  assert (M : length rows = length rows0 /\ forall i, (i < length rows0)%nat -> Permutation (nth i rows []) (nth i rows0 [])).
  { unfold rows. destruct rows0 as [|r0 t]. simpl. split; auto; intros; lia. apply (match_scan_rows nb); auto. apply Hr. now left. }
  destruct M as (ML & MP). unfold transpose.
  assert (Lb : forall b, (b < nb)%nat -> nth b (map (fun b0 : nat => map (fun row : list C => nth b0 row (RtoC 0)) rows) (seq 0 nb)) [] = map (fun row : list C => nth b row (RtoC 0)) rows).
  { intros b Hb. rewrite (nth_map_lt _ _ _ 0%nat) by now rewrite seq_length. now rewrite seq_nth. }
  repeat split.
  - now rewrite !map_length, seq_length.
  - now rewrite !map_length, seq_length.
  - rewrite (nth_map_lt _ _ _ []) by (rewrite !map_length, seq_length; auto). rewrite Lb by auto. now rewrite !map_length.
  - rewrite (nth_map_lt _ _ _ []) by (rewrite !map_length, seq_length; auto).
    rewrite (nth_map_lt _ _ _ []) by (rewrite !map_length, seq_length; auto). rewrite Lb by auto. now rewrite !map_length.
  - intros i Hi. exists (nth i rows []). split; auto. intros b Hb. split.
    + rewrite (nth_map_lt _ _ _ []) by (rewrite !map_length, seq_length; auto). rewrite Lb by auto.
      rewrite (nth_map_lt _ _ _ (RtoC 0)) by (rewrite map_length, ML; auto).
      rewrite (nth_map_lt _ _ _ []) by (rewrite ML; auto). reflexivity.
    + rewrite (nth_map_lt _ _ _ []) by (rewrite !map_length, seq_length; auto).
      rewrite (nth_map_lt _ _ _ []) by (rewrite !map_length, seq_length; auto). rewrite Lb by auto.
      rewrite (nth_map_lt _ _ _ (RtoC 0)) by (rewrite !map_length, ML; auto).
      rewrite (nth_map_lt _ _ _ (RtoC 0)) by (rewrite map_length, ML; auto).
      rewrite (nth_map_lt _ _ _ []) by (rewrite ML; auto). reflexivity.
Qed.

Lemma frame_crit L Lm (c : C) z : Permutation L (shift_lens c Lm) -> off_masses Lm z ->
  jacobian_det Lm z 0 -> jacobian_det L (z + c) 0 /\ off_masses L (z + c).
Proof.
  intros P Ho J. assert (Ho' : off_masses L (z + c)). { apply (frame_off _ _ c _ P). now replace (z + c - c) with z by ring. }
  split; auto. apply jac0_shear; auto. rewrite (frame_shear _ _ c _ P). replace (z + c - c) with z by ring.
  now apply jac0_shear.
Qed.

Lemma curves_generic L Lm nb npts (lens : C -> C) (xcm : R) (coeffs : R -> list C) (roots : R -> list C) :
  Permutation L (shift_lens (RtoC xcm) Lm) ->
  (forall z, lens z = lens_map Lm z) ->
  (forall t, length (roots t) = nb) ->
  (forall t z, In z (roots t) <-> (off_masses Lm z /\ shear Lm z = cexpi t)) ->
  curves_correct L npts nb (crit_finish nb lens xcm (map roots (linspace (- PI) PI npts))).
Proof.
  intros P HL Hlen Hroot. destruct (crit_finish nb lens xcm (map roots (linspace (- PI) PI npts))) as (zcr, zca) eqn:E.
  apply crit_finish_spec in E. 2:{ intros r Hr. apply in_map_iff in Hr. destruct Hr as (t & <- & _). auto. }
  rewrite !map_length, linspace_length in E. destruct E as (L1 & L2 & L3 & H). unfold curves_correct.
  assert (Row : forall i, (i < npts)%nat -> nth i (map roots (linspace (- PI) PI npts)) [] = roots (- PI + INR i * (2 * PI / INR (npts - 1)))%R).
  { intros i Hi. rewrite (nth_map_lt _ _ _ 0%R) by now rewrite linspace_length. rewrite linspace_nth by auto. f_equal. f_equal. f_equal. f_equal. ring. }
  split; auto. split; auto. split; auto. split.
  - intros b i Hb Hi. destruct (H i Hi) as (col & Pc & Hcol). rewrite Row in Pc by auto. destruct (Hcol b Hb) as (E1 & E2).
    cbv zeta. rewrite E1, E2.
    assert (Hin : In (nth b col (RtoC 0)) (roots (- PI + INR i * (2 * PI / INR (npts - 1)))%R)).
    { apply (Permutation_in _ Pc). apply nth_In. rewrite (Permutation_length Pc), Hlen. auto. }
    apply Hroot in Hin. destruct Hin as (Ho & Hs).
    assert (J : jacobian_det Lm (nth b col (RtoC 0)) 0). { apply jac0_shear; auto. rewrite Hs. apply Cmod_cexpi. }
    destruct (frame_crit L Lm (RtoC xcm) _ P Ho J) as (J' & Ho'). split; auto. split; auto.
    rewrite (frame_lens _ _ (RtoC xcm) _ P), HL. f_equal. f_equal. ring.
  - intros i z Hi Ho J Hs. destruct (H i Hi) as (col & Pc & Hcol). rewrite Row in Pc by auto.
    assert (Hin : In (z - RtoC xcm) (roots (- PI + INR i * (2 * PI / INR (npts - 1)))%R)).
    { apply Hroot. split. now apply (frame_off _ _ _ _ P). now rewrite <- (frame_shear _ _ _ _ P). }
    apply (Permutation_in _ (Permutation_sym Pc)) in Hin. destruct (In_nth _ _ (RtoC 0) Hin) as (b & Hb & Eb).
    rewrite (Permutation_length Pc), Hlen in Hb. exists b. split; auto. destruct (Hcol b Hb) as (E1 & _). rewrite E1, Eb. ring.
Qed.

Lemma crit_binary_api poly_roots p npts s q : s <> 0%R -> (0 < q)%R -> p_s p = Some s -> p_q p = Some q ->
  (forall phi, let cs := poly_coeffs_critical_binary phi (0.5 * s) (q / (1 + q)) in splits cs (poly_roots cs None)) ->
  exists r, critical_and_caustic_curves poly_roots npts 2 p = Ok r /\ curves_correct (binary_lens s q) npts 4 r.
Proof.
  intros Hs Hq Es Eq Hsol. unfold critical_and_caustic_curves; simpl. rewrite Es, Eq. simpl. eexists. split; [reflexivity|].
  set (a := (0.5 * s)%R) in *. set (e1 := (q / (1 + q))%R) in *.
  assert (Ha : a <> 0%R) by (unfold a; lra).
  assert (He : (0 < e1 < 1)%R). { unfold e1. split. apply Rdiv_lt_0_compat; lra. apply (Rmult_lt_reg_r (1 + q)); [lra|].
    replace (q / (1 + q) * (1 + q))%R with q by (field; lra). lra. }
  assert (Hd : forall t, hd (RtoC 0) (poly_coeffs_critical_binary t a e1) <> 0) by (intros; simpl; apply cexpi_neq0).
  apply (curves_generic _ (binary_mid a e1) _ _ _ _ (fun t => poly_coeffs_critical_binary t a e1) (fun t => poly_roots (poly_coeffs_critical_binary t a e1) None)).
  - apply (binary_frame s q). lra.
  - intros z. apply lens_eq2_map.
  - intros t. rewrite (splits_length _ _ (Hd t) (Hsol t)). reflexivity.
  - intros t z. rewrite <- (splits_root _ _ z (Hsol t) (Hd t)). split.
    + intros E. assert (Ho : off_masses (binary_mid a e1) z).
      { apply off_binary. split; intros E'.
        - assert (z = RtoC a) as -> by now apply Cminus_eq_0. cbv zeta in E. rewrite crit2_at_a in E. revert E.
          rewrite <- RtoC_pow. apply Cmult_neq_0; [|apply RtoC_neq0; lra].
          replace (- (4) * RtoC (a ^ 2)) with (RtoC (- 4 * a ^ 2)) by (rewrite RtoC_mult; f_equal; apply RtoC_opp). apply RtoC_neq0.
          assert (0 < a ^ 2)%R by nra. lra.
        - assert (z = - RtoC a) as -> by (apply Cminus_eq_0; rewrite <- E'; ring). cbv zeta in E. rewrite crit2_at_ma in E. revert E.
          rewrite <- RtoC_pow, <- RtoC_minus. apply Cmult_neq_0; [|apply RtoC_neq0; lra].
          replace (- (4) * RtoC (a ^ 2)) with (RtoC (- 4 * a ^ 2)) by (rewrite RtoC_mult; f_equal; apply RtoC_opp). apply RtoC_neq0.
          assert (0 < a ^ 2)%R by nra. lra. }
      split; auto. apply off_binary in Ho. destruct Ho. now apply root_phase2.
    + intros (Ho & E). apply off_binary in Ho. destruct Ho. now apply root_phase2.
Qed.
Lemma crit_triple_api poly_roots p npts s q q3 r3 psi : let p3 := from_midpoint s q r3 psi in
  s <> 0%R -> (0 < q)%R -> (0 < q3)%R ->
  p3 <> RtoC (- s * q / (1 + q)) -> p3 <> RtoC (s / (1 + q)) ->
  p_s p = Some s -> p_q p = Some q -> p_q3 p = Some q3 -> p_r3 p = Some r3 -> p_psi p = Some psi ->
  (forall phi, let cs := poly_coeffs_critical_triple phi (0.5 * s) (third_lens r3 psi) (q / (1 + q + q3)) (1 / (1 + q + q3)) in splits cs (poly_roots cs None)) ->
  exists r, critical_and_caustic_curves poly_roots npts 3 p = Ok r /\ curves_correct (triple_lens s q q3 p3) npts 6 r.
Proof.
  intros p3u Hs Hq Hq3 Hp Hp' Es Eq Eq3 Er Ep Hsol. unfold critical_and_caustic_curves; simpl. rewrite Es, Eq, Eq3, Er, Ep. simpl.
  eexists. split; [reflexivity|].
  pose proof (te q q3 Hq Hq3) as (E1 & E2 & E3). pose proof (ta s Hs) as Ha. pose proof (tp3 s q r3 psi Hq Hp Hp') as (P1 & P2).
  set (a := (0.5 * s)%R) in *. set (e1 := (q / (1 + q + q3))%R) in *. set (e2 := (1 / (1 + q + q3))%R) in *. set (p3 := third_lens r3 psi) in *.
  assert (Hd : forall t, hd (RtoC 0) (poly_coeffs_critical_triple t a p3 e1 e2) <> 0) by (intros; simpl; apply cexpi_neq0).
  assert (N2 : RtoC 2 * a <> 0) by (rewrite <- RtoC_mult; apply RtoC_neq0; lra).
  apply (curves_generic _ (triple_mid a e1 e2 p3) _ _ _ _ (fun t => poly_coeffs_critical_triple t a p3 e1 e2) (fun t => poly_roots (poly_coeffs_critical_triple t a p3 e1 e2) None)).
  - unfold p3u. rewrite from_midpoint_value by lra. apply triple_frame; lra.
  - intros z. apply lens_eq3_map.
  - intros t. rewrite (splits_length _ _ (Hd t) (Hsol t)). reflexivity.
  - intros t z. rewrite <- (splits_root _ _ z (Hsol t) (Hd t)). split.
    + intros E. assert (Ho : off_masses (triple_mid a e1 e2 p3) z).
      { apply off_triple. repeat split; intros E'.
        - assert (z = RtoC a) as -> by now apply Cminus_eq_0. cbv zeta in E. rewrite crit3_at_a in E. revert E.
          apply Cmult_neq_0. apply Copp_neq0, RtoC_neq0; lra. apply Cpow_neq0. apply Cmult_neq_0; auto. now apply neq_sym.
        - assert (z = - RtoC a) as -> by (apply Cminus_eq_0; rewrite <- E'; ring). cbv zeta in E. rewrite crit3_at_ma in E. revert E.
          apply Cmult_neq_0. apply Copp_neq0, RtoC_neq0; lra. apply Cpow_neq0. apply Cmult_neq_0; auto. now rewrite Cplus_comm.
        - assert (z = p3) as -> by now apply Cminus_eq_0. cbv zeta in E. rewrite crit3_at_p3 in E. revert E.
          apply Cmult_neq_0. rewrite <- !RtoC_minus. apply Copp_neq0, RtoC_neq0; lra. apply Cpow_neq0. now apply Cmult_neq_0. }
      split; auto. apply off_triple in Ho. destruct Ho as (A & B & D). now apply root_phase3.
    + intros (Ho & E). apply off_triple in Ho. destruct Ho as (A & B & D). now apply root_phase3.
Qed.
