(** The FFTLog kernels as ratios of gamma functions (C70). *)
From Coq Require Import Reals Lra Lia Arith List Bool.
From Coquelicot Require Import Complex.
From Verif Require Import Base_R Base_C M_Fftlog M_Kernels P_Kernels S_Gamma P_Stirling P_Gamma P_Sine.
Local Open Scope R_scope.

Lemma ratio_err (vp vm gp gm : C) e : 0 <= e <= 1 / 2 -> gm <> RtoC 0 -> vm <> RtoC 0 -> Cmod (vp - gp)%C <= e * Cmod gp -> Cmod (vm - gm)%C <= e * Cmod gm ->
  Cmod (vp * / vm - gp / gm)%C <= 2 * e / (1 - e) * Cmod (gp / gm)%C.
Proof.
  intros He H1 H2 P M. pose proof (proj1 (Cmod_gt_0 gm) H1) as G1. pose proof (proj1 (Cmod_gt_0 vm) H2) as G2. pose proof (Cmod_ge_0 gp) as G3.
  assert (L : (1 - e) * Cmod gm <= Cmod vm). { pose proof (Cmod_triangle (gm - vm)%C vm) as T. replace (gm - vm + vm)%C with gm in T by ring. replace (Cmod (gm - vm)%C) with (Cmod (vm - gm)%C) in T; [lra|]. rewrite <- Cmod_opp. f_equal. ring. }
  replace (vp * / vm - gp / gm)%C with (((vp - gp) * gm - gp * (vm - gm)) / (vm * gm))%C by (field; auto).
  rewrite !Cmod_div, Cmod_mult by (auto; apply Cmult_neq_0; auto).
  assert (N : Cmod ((vp - gp) * gm - gp * (vm - gm))%C <= 2 * e * (Cmod gp * Cmod gm)). { eapply Rle_trans; [apply Cmod_sub_le; apply Rle_refl|]. rewrite !Cmod_mult. pose proof (Rmult_le_compat_r _ _ _ (Rlt_le _ _ G1) P). pose proof (Rmult_le_compat_l _ _ _ G3 M). lra. }
  replace (2 * e / (1 - e) * (Cmod gp / Cmod gm)) with (2 * e * (Cmod gp * Cmod gm) / ((1 - e) * Cmod gm * Cmod gm)) by (field; lra).
  unfold Rdiv. apply Rmult_le_compat; auto; [apply Cmod_ge_0| |].
  - left. apply Rinv_0_lt_compat. apply Rmult_lt_0_compat; auto.
  - apply Rinv_le_contravar; [repeat apply Rmult_lt_0_compat; lra|]. apply Rmult_le_compat_r; lra.
Qed.
Definition gamma_ratio (a b : C) (e : R) (v : C) : Prop :=
  exists ga gb, is_Gamma a ga /\ is_Gamma b gb /\ ga <> RtoC 0 /\ gb <> RtoC 0 /\ Cmod (v - ga / gb)%C <= e * Cmod (ga / gb)%C.
Lemma right_off (a : C) : 0 < Re a -> off_lines a.
Proof. intros H n E. pose proof (pos_INR n). lra. Qed.
Lemma near_ratio (a b : C) : off_lines a -> off_lines b ->
  exists v, cbind (gamma_ a) (fun gp => cbind (gamma_ b) (fun gm => cbind (cinv gm) (fun i => Some (gp * i)%C))) = Some v /\ gamma_ratio a b 4.5e-11 v.
Proof.
  intros Ha Hb. destruct (gamma_accuracy_off a Ha) as (ga & va & A1 & A2 & A3 & A4). destruct (gamma_accuracy_off b Hb) as (gb & vb & B1 & B2 & B3 & B4).
  pose proof (near_neq0 vb gb 2.2e-11 ltac:(lra) B3 B4) as N. exists (va * / vb)%C. rewrite A2, B2. cbn [cbind]. rewrite (cinv_some _ N). cbn [cbind]. split; auto.
  exists ga, gb. repeat split; auto. eapply Rle_trans; [eapply (ratio_err va vb ga gb 2.2e-11); auto; lra|]. apply Rmult_le_compat_r; [apply Cmod_ge_0|lra].
Qed.
Lemma far_ratio (a b : C) : 0 < Re a -> 0 < Re b -> 70 <= Cmod a -> 70 <= Cmod b -> gamma_ratio a b 4.5e-11 (cexp (stir gs_3 a - stir gs_3 b)%C).
Proof.
  intros Ha Hb Fa Fb. destruct (far_gamma a Ha Fa) as (da & A1 & A2). destruct (far_gamma b Hb Fb) as (db & B1 & B2).
  exists (cexp (stir gs_3 a + da)%C), (cexp (stir gs_3 b + db)%C). repeat split; auto; try apply cexp_neq0.
  eapply Rle_trans; [apply (rel_err (stir gs_3 a - stir gs_3 b)%C (da - db)%C (RtoC 1) _ _ 3e-12)| ].
  - field. apply C1_neq0.
  - unfold Cdiv at 1. rewrite <- cexp_opp, <- cexp_plus. replace (stir gs_3 a + da + - (stir gs_3 b + db))%C with (stir gs_3 a - stir gs_3 b + (da - db))%C by ring. field. apply C1_neq0.
  - eapply Rle_trans; [apply Cmod_sub_le; apply Rle_refl|]. lra.
  - lra.
  - apply Rmult_le_compat_r; [apply Cmod_ge_0|lra].
Qed.
Lemma stirling_ratio_val (ap am q : C) : 0 < Re ap -> 0 < Re am -> (ap - am)%C = q -> stirling_ratio ap am q = Some (cexp (stir gs_3 ap - stir gs_3 am)%C).
Proof.
  intros Ha Hb E. pose proof (Re_pos_neq0 _ Ha) as N1. pose proof (Re_pos_neq0 _ Hb) as N2. unfold stirling_ratio. rewrite !clog_clogp by auto. cbn [cbind]. do 2 f_equal. unfold stir, gs_3, coeff. rewrite half, <- E.
  rewrite !RtoC_div by lra. field. repeat split; auto; apply RtoC_neq0; lra.
Qed.
Lemma Cmod_ge_Im (z : C) : Rabs (Im z) <= Cmod z.
Proof. pose proof (Rmax_Cmod z) as H. unfold Rmax in H. change (snd z) with (Im z) in H. destruct Rle_dec; lra. Qed.
Lemma half_Re (z : C) : Re (z / RtoC 2)%C = Re z / 2.
Proof. unfold Cdiv. rewrite <- RtoC_inv by lra. destruct z as [x y]. unfold Cmult, RtoC, Re, Im. cbn [fst snd]. field. Qed.
Lemma half_Im (z : C) : Im (z / RtoC 2)%C = Im z / 2.
Proof. unfold Cdiv. rewrite <- RtoC_inv by lra. destruct z as [x y]. unfold Cmult, RtoC, Re, Im. cbn [fst snd]. field. Qed.
Lemma far_half (w : C) : 198.5 <= Rabs (Re w) + Rabs (Im w) -> 70 <= Cmod (w / RtoC 2)%C.
Proof.
  intros H. pose proof (Cmod_sq (w / RtoC 2)%C) as Q. change (fst (w / RtoC 2)%C) with (Re (w / RtoC 2)%C) in Q. change (snd (w / RtoC 2)%C) with (Im (w / RtoC 2)%C) in Q. rewrite half_Re, half_Im in Q. pose proof (Cmod_ge_0 (w / RtoC 2)%C).
  assert (A : Re w * Re w = Rabs (Re w) * Rabs (Re w)) by (rewrite <- Rabs_mult; symmetry; apply Rabs_pos_eq; nra). assert (B : Im w * Im w = Rabs (Im w) * Rabs (Im w)) by (rewrite <- Rabs_mult; symmetry; apply Rabs_pos_eq; nra).
  pose proof (Rabs_pos (Re w)). pose proof (Rabs_pos (Im w)). assert (0 <= (Rabs (Re w) - Rabs (Im w)) * (Rabs (Re w) - Rabs (Im w))) by apply Rle_0_sqr. nra.
Qed.
Lemma g_m_accuracy mu (q : C) : off_lines ((RtoC (mu + 1) + q) / RtoC 2)%C -> off_lines ((RtoC (mu + 1) - q) / RtoC 2)%C -> Rabs (Im q) + Rabs mu <= 200 \/ (0 <= mu /\ Rabs (Re q) <= 2.5 /\ Rabs (Re q) < mu + 1) ->
  exists v, g_m_vals gamma_ mu q = Some v /\ gamma_ratio ((RtoC (mu + 1) + q) / RtoC 2)%C ((RtoC (mu + 1) - q) / RtoC 2)%C 4.5e-11 v.
Proof.
  intros O1 O2 Hor.
  assert (E1 : Re (RtoC (mu + 1) + q)%C = mu + 1 + Re q) by reflexivity. assert (E2 : Re (RtoC (mu + 1) - q)%C = mu + 1 - Re q) by reflexivity.
  assert (E3 : Im (RtoC (mu + 1) + q)%C = Im q) by (change (0 + Im q = Im q); ring). assert (E4 : Im (RtoC (mu + 1) - q)%C = - Im q) by (change (0 + - Im q = - Im q); ring).
  unfold g_m_vals. cbv zeta. destruct (Reqb_spec (Re q) (mu + 1)) as [E|E]; [exfalso; apply (O2 0%nat); rewrite half_Re, E2, E; simpl; lra|]. cbn [andb]. destruct (Rltb_spec 200 (Rabs (Im q) + Rabs mu)) as [F|F]; [|apply near_ratio; auto].
  destruct Hor as [Hor|(Hm & Hx & Hy)]; [lra|]. pose proof (Rabs_def2 _ _ Hy) as Y. assert (X : - 2.5 <= Re q <= 2.5) by (unfold Rabs in Hx; destruct (Rcase_abs (Re q)); lra).
  assert (P1 : 0 < Re ((RtoC (mu + 1) + q) / RtoC 2)%C) by (rewrite half_Re, E1; lra). assert (P2 : 0 < Re ((RtoC (mu + 1) - q) / RtoC 2)%C) by (rewrite half_Re, E2; lra).
  exists (cexp (stir gs_3 ((RtoC (mu + 1) + q) / RtoC 2) - stir gs_3 ((RtoC (mu + 1) - q) / RtoC 2))%C). split.
  - apply stirling_ratio_val; auto. field. apply RtoC_neq0. lra.
  - rewrite (Rabs_pos_eq mu) in F by auto. apply far_ratio; auto; apply far_half.
    + rewrite E1, E3, Rabs_pos_eq by lra. lra.
    + rewrite E2, E4, Rabs_Ropp, Rabs_pos_eq by lra. lra.
Qed.
Lemma g_ratio_accuracy (a : C) : off_lines a -> off_lines (a + RtoC 1 / RtoC 2)%C -> Rabs (Im a) <= 100 \/ 0 < Re a -> exists v, g_m_ratio gamma_ a = Some v /\ gamma_ratio a (a + RtoC 1 / RtoC 2)%C 4.5e-11 v.
Proof.
  intros O1 O2 Hor. unfold g_m_ratio. cbv zeta. rewrite half. destruct (Rltb_spec 100 (Rabs (Im a))) as [F|F]; [|apply near_ratio; auto].
  destruct Hor as [Hor|H]; [lra|]. assert (H2 : 0 < Re (a + RtoC 1 / RtoC 2)%C). { rewrite <- half. change (0 < Re a + 0.5). lra. }
  exists (cexp (stir gs_3 a - stir gs_3 (a + RtoC 1 / RtoC 2))%C). split.
  - rewrite !clog_clogp by auto. cbn [cbind]. do 2 f_equal. pose proof (Re_pos_neq0 _ H). pose proof (Re_pos_neq0 _ H2). unfold stir, gs_3, coeff. set (b := (a + RtoC 1 / RtoC 2)%C) in *. rewrite !RtoC_div by lra.
    assert (E : a = (b - RtoC 1 / RtoC 2)%C) by (unfold b; ring). transitivity ((a - RtoC 1 / RtoC 2) * clogp a - (b - RtoC 1 / RtoC 2) * clogp b + (b - a) + gs_3 a - gs_3 b)%C.
    + rewrite <- E. replace (b - a)%C with (RtoC 1 / RtoC 2)%C by (unfold b; ring). unfold gs_3. field. repeat split; auto; apply RtoC_neq0; lra.
    + unfold gs_3. ring.
  - apply far_ratio; auto.
    + pose proof (Cmod_ge_Im a). lra.
    + pose proof (Cmod_ge_Im (a + RtoC 1 / RtoC 2)%C) as Q. rewrite <- half in Q at 1. change (Im (a + RtoC 0.5)%C) with (Im a + 0) in Q. rewrite Rplus_0_r in Q. lra.
Qed.
Lemma cpow2_rpow z : cpow2 z = rpow 2 z.
Proof. unfold cpow2, rpow, cexpi, Rpower, Cmult, RtoC. cbn [fst snd]. f_equal; ring. Qed.
Lemma scale_err (c v g : C) e : Cmod (v - g)%C <= e * Cmod g -> Cmod (c * v - c * g)%C <= e * Cmod (c * g)%C.
Proof.
  intros H. replace (c * v - c * g)%C with (c * (v - g))%C by ring. rewrite !Cmod_mult. pose proof (Rmult_le_compat_l _ _ _ (Cmod_ge_0 c) H). lra.
Qed.
Lemma prod_err (v w g h : C) e : 0 <= e -> Cmod (v - g)%C <= e * Cmod g -> Cmod (w - h)%C <= e * Cmod h -> Cmod (v * w - g * h)%C <= (2 * e + e * e) * Cmod (g * h)%C.
Proof.
  intros He H1 H2. replace (v * w - g * h)%C with (g * (w - h) + (v - g) * h + (v - g) * (w - h))%C by ring. pose proof (Cmod_ge_0 g). pose proof (Cmod_ge_0 h). pose proof (Cmod_ge_0 (v - g)%C). pose proof (Cmod_ge_0 (w - h)%C).
  eapply Rle_trans; [apply Cmod_add_le; [apply Cmod_add_le; apply Rle_refl|apply Rle_refl]|]. rewrite !Cmod_mult.
  pose proof (Rmult_le_compat_l _ _ _ H H2). pose proof (Rmult_le_compat_r _ _ _ H0 H1). pose proof (Rmult_le_compat _ _ _ _ H3 H4 H1 H2). nra.
Qed.
Lemma by_scale (c a b v : C) e : gamma_ratio a b e v -> e <= 1e-10 -> gamma_ratio_by c a b 1e-10 (c * v)%C.
Proof.
  intros (ga & gb & A & B & Na & Nb & H) He. exists ga, gb. repeat split; auto. eapply Rle_trans; [apply scale_err, H|]. apply Rmult_le_compat_r; [apply Cmod_ge_0|auto].
Qed.
(** [1.5], [2.5], [3.5] as half of an integer *)
Lemma arg_p l h (z : C) : ((RtoC (l + 0.5 + 1) + (z - RtoC h)) / RtoC 2)%C = ((RtoC (l - (h - 1.5)) + z) / RtoC 2)%C.
Proof. f_equal. replace (l - (h - 1.5)) with (l + 0.5 + 1 - h) by lra. rewrite (RtoC_minus (l + 0.5 + 1) h). ring. Qed.
Lemma arg_m l h (z : C) : ((RtoC (l + 0.5 + 1) - (z - RtoC h)) / RtoC 2)%C = ((RtoC (l + (h + 1.5)) - z) / RtoC 2)%C.
Proof. f_equal. replace (l + (h + 1.5)) with (l + 0.5 + 1 + h) by lra. rewrite (RtoC_plus (l + 0.5 + 1) h). ring. Qed.

(** the three kernels of one Bessel function: [h] is 1.5, 2.5 or 3.5 *)
Lemma g_m_h l h (z : C) (c : C) : off_lines ((RtoC (l - (h - 1.5)) + z) / RtoC 2)%C -> off_lines ((RtoC (l + (h + 1.5)) - z) / RtoC 2)%C -> kernel_range l h z ->
  exists v, g_m_vals gamma_ (l + 0.5) (z - RtoC h)%C = Some v /\ gamma_ratio_by c ((RtoC (l - (h - 1.5)) + z) / RtoC 2)%C ((RtoC (l + (h + 1.5)) - z) / RtoC 2)%C 1e-10 (c * v)%C.
Proof.
  intros O1 O2 R. destruct (g_m_accuracy (l + 0.5) (z - RtoC h)%C) as (v & V1 & V2).
  - rewrite arg_p. exact O1.
  - rewrite arg_m. exact O2.
  - change (Re (z - RtoC h)%C) with (Re z - h). replace (Im (z - RtoC h)%C) with (Im z) by (change (Im z = Im z + - 0); ring). destruct R as [R|(R1 & R2 & R3)]; [left|right; repeat split; lra]. replace (l + 0.5) with (l + 1 / 2) by lra. exact R.
  - exists v. split; auto. apply by_scale with (e := 4.5e-11); [|lra]. rewrite <- arg_p, <- arg_m. exact V2.
Qed.
Lemma g_l_accuracy l (z : C) : off_lines ((RtoC l + z) / RtoC 2)%C -> off_lines ((RtoC (3 + l) - z) / RtoC 2)%C -> kernel_range l 1.5 z ->
  exists v, g_l gamma_ l z = Some v /\ gamma_ratio_by (rpow 2 z) ((RtoC l + z) / RtoC 2)%C ((RtoC (3 + l) - z) / RtoC 2)%C 1e-10 v.
Proof.
  intros O1 O2 R. assert (E1 : l = l - (1.5 - 1.5)) by lra. assert (E2 : 3 + l = l + (1.5 + 1.5)) by lra. rewrite E1 in O1. rewrite E2 in O2. destruct (g_m_h l 1.5 z (rpow 2 z) O1 O2 R) as (v & V1 & V2). rewrite <- E1, <- E2 in V2.
  exists (rpow 2 z * v)%C. split; auto. unfold g_l. rewrite V1. cbn [cbind]. rewrite cpow2_rpow. reflexivity.
Qed.
Lemma g_l_1_accuracy l (z : C) : off_lines ((RtoC (l - 1) + z) / RtoC 2)%C -> off_lines ((RtoC (4 + l) - z) / RtoC 2)%C -> kernel_range l 2.5 z ->
  exists v, g_l_1 gamma_ l z = Some v /\ gamma_ratio_by (- rpow 2 (z - RtoC 1) * (z - RtoC 1))%C ((RtoC (l - 1) + z) / RtoC 2)%C ((RtoC (4 + l) - z) / RtoC 2)%C 1e-10 v.
Proof.
  intros O1 O2 R. assert (E1 : l - 1 = l - (2.5 - 1.5)) by lra. assert (E2 : 4 + l = l + (2.5 + 1.5)) by lra. rewrite E1 in O1. rewrite E2 in O2. destruct (g_m_h l 2.5 z (- rpow 2 (z - RtoC 1) * (z - RtoC 1))%C O1 O2 R) as (v & V1 & V2). rewrite <- E1, <- E2 in V2.
  eexists. split; [|exact V2]. unfold g_l_1. rewrite V1. cbn [cbind]. rewrite cpow2_rpow. reflexivity.
Qed.
Lemma g_l_2_accuracy l (z : C) : off_lines ((RtoC (l - 2) + z) / RtoC 2)%C -> off_lines ((RtoC (5 + l) - z) / RtoC 2)%C -> kernel_range l 3.5 z ->
  exists v, g_l_2 gamma_ l z = Some v /\ gamma_ratio_by (rpow 2 (z - RtoC 2) * (z - RtoC 1) * (z - RtoC 2))%C ((RtoC (l - 2) + z) / RtoC 2)%C ((RtoC (5 + l) - z) / RtoC 2)%C 1e-10 v.
Proof.
  intros O1 O2 R. assert (E1 : l - 2 = l - (3.5 - 1.5)) by lra. assert (E2 : 5 + l = l + (3.5 + 1.5)) by lra. rewrite E1 in O1. rewrite E2 in O2. destruct (g_m_h l 3.5 z (rpow 2 (z - RtoC 2) * (z - RtoC 1) * (z - RtoC 2))%C O1 O2 R) as (v & V1 & V2). rewrite <- E1, <- E2 in V2.
  eexists. split; [|exact V2]. unfold g_l_2. rewrite V1. cbn [cbind]. rewrite cpow2_rpow. reflexivity.
Qed.
Lemma h_l_accuracy l (z : C) : off_lines (RtoC l + z / RtoC 2)%C -> off_lines (RtoC (2 + l) - z / RtoC 2)%C -> off_lines ((RtoC 2 - z) / RtoC 2)%C -> off_lines ((RtoC 3 - z) / RtoC 2)%C ->
  Rabs (Im z) + Rabs (2 * l + 1) <= 200 \/ (- 1 / 2 <= l /\ - 1 / 2 <= Re z < 2 /\ - 2 * l < Re z) ->
  exists v g1 g2 g3 g4, h_l gamma_ l z = Some v /\ is_Gamma (RtoC l + z / RtoC 2)%C g1 /\ is_Gamma ((RtoC 2 - z) / RtoC 2)%C g2 /\ is_Gamma ((RtoC 3 - z) / RtoC 2)%C g3 /\ is_Gamma (RtoC (2 + l) - z / RtoC 2)%C g4
    /\ g3 <> RtoC 0 /\ g4 <> RtoC 0 /\ Cmod (v - g1 * g2 / g3 / g4)%C <= 1e-10 * Cmod (g1 * g2 / g3 / g4)%C.
Proof.
  intros O1 O2 O3 O4 R. assert (N2 : RtoC 2 <> RtoC 0) by (apply RtoC_neq0; lra).
  assert (E1 : ((RtoC (2 * l + 1 + 1) + (z - RtoC 2)) / RtoC 2)%C = (RtoC l + z / RtoC 2)%C). { replace (2 * l + 1 + 1) with (2 * l + 2) by ring. rewrite RtoC_plus, RtoC_mult. field. auto. }
  assert (E2 : ((RtoC (2 * l + 1 + 1) - (z - RtoC 2)) / RtoC 2)%C = (RtoC (2 + l) - z / RtoC 2)%C). { replace (2 * l + 1 + 1) with (2 * l + 2) by ring. rewrite !RtoC_plus, RtoC_mult. field. auto. }
  assert (E3 : ((RtoC 2 - z) / RtoC 2 + RtoC 1 / RtoC 2)%C = ((RtoC 3 - z) / RtoC 2)%C). { replace (RtoC 3) with (RtoC 2 + RtoC 1)%C by (rewrite <- RtoC_plus; f_equal; ring). field. auto. }
  assert (I : Im (z - RtoC 2)%C = Im z) by (change (Im z + - 0 = Im z); ring). assert (I2 : Im (RtoC 2 - z)%C = - Im z) by (change (0 + - Im z = - Im z); ring).
  destruct (g_m_accuracy (2 * l + 1) (z - RtoC 2)%C) as (v & V1 & (g1 & g4 & A1 & A4 & _ & N4 & AE)); [rewrite E1; auto|rewrite E2; auto| |].
  { rewrite I. change (Re (z - RtoC 2)%C) with (Re z - 2). destruct R as [R|(R1 & R2 & R3)]; [left; auto|right]. repeat split; [lra|apply Rabs_le; lra|apply Rabs_def1; lra]. }
  destruct (g_ratio_accuracy ((RtoC 2 - z) / RtoC 2)%C) as (w & W1 & (g2 & g3 & B2 & B3 & _ & N3 & BE)); [auto|rewrite E3; auto| |].
  { rewrite half_Re, half_Im, I2. change (Re (RtoC 2 - z)%C) with (2 - Re z). destruct R as [R|(R1 & R2 & R3)]; [left|right; lra]. pose proof (Rabs_pos (2 * l + 1)). unfold Rdiv. rewrite Rabs_mult, Rabs_Ropp, (Rabs_pos_eq (/ 2)) by lra. lra. }
  rewrite E1 in A1. rewrite E2 in A4. rewrite E3 in B3. exists (v * w)%C, g1, g2, g3, g4. repeat split; auto.
  - unfold h_l. rewrite V1. cbn [cbind]. rewrite W1. reflexivity.
  - replace (g1 * g2 / g3 / g4)%C with (g1 / g4 * (g2 / g3))%C by (field; auto). eapply Rle_trans; [apply (prod_err _ _ _ _ 4.5e-11); auto; lra|]. apply Rmult_le_compat_r; [apply Cmod_ge_0|lra].
Qed.

(** ** the functional equation and integers *)
Lemma rpow_succ a z : 0 < a -> rpow a (z + RtoC 1)%C = (rpow a z * RtoC a)%C.
Proof. intros H. rewrite <- rpow_plus, rpow_1 by auto. reflexivity. Qed.
Lemma rising_succ z n : (z * rising n (z + RtoC 1) = rising n z * (z + RtoC (INR (S n))))%C.
Proof.
  induction n; [cbn [rising]; simpl INR; ring|]. cbn [rising]. rewrite Cmult_assoc, IHn. rewrite (S_INR (S n)), RtoC_plus. ring.
Qed.
Lemma is_Gamma_step (z g : C) : (forall k, z <> RtoC (- INR k)) -> is_Gamma z g -> is_Gamma (z + RtoC 1)%C (z * g)%C.
Proof.
  intros Hz H. pose proof (clim_mult _ _ _ _ (clim_mult _ _ _ _ (clim_const z) H) (inv_far (z + RtoC 1)%C)) as L. rewrite Cmult_1_r in L.
  refine (clim_ext_from _ _ _ 1%nat _ L). intros n Hn. unfold gauss. assert (0 < INR n) by (apply lt_0_INR; lia). rewrite rpow_succ by auto. pose proof (rising_succ z n) as R.
  assert (N0 : z <> RtoC 0) by (specialize (Hz 0%nat); simpl in Hz; rewrite Ropp_0 in Hz; auto).
  assert (NR : forall m, rising m z <> RtoC 0). { induction m; cbn [rising]; auto. apply Cmult_neq_0; auto. intros E. apply (Hz (S m)). rewrite RtoC_opp. transitivity (z + RtoC (INR (S m)) - RtoC (INR (S m)))%C; [ring|rewrite E; ring]. }
  pose proof (NR n) as N1. pose proof (NR (S n)) as N2. cbn [rising] in N2. assert (N3 : (z + RtoC (INR (S n)))%C <> RtoC 0) by (intros E; apply N2; rewrite E; ring).
  assert (N4 : rising n (z + RtoC 1)%C <> RtoC 0) by (intros E; rewrite E in R; apply N2; rewrite <- R; ring).
  assert (E : (/ rising n (z + RtoC 1) = z / (rising n z * (z + RtoC (INR (S n)))))%C). { rewrite <- R. field. auto. }
  unfold Cdiv at 3. rewrite E. assert (E5 : (RtoC (INR n) + (z + RtoC 1))%C = (z + RtoC (INR (S n)))%C) by (rewrite S_INR, RtoC_plus; ring). rewrite E5. field. auto.
Qed.
Lemma is_Gamma_1 : is_Gamma (RtoC 1) (RtoC 1).
Proof.
  refine (clim_ext_from _ _ _ 1%nat _ (inv_far (RtoC 1))). intros n Hn. unfold gauss. assert (0 < INR n) by (apply lt_0_INR; lia). rewrite rpow_1 by auto.
  assert (E : forall m, rising m (RtoC 1) = RtoC (INR (fact (S m)))). { induction m; [simpl; auto|]. cbn [rising]. rewrite IHm, (fact_simpl (S m)), mult_INR, RtoC_mult, (S_INR (S m)), RtoC_plus. ring. }
  rewrite E, fact_simpl, mult_INR, S_INR, RtoC_mult, RtoC_plus. assert (N1 : RtoC (INR (fact n)) <> RtoC 0) by (apply RtoC_neq0, INR_fact_neq_0). assert (N2 : (RtoC (INR n) + RtoC 1)%C <> RtoC 0) by (rewrite <- RtoC_plus; apply RtoC_neq0; lra). change (RtoC 1) with (ZtoC 1) in *. field. auto.
Qed.
Lemma is_Gamma_fact n : is_Gamma (RtoC (INR n + 1)) (RtoC (INR (fact n))).
Proof.
  induction n; [simpl; rewrite Rplus_0_l; apply is_Gamma_1|]. rewrite S_INR, RtoC_plus, fact_simpl, mult_INR, RtoC_mult, S_INR. apply is_Gamma_step; auto. intros k E. apply RtoC_inj in E. pose proof (pos_INR n). pose proof (pos_INR k). lra.
Qed.
Lemma is_Gamma_half g : is_Gamma (RtoC (1 / 2)) g -> (g * g)%C = RtoC PI.
Proof.
  intros H. assert (A : forall k, Re (RtoC (1 / 2)) <> IZR k). { intros k E. change (1 / 2 = IZR k) in E. assert (E2 : IZR (2 * k) = IZR 1) by (rewrite mult_IZR; lra). apply eq_IZR in E2. lia. }
  destruct (gamma_accuracy (RtoC (1 / 2))) as (g' & v & G1 & _ & G3 & _); [change (0 < 1 / 2); lra|]. rewrite <- (Gamma_unique _ _ _ H G1) in G3.
  assert (R : is_Gamma (RtoC (1 / 2)) (RtoC PI / (csin (RtoC PI * RtoC (1 / 2)) * g))%C). { apply reflection; auto; [intros k E; apply (A k); rewrite E; reflexivity| |apply csin_neq0; auto]. replace (RtoC 1 - RtoC (1 / 2))%C with (RtoC (1 / 2)) by (rewrite <- RtoC_minus; f_equal; lra). auto. }
  assert (S : csin (RtoC PI * RtoC (1 / 2))%C = RtoC 1). { rewrite <- RtoC_mult. change (RtoC (PI * (1 / 2))) with ((PI * (1 / 2), 0) : C). rewrite csin_parts. replace (PI * (1 / 2)) with (PI / 2) by field. rewrite sin_PI2, cos_PI2, sinh_0, cosh_0. unfold RtoC. f_equal; ring. }
  rewrite S in R. pose proof (Gamma_unique _ _ _ H R) as E. transitivity (g * (RtoC PI / (RtoC 1 * g)))%C; [rewrite <- E; reflexivity|field; auto].
Qed.
(** on the lines the gamma function is finite off the poles *)
Lemma lines_finite n y : y <> 0 -> exists g, is_Gamma ((- INR n, y) : C) g /\ g <> RtoC 0.
Proof.
  intros Hy. set (z := (- INR n, y) : C). assert (P : 0 < Re (RtoC 1 - z)%C) by (change (0 < 1 - - INR n); pose proof (pos_INR n); lra). destruct (gamma_accuracy _ P) as (g & v & G1 & _ & G3 & _).
  assert (S : csin (RtoC PI * z)%C <> RtoC 0).
  { replace (RtoC PI * z)%C with ((PI * - INR n, PI * y) : C) by (unfold z, Cmult, RtoC; cbn [fst snd]; f_equal; ring). rewrite csin_parts. intros E. apply (f_equal Im) in E. unfold Im, RtoC in E. cbn [snd] in E.
    assert (C1 : cos (PI * - INR n) <> 0). { intros C0. pose proof (sin2_cos2 (PI * - INR n)) as T. rewrite C0 in T. replace (sin (PI * - INR n)) with 0 in T; [unfold Rsqr in T; lra|]. symmetry. apply sin_eq_0_1. exists (- Z.of_nat n)%Z. rewrite opp_IZR, <- INR_IZR_INZ. ring. }
    apply Rmult_integral in E. destruct E as [E|E]; [auto|]. unfold sinh in E. assert (E2 : exp (PI * y) = exp (- (PI * y))) by lra. apply exp_inv in E2. pose proof PI_RGT_0. nra. }
  eexists. split; [apply (reflection z g); auto|].
  - intros k E. apply (f_equal Im) in E. unfold z, Im, RtoC in E. cbn [snd] in E. auto.
  - apply Cmult_neq_0; [apply RtoC_neq0, PI_neq0|]. apply Cinv_neq0, Cmult_neq_0; auto.
Qed.
(** ** Stirling's series with three terms at a small argument *)
Lemma Cmod_cexp z : Cmod (cexp z) = exp (Re z).
Proof.
  unfold cexp. rewrite Cmod_mult, Cmod_R, Rabs_pos_eq by (left; apply exp_pos). unfold cexpi. pose proof (Cmod_sq ((cos (Im z), sin (Im z)) : C)) as Q. cbn [fst snd] in Q. pose proof (sin2_cos2 (Im z)) as T. unfold Rsqr in T. pose proof (Cmod_ge_0 ((cos (Im z), sin (Im z)) : C)). replace (Cmod ((cos (Im z), sin (Im z)) : C)) with 1 by nra. ring.
Qed.
Lemma stir_R gs x : 0 < x -> Re (stir gs (RtoC x)) = ln (2 * PI) / 2 - x + (x - 1 / 2) * ln x + Re (gs (RtoC x)).
Proof.
  intros H. unfold stir. rewrite clogp_R by lra. rewrite <- RtoC_div by lra. unfold Re. cbn [fst snd Cminus Cplus Copp Cmult RtoC]. ring.
Qed.
Lemma gamma_tenth : exists g, is_Gamma (RtoC 0.1) g /\ 60 * Cmod g <= exp (Re (stir gs_3 (RtoC 0.1))).
Proof.
  destruct (gauss_lim gs_5 34 ltac:(lra) gs_5_small weak5 (RtoC 0.1) ltac:(change (0 < 0.1); lra) 2 (fun n => 34 / 2 ^ 10 / (2 + INR n) ^ 2) (34 / 2 ^ 10 / (2 - 1))) as (delta & D1 & D2).
  { intros n. pose proof (pos_INR n) as P. set (t := (RtoC 0.1 + RtoC (INR 2) + RtoC (INR n))%C). assert (R1 : Re t = 0.1 + 2 + INR n) by (unfold t; change (0.1 + INR 2 + INR n = 0.1 + 2 + INR n); simpl (INR 2); ring). pose proof (Cmod_ge_Re t) as R2.
    eapply Rle_trans; [apply stir_step_5; lra|]. assert (A : 2 ^ 10 * (2 + INR n) ^ 2 <= Cmod t ^ 12). { change 12%nat with (10 + 2)%nat. rewrite (pow_add (Cmod t)). apply Rmult_le_compat; [apply pow_le; lra|apply pow_le; lra|apply pow_incr; lra|apply pow_incr; lra]. }
    assert (0 < (2 + INR n) ^ 2) by (apply pow_lt; lra). unfold Rdiv. rewrite !Rmult_assoc, <- Rinv_mult by lra. apply Rmult_le_compat_l; [lra|]. apply Rinv_le_contravar; auto. apply Rmult_lt_0_compat; lra. }
  { intros M. apply (inv_sq_sum 2 (34 / 2 ^ 10)); lra. }
  eexists. split; [exact D2|].
  assert (Et : (RtoC 0.1 + RtoC (INR 2))%C = RtoC 2.1) by (rewrite <- RtoC_plus; f_equal; simpl (INR 2); lra). rewrite Et in *.
  assert (Ep : pr (RtoC 0.1) 2 = RtoC 0.11). { cbn [pr]. rewrite <- !RtoC_plus, <- !RtoC_mult. f_equal. simpl (INR _). lra. }
  rewrite Ep, Cmod_div by (apply RtoC_neq0; lra). rewrite Cmod_cexp, Cmod_R, (Rabs_pos_eq 0.11) by lra. change (Re (stir gs_5 (RtoC 2.1) + delta)%C) with (Re (stir gs_5 (RtoC 2.1)) + Re delta).
  assert (Rd : Re delta <= 0.04). { pose proof (Cmod_ge_Re delta). lra. }
  assert (S5 : Re (stir gs_5 (RtoC 2.1)) <= ln (2 * PI) / 2 - 2.1 + 1.6 * 1.1 + 0.5).
  { rewrite stir_R by lra. pose proof (Cmod_ge_Re (gs_5 (RtoC 2.1))) as Q1. pose proof (gs_5_small (RtoC 2.1)) as Q2. rewrite Cmod_R, Rabs_pos_eq in Q2 by lra. specialize (Q2 ltac:(lra)).
    assert (L : ln 2.1 <= 1.1). { pose proof (exp_ineq1_le 1.1) as E. rewrite <- (ln_exp 1.1). destruct E as [E|E]; [left; apply ln_increasing; lra|right; f_equal; lra]. } lra. }
  assert (S3 : ln (2 * PI) / 2 - 0.1 + 77 <= Re (stir gs_3 (RtoC 0.1))).
  { rewrite stir_R by lra.
    assert (G : gs_3 (RtoC 0.1) = RtoC (1 / 12 / 0.1 - 1 / 360 / 0.1 ^ 3 + 1 / 1260 / 0.1 ^ 5)). { unfold gs_3. rewrite !RtoC_plus, !RtoC_minus, !RtoC_div, !RtoC_pow by (try apply pow_nonzero; lra). reflexivity. }
    rewrite G. cbn [Re RtoC fst]. assert (L : ln 0.1 <= 0). { rewrite <- ln_1. left. apply ln_increasing; lra. } nra. }
  apply Rle_trans with (exp (Re (stir gs_3 (RtoC 0.1)) - 70) * 600).
  - assert (M : exp (Re (stir gs_5 (RtoC 2.1)) + Re delta) <= exp (Re (stir gs_3 (RtoC 0.1)) - 70)). { destruct (Req_dec (Re (stir gs_5 (RtoC 2.1)) + Re delta) (Re (stir gs_3 (RtoC 0.1)) - 70)) as [->|N]; [lra|]. left. apply exp_increasing. lra. }
    pose proof (exp_pos (Re (stir gs_3 (RtoC 0.1)) - 70)). lra.
  - unfold Rminus. rewrite exp_plus, Rmult_assoc. rewrite <- (Rmult_1_r (exp (Re (stir gs_3 (RtoC 0.1))))) at 2. apply Rmult_le_compat_l; [left; apply exp_pos|]. rewrite exp_Ropp. replace 70 with (35 + 35) by ring. rewrite exp_plus. pose proof (exp_ineq1_le 35). apply (Rmult_le_reg_l (exp 35 * exp 35)); [nra|]. rewrite <- Rmult_assoc, Rinv_r by nra. nra.
Qed.
Lemma kernel_small : exists v, g_l gamma_ 300 (RtoC (- 299.8)) = Some v /\ ~ gamma_ratio_by (rpow 2 (RtoC (- 299.8))) ((RtoC 300 + RtoC (- 299.8)) / RtoC 2)%C ((RtoC 303 - RtoC (- 299.8)) / RtoC 2)%C 1 v.
Proof.
  set (c := rpow 2 (RtoC (- 299.8))). set (ap := RtoC 0.1). set (am := RtoC 301.4).
  assert (Pp : 0 < Re ap) by (change (0 < 0.1); lra). assert (Pm : 0 < Re am) by (change (0 < 301.4); lra).
  assert (E1 : ((RtoC 300 + RtoC (- 299.8)) / RtoC 2)%C = ap) by (rewrite <- RtoC_plus, <- RtoC_div by lra; unfold ap; f_equal; lra).
  assert (E2 : ((RtoC 303 - RtoC (- 299.8)) / RtoC 2)%C = am) by (rewrite <- RtoC_minus, <- RtoC_div by lra; unfold am; f_equal; lra).
  exists (c * cexp (stir gs_3 ap - stir gs_3 am))%C. split.
  - unfold g_l, g_m_vals. cbv zeta. rewrite <- (RtoC_minus (- 299.8) 1.5), <- RtoC_plus, <- RtoC_minus, <- !RtoC_div by lra.
    replace ((300 + 0.5 + 1 + (- 299.8 - 1.5)) / 2) with 0.1 by lra. replace ((300 + 0.5 + 1 - (- 299.8 - 1.5)) / 2) with 301.4 by lra. change (Re (RtoC (- 299.8 - 1.5))) with (- 299.8 - 1.5). change (Im (RtoC (- 299.8 - 1.5))) with 0.
    destruct (Reqb_spec (- 299.8 - 1.5) (300 + 0.5 + 1)) as [E|E]; [exfalso; lra|]. cbn [andb]. destruct (Rltb_spec 200 (Rabs 0 + Rabs (300 + 0.5))) as [F|F]; [|exfalso; rewrite Rabs_R0, Rabs_pos_eq in F; lra].
    fold ap am. rewrite (stirling_ratio_val ap am) by (auto; unfold ap, am; rewrite <- RtoC_minus; f_equal; lra). cbn [cbind]. rewrite cpow2_rpow. reflexivity.
  - rewrite E1, E2. intros (ga & gb & A & B & Na & Nb & H). destruct gamma_tenth as (g & G1 & G2). fold ap in G1, G2. rewrite <- (Gamma_unique _ _ _ A G1) in G2.
    destruct (far_gamma am Pm) as (d & D1 & D2); [unfold am; rewrite Cmod_R, Rabs_pos_eq; lra|]. rewrite (Gamma_unique _ _ _ B D2) in *.
    assert (Nc : c <> RtoC 0) by (unfold c; rewrite <- cpow2_rpow; unfold cpow2; apply Cmult_neq_0; [apply RtoC_neq0; pose proof (exp_pos (Re (RtoC (- 299.8)) * ln 2)); unfold Rpower; lra|intros E; apply (f_equal Re) in E; unfold cexpi, Re, RtoC in E; cbn [fst snd Im] in E; rewrite Rmult_0_l, cos_0 in E; lra]).
    set (X := (c * (ga / cexp (stir gs_3 am + d)))%C) in *. set (v := (c * cexp (stir gs_3 ap - stir gs_3 am))%C) in *.
    assert (L : 30 * Cmod X <= Cmod v).
    { unfold X, v. rewrite !Cmod_mult, Cmod_div, !Cmod_cexp by apply cexp_neq0. change (Re (stir gs_3 am + d)%C) with (Re (stir gs_3 am) + Re d). change (Re (stir gs_3 ap - stir gs_3 am)%C) with (Re (stir gs_3 ap) + - Re (stir gs_3 am)). rewrite !exp_plus, exp_Ropp.
      set (u := exp (Re (stir gs_3 am))). assert (Hu : 0 < u) by apply exp_pos. set (w := exp (Re (stir gs_3 ap))) in *. assert (Hd : 1 / 2 <= exp (Re d)). { pose proof (exp_ineq1_le (Re d)). pose proof (proj1 (comp_le d)) as Q. unfold Rabs in Q. destruct (Rcase_abs (Re d)); lra. }
      rewrite <- Rmult_assoc, (Rmult_comm 30), Rmult_assoc. apply Rmult_le_compat_l; [apply Cmod_ge_0|]. pose proof (Cmod_ge_0 ga) as Pg. apply (Rmult_le_reg_r (u * exp (Re d))); [nra|]. unfold Rdiv. rewrite !Rmult_assoc, Rinv_l, Rmult_1_r by nra. rewrite <- (Rmult_assoc (/ u)), Rinv_l, Rmult_1_l by lra. assert (0 < w) by apply exp_pos. nra. }
    assert (PX : 0 < Cmod X). { apply Cmod_gt_0. unfold X. apply Cmult_neq_0; auto. apply Cmult_neq_0; auto. apply Cinv_neq0, cexp_neq0. }
    pose proof (Cmod_triangle (v - X)%C X) as T. replace (v - X + X)%C with v in T by ring. lra.
Qed.
