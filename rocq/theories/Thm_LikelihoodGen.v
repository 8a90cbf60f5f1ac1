(** The likelihood with a full covariance matrix is well defined: property C25. *)
From Coq Require Import Reals List Bool Arith Lia Lra.
From Verif Require Import Base_R Base_List M_Likelihood S_Integral S_Likelihood P_Gauss P_Marginal P_MarginalGen Thm_UnitsGen.
Import ListNotations.
Local Open Scope R_scope.

(** the normal matrix is symmetric positive definite, and no data or model make the value smaller than half the log-determinant of the noise *)
Theorem C25_general : forall solve n flux M Cov mu l11 l12 l22, length flux = n -> length M = n -> length Cov = n ->
  symmetric Cov -> pos_def Cov n -> solves Cov n (solve Cov) -> 0 < l11 -> 0 < l11 * l22 - l12 * l12 ->
  let u := map fst M in let w := map snd M in let D := l11 * l22 - l12 * l12 in
  let a11 := l22 / D + dot u (solve Cov u) in let a12 := - l12 / D + dot u (solve Cov w) in
  let a21 := - l12 / D + dot w (solve Cov u) in let a22 := l11 / D + dot w (solve Cov w) in
  a12 = a21 /\ 0 < a11 /\ 0 < a22 /\ / D <= a11 * a22 - a12 * a21 /\
  logabsdet Cov / 2 <= nll_ulens_general solve flux M Cov mu ((l11, l12), (l12, l22)).
Proof.
  intros solve n flux M Cov mu l11 l12 l22 Lf LM LC Hsym Hpd S1 H11 HL lu lw D. destruct (solver_inverse _ _ _ S1) as (P & Hinv).
  unfold nll_ulens_general. fold lu lw D.
  set (r := map (fun p => fst p - (fst (snd p) * fst mu + snd (snd p) * snd mu)) (combine flux M)).
  assert (Lr : length r = n) by (unfold r; rewrite map_length, combine_length, Lf, LM; apply Nat.min_id).
  assert (L0 : length lu = n) by (unfold lu; rewrite map_length; exact LM). assert (L1 : length lw = n) by (unfold lw; rewrite map_length; exact LM).
  assert (Dt := fun x y => dot_sol n Cov P Hpd Hinv (solve Cov) x y S1). rewrite !Dt by assumption.
  set (u := fun i => nth i lu 0). set (w := fun i => nth i lw 0). set (v := fun i => nth i r 0).
  pose proof (B_cs n Cov P Hsym Hpd Hinv u w) as CS. pose proof (B_nonneg n Cov P Hpd Hinv u) as N1. pose proof (B_nonneg n Cov P Hpd Hinv w) as N2.
  pose proof (B_sym n Cov P Hsym Hinv w u) as Sy. rewrite Sy.
  assert (Q : forall x y, 0 <= B n P v v - 2 * x * B n P u v - 2 * y * B n P w v + x * x * B n P u u + 2 * x * y * B n P u w + y * y * B n P w w).
  { intros x y. pose proof (B_nonneg n Cov P Hpd Hinv (fun i => 1 * v i + (- x * u i + - y * w i))) as N.
    assert (BL : forall h, B n P (fun i => 1 * v i + (- x * u i + - y * w i)) h = B n P v h - x * B n P u h - y * B n P w h).
    { intros h. unfold B. replace (isum n (fun i => v i * app_p n P h i) - x * isum n (fun i => u i * app_p n P h i) - y * isum n (fun i => w i * app_p n P h i))
        with (isum n (fun i => v i * app_p n P h i) + (- x * isum n (fun i => u i * app_p n P h i) + - y * isum n (fun i => w i * app_p n P h i))) by ring.
      rewrite <- !isum_scal, <- !isum_plus. apply isum_ext. intros; ring. }
    assert (BS : forall f g, B n P f g = B n P g f) by (intros; apply (B_sym n Cov P Hsym Hinv)).
    assert (BR : forall h, B n P h (fun i => 1 * v i + (- x * u i + - y * w i)) = B n P v h - x * B n P u h - y * B n P w h) by (intros h; rewrite BS; apply BL).
    rewrite BL, !BR, (BS w u) in N. rewrite (BS u v), (BS w v) in *. lra. }
  set (uu := B n P u u) in *. set (ww := B n P w w) in *. set (uw := B n P u w) in *.
  set (uv := B n P u v) in *. set (wv := B n P w v) in *. set (vv := B n P v v) in *.
  set (a11 := l22 / D + uu). set (a12 := - l12 / D + uw). set (a22 := l11 / D + ww).
  assert (H22 : 0 < l22) by (unfold D in HL; nra). assert (HD : 0 < D) by exact HL.
  assert (Y : 0 <= l22 * ww + l11 * uu + 2 * l12 * uw).
  { apply Rmult_le_reg_l with l11; [exact H11|]. rewrite Rmult_0_r. destruct (Req_dec ww 0) as [Z|Z].
    - assert (Z2 : uw = 0) by nra. rewrite Z2, Z. nra.
    - assert (0 < ww) by lra. apply Rmult_le_reg_l with ww; [assumption|]. rewrite Rmult_0_r.
      replace (ww * (l11 * (l22 * ww + l11 * uu + 2 * l12 * uw))) with
        (D * (ww * ww) + (l12 * ww + l11 * uw) ^ 2 + l11 ^ 2 * (uu * ww - uw * uw)) by (unfold D; ring).
      assert (0 <= D * (ww * ww)) by nra. assert (0 <= l11 ^ 2 * (uu * ww - uw * uw)) by (apply Rmult_le_pos; nra).
      pose proof (pow2_ge_0 (l12 * ww + l11 * uw)). lra. }
  assert (X : a11 * a22 - a12 * a12 = (1 + (l22 * ww + l11 * uu + 2 * l12 * uw)) / D + (uu * ww - uw * uw)) by (unfold a11, a12, a22; unfold D in *; field; lra).
  assert (I : 0 < / D) by (apply Rinv_0_lt_compat; exact HD).
  assert (PA : / D <= a11 * a22 - a12 * a12).
  { rewrite X. unfold Rdiv. rewrite Rmult_plus_distr_r. assert (0 <= (l22 * ww + l11 * uu + 2 * l12 * uw) * / D) by (apply Rmult_le_pos; lra). lra. }
  assert (F11 : 0 < l22 / D) by (apply Rdiv_lt_0_compat; lra). assert (F22 : 0 < l11 / D) by (apply Rdiv_lt_0_compat; lra).
  split; [reflexivity|]. split; [unfold a11; lra|]. split; [unfold a22; lra|]. split; [exact PA|].
  set (dA := a11 * a22 - a12 * a12) in *. assert (HA : 0 < dA) by lra. rewrite !logdet2. fold D dA.
  set (m1 := (a22 * uv - a12 * wv) / dA). set (m2 := (a11 * wv - a12 * uv) / dA).
  assert (Mh : 0 <= vv - (uv * m1 + wv * m2)).
  { specialize (Q m1 m2).
    assert (E1 : a11 * m1 + a12 * m2 = uv) by (unfold m1, m2; unfold dA in *; field; lra).
    assert (E2 : a12 * m1 + a22 * m2 = wv) by (unfold m1, m2; unfold dA in *; field; lra).
    assert (E3 : uu * m1 + uw * m2 = uv - (l22 * m1 - l12 * m2) / D) by (rewrite <- E1; unfold a11, a12; field; lra).
    assert (E4 : uw * m1 + ww * m2 = wv - (l11 * m2 - l12 * m1) / D) by (rewrite <- E2; unfold a22, a12; field; lra).
    assert (Qe : m1 * m1 * uu + 2 * m1 * m2 * uw + m2 * m2 * ww = m1 * (uu * m1 + uw * m2) + m2 * (uw * m1 + ww * m2)) by ring.
    rewrite E3, E4 in Qe.
    assert (W : 0 <= (m1 * (l22 * m1 - l12 * m2) + m2 * (l11 * m2 - l12 * m1)) / D).
    { apply Rmult_le_pos; [|lra]. apply Rmult_le_reg_l with l22; [exact H22|]. rewrite Rmult_0_r.
      replace (l22 * (m1 * (l22 * m1 - l12 * m2) + m2 * (l11 * m2 - l12 * m1))) with ((l22 * m1 - l12 * m2) ^ 2 + D * m2 ^ 2) by (unfold D; ring).
      pose proof (pow2_ge_0 (l22 * m1 - l12 * m2)). pose proof (pow2_ge_0 m2). nra. }
    unfold Rdiv in *. lra. }
  assert (Lg : 0 <= ln (Rabs D) + ln (Rabs dA)).
  { rewrite !Rabs_right by lra. rewrite <- ln_mult by assumption. rewrite <- ln_1.
    apply Rmult_le_compat_l with (r := D) in PA; [|lra]. rewrite Rinv_r in PA by lra.
    destruct PA as [PA|PA]; [left; apply ln_increasing; lra|right; f_equal; exact PA]. }
  lra.
Qed.
Print Assumptions C25_general.
Example C25_general_case : logabsdet [[2; 1]; [1; 2]] / 2 <= nll_ulens_general cramer [5; 7] [(1, 1); (3, 1)] [[2; 1]; [1; 2]] (2, 0) ((4, 1), (1, 3)) /\
  0 < logabsdet [[2; 1]; [1; 2]].
Proof.
  split.
  - apply (C25_general cramer 2 [5; 7] [(1, 1); (3, 1)] [[2; 1]; [1; 2]] (2, 0) 4 1 3); try reflexivity; try lra;
      [exact cov_symmetric|exact cov_pos_def|apply cramer_solves; cbn; lra].
  - rewrite logdet2. rewrite Rabs_right by lra. rewrite <- ln_1. apply ln_increasing; lra.
Qed.
