(** Consequences of [P_Agm] in terms of the parameter [m], and the value at [m = 1]. *)
From Coq Require Import Reals List Lia Lra.
From Coquelicot Require Import Coquelicot.
From Verif Require Import Base_R Base_Int M_Special S_Special P_Elliptic P_Agm.
Local Open Scope R_scope.

Lemma start_ge m c : 0 < c -> c <= 1 -> c ^ 2 <= 1 - m -> (1 - m) * c ^ 2 <= 1 -> c <= start m.
Proof.
  intros Hc Hc1 H1 H2. assert (Hp : 0 < 1 - m) by nra. unfold start. destruct (Rltb_spec 0 m).
  - rewrite <- (sqrt_pow2 c) by lra. apply sqrt_le_1_alt. lra.
  - assert (0 < sqrt (1 - m)) by (apply sqrt_lt_R0; lra). apply (Rmult_le_reg_r (sqrt (1 - m))); auto.
    rewrite Rinv_l by lra. rewrite <- (sqrt_pow2 c) at 1 by lra. rewrite <- sqrt_mult by nra. rewrite <- sqrt_1 at 2.
    apply sqrt_le_1_alt. lra.
Qed.
Lemma ellipk_wide m : m < 1 -> 1 / 10 ^ 16 <= 1 - m <= 10 ^ 16 ->
  exists k, ellipk m = Some k /\ 0 < k /\ k <= ellint_K m <= 1.0028 * k.
Proof.
  intros H [H1 H2]. apply ellipk_bracket; auto. pose proof (start_range m H). apply ratio5_wide; [|lra].
  apply start_ge; lra.
Qed.
Lemma ellipk_narrow m : m < 1 -> 1 / 10000 <= 1 - m <= 10000 ->
  exists k, ellipk m = Some k /\ 0 < k /\ k <= ellint_K m <= (1 + 1 / 10000000000) * k.
Proof.
  intros H [H1 H2]. apply ellipk_bracket; auto. pose proof (start_range m H). apply ratio5_narrow; [|lra].
  apply start_ge; lra.
Qed.
Lemma ellipe_narrow m : m < 1 -> 1 / 10000 <= 1 - m <= 10000 ->
  exists e, ellipe m = Some e /\ Rabs (ellint_E m - e) <= 7 / 100000000 * ellint_E m.
Proof.
  intros H [H1 H2]. pose proof (start_range m H) as Hs.
  assert (Hb : 1 / 100 <= start m) by (apply start_ge; lra).
  destruct (ellipe_error m (1 + 1 / 10000000000) 20 H) as [e [E1 E2]]; [lra|apply ratio5_narrow; lra|apply GI1_upper; lra|].
  exists e. split; auto. eapply Rle_trans; [exact E2|]. apply Rmult_le_compat_r; [|lra].
  rewrite E_GJ by auto. pose proof (GJ1_lower (sqrt (1 - m))). assert (0 < sqrt (1 - m)) by (apply sqrt_lt_R0; lra). lra.
Qed.
(** a bound for every parameter below 1 *)
Lemma ellipk_general m : m < 1 -> let b := start m in
  exists k, ellipk m = Some k /\ 0 < k /\ k <= ellint_K m <= (1 + 8 * ((1 - sqrt b) ^ 2 / (16 * sqrt b)) ^ 16) * k.
Proof. intros H b. pose proof (start_range m H). apply ellipk_bracket; auto. apply ratio5; unfold b; lra. Qed.

Lemma sqrt_a0 a : sqrt (a * 0) = 0. Proof. rewrite Rmult_0_r. apply sqrt_0. Qed.
Lemma ellipk_one : ellipk 1 = Some (16 * PI).
Proof.
  unfold ellipk. destruct (Rltb_spec 0 1); [|lra]. unfold ellipk_. destruct (Rltb_spec 1 1); [lra|]. f_equal.
  replace (1 - 1) with 0 by ring. rewrite sqrt_0. unfold agm. cbn [Nat.iter agm_step fst nat_rect]. unfold agm_step. rewrite !sqrt_a0. cbn [fst]. field.
Qed.
Lemma ellipe_one : ellipe 1 = Some (PI / 4).
Proof.
  unfold ellipe. destruct (Rltb_spec 0 1); [|lra]. unfold ellipe_. destruct (Rltb_spec 1 1); [lra|]. cbv zeta.
  replace (1 - 1) with 0 by ring. rewrite sqrt_0. unfold agm2. cbn [Nat.iter nat_rect]. unfold agm_step2. rewrite !sqrt_a0. cbv beta iota. f_equal.
  replace (Rabs (1 ^ 2 - 0 ^ 2)) with 1 by (rewrite Rabs_pos_eq; ring_simplify; lra). rewrite sqrt_1. simpl. field_simplify. 
  lra.
Qed.
Lemma E_one : ellint_E 1 = 1.
Proof.
  unfold ellint_E. rewrite <- RInt_cos at 1. apply I_ext. intros t Ht. rewrite Rmin_left, Rmax_right in Ht by (pose proof PI_RGT_0; lra).
  replace (1 - 1 * sin t ^ 2) with (cos t ^ 2). apply sqrt_pow2. apply cos_ge_0; lra. pose proof (sin2_cos2 t). unfold Rsqr in *. nra.
Qed.
