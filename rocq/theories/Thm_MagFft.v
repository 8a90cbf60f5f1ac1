(** Central finite-source magnifications and elliptic integrals: properties C44, C45, C52. *)
From Coq Require Import Reals List Bool Arith Lia Lra.
From Coquelicot Require Import Coquelicot.
From Verif Require Import Base_R Base_Int M_Special S_Special P_Elliptic P_Agm P_AgmUse M_MagFft S_MagFft P_MagFft P_EllDeriv.
Import ListNotations.
Local Open Scope R_scope.

(** ** C44: the central magnifications are the disc averages *)
Theorem C44_disk : forall rho, 0 < rho -> disk_A0 rho = central_average (profile_uniform rho) rho.
Proof. exact disk_average. Qed.
Print Assumptions C44_disk.
Theorem C44_quadratic : forall rho ek ee, 0 < rho ->
  limb_A0 ek ee 2 rho = Ok (Some (central_average (profile_quadratic rho) rho)).
Proof. intros rho ek ee H. rewrite <- limb2_average by auto. reflexivity. Qed.
Print Assumptions C44_quadratic.
(** with exact elliptic integrals *)
Theorem C44_root : forall rho, 0 < rho ->
  limb_A0 ellint_K ellint_E 1 rho = Ok (Some (central_average (profile_root rho) rho)).
Proof. intros rho H. rewrite <- limb1_average by auto. reflexivity. Qed.
Theorem C44_other_orders : forall rho ek ee n, n <> 1%nat -> n <> 2%nat -> forall v, limb_A0 ek ee n rho <> Ok (Some v).
Proof. intros rho ek ee n H1 H2 v. destruct n as [|[|[|n]]]; simpl; congruence. Qed.
Print Assumptions C44_other_orders.
(** the correct weights for the linear law, and what the code combines instead *)
Theorem C44_linear : forall a1 rho, 0 < rho -> 0 <= a1 <= 1 ->
  central_average (profile_linear a1 rho) rho =
  (3 * (1 - a1) * disk_A0 rho + 2 * a1 * limb1_A0 ellint_K ellint_E rho) / (3 - a1).
Proof. intros a1 rho H Ha. rewrite linear_average; auto. Qed.
Print Assumptions C44_linear.
Theorem C44_linear_law_refuted : forall rho a1, 0 < rho -> 0 < a1 < 1 ->
  mag_limb_A0 ellint_K ellint_E rho a1 < disk_A0 rho < central_average (profile_linear a1 rho) rho.
Proof. exact mag_limb_wrong. Qed.
Example C44_case : 0 < 2 /\ disk_A0 2 = sqrt 8 / 2 /\ 0 < 1 / 2 < 1.
Proof. split; [lra|]. split; [|lra]. unfold disk_A0. f_equal. f_equal. ring. Qed.

(** ** C45: the arithmetic-geometric iteration *)
Theorem C45_ordered : forall a b n, 0 < b -> b <= a ->
  let p := Nat.iter n agm_step (a, b) in let p' := Nat.iter (S n) agm_step (a, b) in
  0 < snd p /\ snd p <= snd p' /\ snd p' <= fst p' /\ fst p' <= fst p.
Proof.
  intros a b n H H' p p'. destruct (seq_order a b n H H') as [H1 _]. destruct (seq_order a b (S n) H H') as [_ H4]. destruct (seq_mono a b n H H') as [H2 H3].
  repeat split; assumption.
Qed.
Print Assumptions C45_ordered.
Theorem C45_quadratic_decay : forall a b n, 0 < b -> b <= a ->
  let p := Nat.iter n agm_step (a, b) in let p' := Nat.iter (S n) agm_step (a, b) in
  fst p' - snd p' <= (fst p - snd p) ^ 2 / (8 * snd p).
Proof. exact seq_gap. Qed.
Print Assumptions C45_quadratic_decay.
(** the common limit is Gauss's integral, and every pair of iterates brackets it *)
Theorem C45_common_limit : forall a b, 0 < b -> b <= a -> exists M,
  M = PI / (2 * RInt (fun t => 1 / sqrt (a ^ 2 * cos t ^ 2 + b ^ 2 * sin t ^ 2)) 0 (PI / 2)) /\
  is_lim_seq (fun n => fst (Nat.iter n agm_step (a, b))) M /\ is_lim_seq (fun n => snd (Nat.iter n agm_step (a, b))) M /\
  forall n, snd (Nat.iter n agm_step (a, b)) <= M <= fst (Nat.iter n agm_step (a, b)).
Proof.
  intros a b H H'. exists (agm_limit a b). split; [reflexivity|]. split; [exact (an_lim a b H H')|]. split; [exact (bn_lim a b H H')|].
  intros n. exact (limit_between a b n H H').
Qed.
Theorem C45_gap : forall a b n, 0 < b -> b <= a ->
  let p := Nat.iter n agm_step (a, b) in fst p - snd p <= (a - b) / 2 ^ n.
Proof. exact seq_gap_pow. Qed.
Print Assumptions C45_gap.
(** [ellipk] underestimates K by a factor bounded in terms of the parameter; [ellipe] is close to E *)
Theorem C45_ellipk : forall m, m < 1 ->
  let b := if Rltb 0 m then sqrt (1 - m) else / sqrt (1 - m) in
  exists k, ellipk m = Some k /\ 0 < k /\ k <= ellint_K m <= (1 + 8 * ((1 - sqrt b) ^ 2 / (16 * sqrt b)) ^ 16) * k.
Proof. exact ellipk_general. Qed.
Theorem C45_ellipk_accuracy : forall m, m < 1 -> 1 / 10000 <= 1 - m <= 10000 ->
  exists k, ellipk m = Some k /\ 0 < k /\ k <= ellint_K m <= (1 + 1 / 10000000000) * k.
Proof. exact ellipk_narrow. Qed.
Print Assumptions C45_ellipk_accuracy.
Theorem C45_ellipk_wide_accuracy : forall m, m < 1 -> 1 / 10 ^ 16 <= 1 - m <= 10 ^ 16 ->
  exists k, ellipk m = Some k /\ 0 < k /\ k <= ellint_K m <= 1.0028 * k.
Proof. exact ellipk_wide. Qed.
Print Assumptions C45_ellipk_wide_accuracy.
Theorem C45_ellipe_accuracy : forall m, m < 1 -> 1 / 10000 <= 1 - m <= 10000 ->
  exists e, ellipe m = Some e /\ Rabs (ellint_E m - e) <= 7 / 100000000 * ellint_E m.
Proof. exact ellipe_narrow. Qed.
(** the imaginary-modulus transformation, for the integrals and in the code *)
Theorem C45_negative_modulus : forall m, m <= 0 ->
  let m' := - m / (1 - m) in
  ellint_K m = ellint_K m' / sqrt (1 - m) /\ ellint_E m = sqrt (1 - m) * ellint_E m' /\
  ellipk m = option_map (fun k => k / sqrt (1 - m)) (ellipk_ m') /\
  ellipe m = option_map (fun e => sqrt (1 - m) * e) (ellipe_ m').
Proof.
  intros m H m'. assert (E1 : Rabs m + 1 = 1 - m) by (rewrite Rabs_left1 by auto; ring).
  assert (E2 : Rabs m / (Rabs m + 1) = m') by (rewrite E1, Rabs_left1 by auto; reflexivity).
  rewrite (K_neg m), (E_neg m), E2, E1 by auto. assert (0 < sqrt (1 - m)) by (apply sqrt_lt_R0; lra).
  split; [field; lra|]. split; [reflexivity|]. unfold ellipk, ellipe. destruct (Rltb_spec 0 m); [lra|]. rewrite E2, E1. split; [|reflexivity].
  destruct (ellipk_ m'); simpl; f_equal. field. lra.
Qed.
Print Assumptions C45_negative_modulus.
Theorem C45_out_of_range : forall m, 1 < m -> ellipk m = None /\ ellipe m = None.
Proof. intros m H. unfold ellipk, ellipe, ellipk_, ellipe_. destruct (Rltb_spec 0 m); [|lra]. destruct (Rltb_spec 1 m); [auto|lra]. Qed.
Print Assumptions C45_out_of_range.
(** five steps are not enough close to 1 *)
Theorem C45_near_one_refuted : exists m k, 0 < m < 1 /\ ellipk m = Some k /\ 2 * k < ellint_K m.
Proof. exact ellipk_near_one. Qed.
Print Assumptions C45_near_one_refuted.
Theorem C45_at_one_refuted : ellipk 1 = Some (16 * PI) /\ ellipe 1 = Some (PI / 4) /\ ellint_E 1 = 1 /\ PI / 4 < 4 / 5.
Proof.
  split; [exact ellipk_one|]. split; [exact ellipe_one|]. split; [exact E_one|].
  pose proof (PI_ineq 10) as [_ H]. unfold tg_alt, PI_tg in H. simpl in H. lra.
Qed.
Print Assumptions C45_at_one_refuted.
Example C45_case : 0 < 1 /\ 1 <= 4 /\ (1 / 10000 <= 1 - (-3) <= 10000) /\ Nat.iter 1 agm_step (4, 1) = (5 / 2, 2).
Proof.
  repeat split; try lra. simpl. f_equal; [lra|]. replace (4 * 1) with (2 ^ 2) by ring. apply sqrt_pow2. lra.
Qed.

(** ** C52: derivative rules of the elliptic integrals *)
Theorem C52_K_rule_partial : forall m md, m < 1 -> m <> 0 -> exists d,
  is_derive ellint_K m d /\ ellipk_tangent (ellint_K m) (ellint_E m) m md = Some (md * d).
Proof.
  intros m md H H0. eexists. split; [apply K_derive; auto|]. unfold ellipk_tangent. destruct (Reqb_spec (2 * m * (1 - m)) 0) as [E|E]; [|reflexivity].
  exfalso. assert (2 * m * (1 - m) <> 0); [|auto]. apply Rmult_integral_contrapositive_currified; lra.
Qed.
Theorem C52_E_rule_partial : forall m md, m < 1 -> m <> 0 -> exists d,
  is_derive ellint_E m d /\ ellipe_tangent (ellint_K m) (ellint_E m) m md = Some (md * d).
Proof.
  intros m md H H0. eexists. split; [apply E_derive; auto|]. unfold ellipe_tangent. destruct (Reqb_spec (2 * m) 0) as [E|E]; [lra|reflexivity].
Qed.
Print Assumptions C52_E_rule_partial.
Theorem C52_at_zero_refuted : forall k e md,
  is_derive ellint_K 0 (PI / 8) /\ ellipk_tangent k e 0 md = None /\ ellipe_tangent k e 0 md = None.
Proof. intros k e md. destruct (tangent_zero k e md). split; [exact K_derive_0|auto]. Qed.
Print Assumptions C52_at_zero_refuted.
Example C52_case : -1 < 1 /\ -1 <> 0 /\ exists v, ellipk_tangent (ellint_K (-1)) (ellint_E (-1)) (-1) 2 = Some v.
Proof. split; [lra|]. split; [lra|]. destruct (C52_K_rule_partial (-1) 2) as [d [_ E]]; [lra|lra|]. eauto. Qed.

Print Assumptions C44_root.
Print Assumptions C44_linear_law_refuted.
Print Assumptions C45_common_limit.
Print Assumptions C45_ellipk.
Print Assumptions C45_ellipe_accuracy.
Print Assumptions C52_K_rule_partial.
