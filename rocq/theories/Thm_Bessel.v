(** C67: the Bessel functions used for the source profiles, and their derivative rules. *)
From Coq Require Import Reals List ZArith Lia Lra.
From Coquelicot Require Import Coquelicot.
From Verif Require Import Base_R M_Bessel S_Bessel P_BesselSeries P_BesselSmall P_BesselLarge.
Import ListNotations.
Local Open Scope R_scope.

Lemma J_even n x : besselJ n (- x) = (-1) ^ n * besselJ n x.
Proof. rewrite !besselJ_G. replace ((- x) ^ 2) with (x ^ 2) by ring. replace (- x / 2) with (-1 * (x / 2)) by field. rewrite Rpow_mult_distr. ring. Qed.
Lemma J0_abs x : besselJ 0 (Rabs x) = besselJ 0 x.
Proof. unfold Rabs. destruct (Rcase_abs x); auto. rewrite J_even. simpl. ring. Qed.
Lemma J1_0 : besselJ 1 0 = 0.
Proof. rewrite besselJ_G. simpl. field. Qed.
Lemma J1_abs x : sign x * besselJ 1 (Rabs x) = besselJ 1 x.
Proof.
  unfold sign. destruct (Rltb_spec 0 x); [rewrite Rabs_pos_eq by lra; ring|]. destruct (Rltb_spec x 0); [rewrite Rabs_left by lra; rewrite J_even; simpl; ring|]. replace x with 0 by lra. rewrite J1_0. ring.
Qed.
Lemma sign_le x : Rabs (sign x) <= 1.
Proof. unfold sign. destruct (Rltb_spec 0 x); [|destruct (Rltb_spec x 0)]; apply Rabs_le; lra. Qed.

(** every real argument, below and above the switch at 5 *)
Theorem C67_values : forall x, Rabs (j0_ x - besselJ 0 x) <= 5e-14 /\ Rabs (j1_ x - besselJ 1 x) <= 5e-14 /\ Rabs (j1_ x - besselJ 1 x) <= 1.1e-14 * Rabs x.
Proof.
  intros x. pose proof (Rabs_pos x) as P. split; [|].
  - unfold j0_. rewrite <- J0_abs. destruct (Rltb_spec (Rabs x) 5) as [H|H]; [|apply large0; lra]. pose proof (small0 (Rabs x) ltac:(lra)). lra.
  - assert (E : Rabs (j1_ x - besselJ 1 x) <= Rabs ((if Rltb (Rabs x) 5 then j1_small (Rabs x) else j1_large (Rabs x)) - besselJ 1 (Rabs x))).
    { rewrite <- J1_abs. unfold j1_. rewrite <- Rmult_minus_distr_l, Rabs_mult. rewrite <- (Rmult_1_l (Rabs (_ - _))) at 2. apply Rmult_le_compat_r; [apply Rabs_pos|apply sign_le]. }
    destruct (Rltb_spec (Rabs x) 5) as [H|H]; [pose proof (small1 (Rabs x) ltac:(lra))|pose proof (large1 (Rabs x) ltac:(lra))]; split; lra.
Qed.
Print Assumptions C67_values.
Theorem C67_parity : forall x, j0_ (- x) = j0_ x /\ j1_ (- x) = - j1_ x.
Proof.
  intros x. unfold j0_, j1_. rewrite Rabs_Ropp. split; auto. unfold sign. destruct (Rltb_spec 0 x), (Rltb_spec x 0), (Rltb_spec 0 (- x)), (Rltb_spec (- x) 0); try lra; ring.
Qed.
Print Assumptions C67_parity.
(** the tangents are the true derivatives, wherever the second one is a number *)
Theorem C67_tangents_partial : forall x dx,
  (fst (j0_jvp x dx) = j0_ x /\ exists d, is_derive (besselJ 0) x d /\ Rabs (snd (j0_jvp x dx) - d * dx) <= 5e-14 * Rabs dx) /\
  (x <> 0 -> fst (j1_jvp x dx) = j1_ x /\ exists t d, snd (j1_jvp x dx) = Some t /\ is_derive (besselJ 1) x d /\ Rabs (t - d * dx) <= 6.1e-14 * Rabs dx).
Proof.
  intros x dx. destruct (C67_values x) as (H0 & H1 & H1'). split.
  - split; [reflexivity|]. exists (- besselJ 1 x). split; [apply J0_derive|]. cbn [snd j0_jvp]. replace (-1 * dx * j1_ x - - besselJ 1 x * dx) with (- ((j1_ x - besselJ 1 x) * dx)) by ring. rewrite Rabs_Ropp, Rabs_mult. apply Rmult_le_compat_r; auto using Rabs_pos.
  - intros Hx. split; [reflexivity|]. unfold j1_jvp. cbn [snd]. destruct (Reqb_spec x 0) as [E|E]; [contradiction|]. eexists. exists (besselJ 0 x - besselJ 1 x / x). split; [reflexivity|]. split; [apply J1_derive; auto|].
    replace (j0_ x * dx - j1_ x * dx / x - (besselJ 0 x - besselJ 1 x / x) * dx) with (((j0_ x - besselJ 0 x) - (j1_ x - besselJ 1 x) / x) * dx) by (field; auto). rewrite Rabs_mult. apply Rmult_le_compat_r; [apply Rabs_pos|]. unfold Rminus at 1. eapply Rle_trans; [apply Rabs_triang|]. rewrite Rabs_Ropp.
    assert (Rabs ((j1_ x - besselJ 1 x) / x) <= 1.1e-14); [|lra]. unfold Rdiv. rewrite Rabs_mult, Rabs_inv. pose proof (Rabs_pos_lt x Hx). apply (Rmult_le_reg_r (Rabs x)); auto. rewrite Rmult_assoc, Rinv_l by lra. lra.
Qed.
Print Assumptions C67_tangents_partial.
(** but at the origin, where the derivative is 1/2, the tangent of [j1] is not a number, whatever the direction *)
Theorem C67_tangent_refuted : is_derive (besselJ 1) 0 (1 / 2) /\ (forall dx, snd (j1_jvp 0 dx) = None) /\ j1_ 0 = 0.
Proof.
  split; [|split].
  - apply (is_derive_ext (fun x => x / 2 * G 1 (x ^ 2))). { intros t. rewrite besselJ_G. simpl. ring. }
    evar_last. { apply (is_derive_mult (fun x => x / 2) (fun x => G 1 (x ^ 2))). auto_derive; [exact I|reflexivity]. apply (is_derive_comp (G 1) (fun x => x ^ 2)). apply G_derive. auto_derive; [exact I|reflexivity]. apply Rmult_comm. }
    unfold plus, mult, scal; simpl; unfold mult; simpl. replace (0 * (0 * 1)) with 0 by ring. unfold G at 1. rewrite PSeries_0. unfold bc. simpl. field.
  - intros dx. unfold j1_jvp. cbn [snd]. destruct (Reqb_spec 0 0); [reflexivity|lra].
  - unfold j1_, sign. destruct (Rltb_spec 0 0); [lra|]. destruct (Rltb_spec 0 0); [lra|]. ring.
Qed.
Print Assumptions C67_tangent_refuted.
Lemma J2_eq x : x <> 0 -> besselJ 2 x = 2 / x * besselJ 1 x - besselJ 0 x.
Proof. intros Hx. rewrite !besselJ_G. pose proof (G_recurrence 0 (x ^ 2)) as R0. change (INR 1) with 1 in R0. rewrite R0. field. auto. Qed.
Theorem C67_j2_partial : forall x, x <> 0 -> exists v, j2_ x = Some v /\ Rabs (v - besselJ 2 x) <= 7.2e-14.
Proof.
  intros x Hx. destruct (C67_values x) as (H0 & H1 & H1'). unfold j2_. destruct (Reqb_spec x 0) as [E|E]; [contradiction|]. eexists. split; [reflexivity|]. rewrite J2_eq by auto.
  replace (2 / x * j1_ x - j0_ x - (2 / x * besselJ 1 x - besselJ 0 x)) with (2 * ((j1_ x - besselJ 1 x) / x) - (j0_ x - besselJ 0 x)) by (field; auto). unfold Rminus at 1. eapply Rle_trans; [apply Rabs_triang|]. rewrite Rabs_Ropp, Rabs_mult, (Rabs_pos_eq 2) by lra.
  assert (Rabs ((j1_ x - besselJ 1 x) / x) <= 1.1e-14); [|lra]. unfold Rdiv. rewrite Rabs_mult, Rabs_inv. pose proof (Rabs_pos_lt x Hx). apply (Rmult_le_reg_r (Rabs x)); auto. rewrite Rmult_assoc, Rinv_l by lra. lra.
Qed.
Print Assumptions C67_j2_partial.
Theorem C67_j2_refuted : besselJ 2 0 = 0 /\ j2_ 0 = None.
Proof.
  split; [rewrite besselJ_G; simpl; field|]. unfold j2_. destruct (Reqb_spec 0 0); [reflexivity|lra].
Qed.
Print Assumptions C67_j2_refuted.

(** at the switch the two branches meet: the value at 5 is [-0.1775967713143383], from the branch for large arguments *)
Example C67_case : Rabs (j0_ 5 - (-0.1775967713143383)) <= 6e-14 /\ Rabs (j1_ (-5) - 0.3275791375914652) <= 6e-14 /\ j0_ 5 = j0_large 5 /\ j0_ 0 = 1.
Proof.
  destruct (C67_values 5) as (H0 & H1 & _). pose proof J0_5 as A. pose proof J1_5 as B. unfold near, S20 in A, B. replace (-5) with (- (5)) by lra. destruct (C67_parity 5) as [_ ->].
  repeat split.
  - apply Rabs_le. apply Rabs_le_between in H0, A. lra.
  - apply Rabs_le. apply Rabs_le_between in H1, B. lra.
  - unfold j0_. rewrite Rabs_pos_eq by lra. destruct (Rltb_spec 5 5); [lra|reflexivity].
  - unfold j0_, j0_small. rewrite Rabs_R0. destruct (Rltb_spec 0 5); [|lra]. cbv zeta. destruct (Rltb_spec 0 1e-5); lra.
Qed.
Print Assumptions C67_case.
