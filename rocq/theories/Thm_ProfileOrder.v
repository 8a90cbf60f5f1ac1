(** Limb-darkening laws of any order in Fourier space (C65). *)
From Coq Require Import Reals List Bool Arith ZArith Lia Lra.
From Coquelicot Require Import Coquelicot.
From Verif Require Import Base_R Base_C Base_List M_Fftlog M_MagCurve M_ProfileOrder S_Gamma S_Profile S_ProfileOrder P_Profile P_Profile2 P_BesselPoisson P_GammaKer P_ProfileOrder Thm_Profile Thm_ProfileGamma.
Import ListNotations.
Local Open Scope R_scope.

(** at positive wavenumbers, with the exact gamma and Bessel functions: numpy, every order *)
Theorem C65_orders : forall n k rho, 0 < rho -> (forall q, In q k -> 0 < q) ->
  sk_limb gammaR bessel_nu n (map Some k) rho = map Some (map (transform (cos_power n rho) rho) k).
Proof.
  intros n k rho Hr Hk. apply per_k_vals. intros q Hq. assert (Hx : 0 < q * rho) by (apply Rmult_lt_0_compat; auto). destruct (Rltb_spec 0 (q * rho)); [|lra].
  f_equal. rewrite cos_power_transform by auto. rewrite <- (bessel_poisson n (q * rho) Hx). unfold Rdiv. ring.
Qed.
Print Assumptions C65_orders.
(** at the wavenumber 0 the transform of every source is 1; the code returns 1 / (n + 2) *)
Theorem C65_orders_zero_refuted : forall gam jn n rho, 0 < rho ->
  transform (cos_power n rho) rho 0 = 1 /\ sk_limb gam jn n [Some 0] rho = [Some (1 / (INR n + 2))] /\ 1 / (INR n + 2) <= 1 / 2.
Proof.
  intros gam jn n rho Hr. pose proof (pos_INR n) as Pn. split; [|split].
  - rewrite cos_power_transform by auto. pose proof (mom_pos (n + 2)) as P. rewrite (rext _ (fun t => sqrt (1 - t ^ 2) ^ (n + 1) * t ^ (2 * 0))); [|lra|intros; rewrite !Rmult_0_l, cos_0; simpl; ring].
    rewrite wpow_mom. replace (n + 1 + 1)%nat with (n + 2)%nat by lia. field. lra.
  - unfold sk_limb. rewrite per_k_one, Rmult_0_l. destruct (Rltb_spec 0 0); [lra|reflexivity].
  - apply Rmult_le_compat_l; [lra|]. apply Rinv_le_contravar; lra.
Qed.
Print Assumptions C65_orders_zero_refuted.
(** the gamma function meant here is the one of C69, and order 1 at the argument pi is the value of C65_case *)
Theorem C65_gamma_values : (forall x, 0 < x -> is_Gamma (RtoC x) (RtoC (gammaR x))) /\ (forall x, 0 < x -> gammaR (x + 1) = x * gammaR x) /\ gammaR 1.5 = sqrt PI / 2 /\ gammaR 2 = 1.
Proof.
  split; [exact gammaR_is|]. split; [exact gammaR_step|]. split; apply RtoC_inj.
  - apply (P_Gamma.Gamma_unique (RtoC 1.5)); [apply gammaR_is; lra|apply gamma_3_2].
  - apply (P_Gamma.Gamma_unique (RtoC 2)); [apply gammaR_is; lra|apply gamma_2].
Qed.
Print Assumptions C65_gamma_values.
Example C65_orders_case : sk_limb gammaR bessel_nu 1 [Some (10 * PI)] 0.1 = [Some (3 / PI ^ 2)].
Proof.
  pose proof PI_RGT_0. change [Some (10 * PI)] with (map Some [10 * PI]). rewrite (C65_orders 1 [10 * PI] 0.1 ltac:(lra) ltac:(intros q [<-|[]]; lra)). cbn [map]. do 2 f_equal.
  transitivity (transform (root 0.1) 0.1 (10 * PI)).
  - unfold transform. assert (E : forall t, strip (cos_power 1 0.1) 0.1 t = strip (root 0.1) 0.1 t). { intros t. unfold strip. apply RInt_ext. intros y _. unfold cos_power, root. apply pow_1. }
    f_equal; apply RInt_ext; intros t _; rewrite E; reflexivity.
  - rewrite root_transform by lra. replace (10 * PI * 0.1) with PI by lra. rewrite sin_PI, cos_PI. field. lra.
Qed.
