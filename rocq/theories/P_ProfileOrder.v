(** Limb-darkening laws of any order: moments of the weights, Poisson's integral against the series. *)
From Coq Require Import Reals List Bool Arith ZArith Lia Lra.
From Coquelicot Require Import Coquelicot.
From Verif Require Import Base_R Base_C S_Gamma S_Profile S_ProfileOrder P_Profile P_BesselPoisson P_Stirling P_Gamma P_GammaKer Thm_ProfileGamma.
Local Open Scope R_scope.

(** ** the gamma function on the positive axis *)
Lemma gammaR_is x : 0 < x -> is_Gamma (RtoC x) (RtoC (gammaR x)).
Proof.
  intros Hx. destruct (gamma_accuracy (RtoC x) Hx) as (g & _ & G & _). destruct (gamma_real_pos x g Hx G) as (r & Hr & ->).
  assert (E : gammaR x = r).
  { unfold gammaR. replace (Finite r) with (Finite r) by reflexivity. rewrite (is_lim_seq_unique _ (Finite r)); [reflexivity|].
    apply is_lim_seq_Reals. intros eps He. destruct (G eps He) as (N & HN). exists N. intros n Hn. specialize (HN n Hn). unfold R_dist.
    eapply Rle_lt_trans; [|exact HN]. pose proof (proj1 (comp_le (gauss (RtoC x) n - RtoC r)%C)) as B. exact B. }
  rewrite E. exact G.
Qed.
Lemma gammaR_step x : 0 < x -> gammaR (x + 1) = x * gammaR x.
Proof.
  intros Hx. apply RtoC_inj. apply (Gamma_unique (RtoC (x + 1))). apply gammaR_is; lra. rewrite RtoC_plus, RtoC_mult. apply is_Gamma_step; [|now apply gammaR_is].
  intros k E. apply RtoC_inj in E. pose proof (pos_INR k). lra.
Qed.
Lemma gammaR_pos x : 0 < x -> 0 < gammaR x.
Proof.
  intros Hx. destruct (gamma_accuracy (RtoC x) Hx) as (g & _ & G & _ & N & _). destruct (gamma_real_pos x g Hx G) as (r & Hr & ->).
  pose proof (Gamma_unique _ _ _ G (gammaR_is x Hx)) as E. apply RtoC_inj in E. rewrite <- E. destruct Hr as [|<-]; auto. exfalso. now apply N.
Qed.

(** ** moments *)
Lemma mom_split a k : mom (a + 2) k = mom a k - mom a (S k).
Proof.
  unfold mom. pose proof PI_RGT_0.
  rewrite <- (Rmult_1_l (RInt (fun t => cos t ^ a * sin t ^ (2 * k)) (- (PI / 2)) (PI / 2))), <- (Rmult_1_l (RInt (fun t => cos t ^ a * sin t ^ (2 * S k)) (- (PI / 2)) (PI / 2))).
  rewrite <- (lin2 (fun t => cos t ^ a * sin t ^ (2 * k)) (fun t => cos t ^ a * sin t ^ (2 * S k))) by (apply cont_ex, mom_cont). apply rext; [lra|]. intros t _.
  rewrite pow_add. replace (2 * S k)%nat with (2 * k + 2)%nat by lia. rewrite pow_add. pose proof (sin2_cos2 t) as E. unfold Rsqr in E. replace (cos t ^ 2) with (1 - sin t ^ 2) by (simpl; lra). ring.
Qed.
Lemma mom_by_parts a k : INR (2 * k + 1) * mom (a + 2) k = INR (a + 1) * mom a (S k).
Proof.
  unfold mom. pose proof PI_RGT_0.
  pose proof (ftc (fun t => sin t ^ (2 * k + 1) * cos t ^ (a + 1)) (fun t => INR (2 * k + 1) * (cos t ^ (a + 2) * sin t ^ (2 * k)) - INR (a + 1) * (cos t ^ a * sin t ^ (2 * S k))) (- (PI / 2)) (PI / 2)) as F.
  cbv beta in F. rewrite cos_neg, cos_PI2 in F. rewrite (lin2 (fun t => cos t ^ (a + 2) * sin t ^ (2 * k)) (fun t => cos t ^ a * sin t ^ (2 * S k))) in F by (apply cont_ex, mom_cont).
  rewrite (pow_ne_zero (a + 1)) in F by lia. apply Rminus_diag_uniq. rewrite F; [ring| |].
  - intros t. evar_last. { apply (is_derive_mult (fun t => sin t ^ (2 * k + 1)) (fun t => cos t ^ (a + 1)) t). apply (is_derive_pow sin (2 * k + 1) t (cos t)), is_derive_sin. apply (is_derive_pow cos (a + 1) t (- sin t)), is_derive_cos. apply Rmult_comm. }
    unfold plus, mult; cbn -[INR pow Nat.mul Nat.add]. replace (pred (2 * k + 1)) with (2 * k)%nat by lia. replace (pred (a + 1)) with a by lia. replace (2 * S k)%nat with (2 * k + 2)%nat by lia. rewrite !pow_add. ring.
  - intros t. apply (continuous_minus (V := R_NormedModule)); apply (continuous_scal_r (V := R_NormedModule) _ (fun t => _ * _)); apply mom_cont.
Qed.
Lemma mom_next a k : INR (2 * k + a + 2) * mom a (S k) = INR (2 * k + 1) * mom a k.
Proof.
  pose proof (mom_by_parts a k) as B. rewrite mom_split in B. rewrite !plus_INR in *. change (INR 1) with 1 in *. change (INR 2) with 2 in *. set (m := mom a k) in *. set (m1 := mom a (S k)) in *. set (x := INR (2 * k)) in *. set (A := INR a) in *. clearbody m m1 x A. apply Rminus_diag_uniq. replace ((x + A + 2) * m1 - (x + 1) * m) with ((A + 1) * m1 - (x + 1) * (m - m1)) by ring. rewrite B. ring.
Qed.
Lemma mom_closed a k : mom a k = mom a 0 * gammaR (INR a / 2 + 1) * INR (fact (2 * k)) / (4 ^ k * INR (fact k) * gammaR (INR k + INR a / 2 + 1)).
Proof.
  pose proof (pos_INR a) as Pa. induction k as [|k IH].
  - cbn [INR]. rewrite Rplus_0_l. pose proof (gammaR_pos (INR a / 2 + 1) ltac:(lra)). simpl (fact _). simpl (4 ^ 0). change (INR 1) with 1. field. lra.
  - pose proof (pos_INR k). pose proof (mom_next a k) as N. rewrite IH in N. replace (INR (S k) + INR a / 2 + 1) with (INR k + INR a / 2 + 1 + 1) by (rewrite S_INR; ring). rewrite (gammaR_step (INR k + INR a / 2 + 1)) by lra.
    pose proof (gammaR_pos (INR k + INR a / 2 + 1) ltac:(lra)) as G1. set (g := gammaR (INR k + INR a / 2 + 1)) in *. set (g0 := gammaR (INR a / 2 + 1)) in *. set (m := mom a (S k)) in *. set (m0 := mom a 0) in *. clearbody g g0 m m0.
    replace (2 * S k)%nat with (S (S (2 * k))) by lia. rewrite (fact_simpl (S (2 * k))), (fact_simpl (2 * k)), (fact_simpl k), !mult_INR. cbn [pow]. pose proof (INR_fact_lt_0 k). pose proof (INR_fact_lt_0 (2 * k)). pose proof (pow_lt 4 k ltac:(lra)).
    rewrite !S_INR, !plus_INR, !mult_INR in *. change (INR 2) with 2 in *. change (INR 1) with 1 in *. set (x := INR k) in *. set (A := INR a) in *. set (f := INR (fact k)) in *. set (f2 := INR (fact (2 * k))) in *. set (p := 4 ^ k) in *. clearbody x A f f2 p.
    apply (Rmult_eq_reg_l (2 * x + A + 2)); [|lra]. rewrite N. field. repeat split; lra.
Qed.
Lemma mom_pos a : 0 < mom a 0.
Proof.
  unfold mom. pose proof PI_RGT_0. apply RInt_gt_0; [lra| |].
  - intros t Ht. simpl (2 * 0)%nat. rewrite pow_O, Rmult_1_r. apply pow_lt. apply cos_gt_0; lra.
  - intros t _. apply mom_cont.
Qed.

(** ** Poisson's integral as a series *)
Section Series.
Variables (w : R -> R) (M : nat -> R).
Hypothesis Hw : forall t, continuous w t.
Hypothesis Hw1 : forall t, -1 <= t <= 1 -> Rabs (w t) <= 1.
Hypothesis HM : forall k, RInt (fun t => w t * t ^ (2 * k)) (-1) 1 = M k.
Let term x k := (-1) ^ k * (x ^ (2 * k) / INR (fact (2 * k))) * M k.
Lemma partial_sum m x : RInt (fun t => w t * tc (S m) (x * t)) (-1) 1 = sum_n (term x) m.
Proof.
  assert (St : forall m, RInt (fun t => w t * tc (S m) (x * t)) (-1) 1 = RInt (fun t => w t * tc m (x * t)) (-1) 1 + term x m).
  { intros n. rewrite (rext _ (fun t => w t * tc n (x * t) + (-1) ^ n * x ^ (2 * n) / INR (fact (2 * n)) * (w t * t ^ (2 * n)))); [|lra|].
    2: { intros t _. cbn [tc]. rewrite Rpow_mult_distr. unfold Rdiv. ring. }
    rewrite (RInt_plus (V := R_CompleteNormedModule) (fun t => w t * tc n (x * t)) (fun t => (-1) ^ n * x ^ (2 * n) / INR (fact (2 * n)) * (w t * t ^ (2 * n)))).
    - rewrite (RInt_scal (V := R_CompleteNormedModule) (fun t => w t * t ^ (2 * n))) by (apply wmul_ex; auto; apply pow_cont). rewrite HM. unfold term. unfold plus, scal; simpl; unfold mult; simpl. unfold Rdiv. ring.
    - apply wmul_ex; auto. apply tc_cont.
    - apply (ex_RInt_scal (V := R_NormedModule) (fun t => w t * t ^ (2 * n))). apply wmul_ex; auto. apply pow_cont. }
  induction m as [|m IH].
  - rewrite sum_O, St. rewrite (rext _ (fun _ => 0)); [|lra|intros; cbn [tc]; ring]. rewrite RInt_const. unfold scal; simpl; unfold mult; simpl. ring.
  - rewrite sum_Sn, St, IH. reflexivity.
Qed.
Lemma close m x : Rabs (RInt (fun t => w t * cos (x * t)) (-1) 1 - RInt (fun t => w t * tc m (x * t)) (-1) 1) <= 2 * (Rabs x ^ (2 * m) / INR (fact (2 * m))).
Proof.
  assert (X1 : ex_RInt (fun t => w t * cos (x * t)) (-1) 1) by (apply wmul_ex; auto; intros; apply ccont). assert (X2 : ex_RInt (fun t => w t * tc m (x * t)) (-1) 1) by (apply wmul_ex; auto; apply tc_cont).
  pose proof (RInt_minus (V := R_CompleteNormedModule) _ _ _ _ X1 X2) as Em. change (RInt (fun t => minus (w t * cos (x * t)) (w t * tc m (x * t))) (-1) 1 = RInt (fun t => w t * cos (x * t)) (-1) 1 - RInt (fun t => w t * tc m (x * t)) (-1) 1) in Em. rewrite <- Em. clear Em.
  set (B := Rabs x ^ (2 * m) / INR (fact (2 * m))). replace (2 * B) with ((1 - -1) * B) by ring.
  apply (abs_RInt_le_const (fun t => minus (w t * cos (x * t)) (w t * tc m (x * t))) (-1) 1 B); [lra| |].
  - apply (ex_RInt_minus (V := R_NormedModule)); auto.
  - intros t Ht. change (minus (w t * cos (x * t)) (w t * tc m (x * t))) with (w t * cos (x * t) - w t * tc m (x * t)). rewrite <- Rmult_minus_distr_l, Rabs_mult. rewrite <- (Rmult_1_l B). apply Rmult_le_compat; auto using Rabs_pos.
    eapply Rle_trans; [apply cos_rem_abs|]. unfold B. apply Rmult_le_compat_r; [left; apply Rinv_0_lt_compat, INR_fact_lt_0|]. apply pow_incr. split; [apply Rabs_pos|]. rewrite Rabs_mult. rewrite <- (Rmult_1_r (Rabs x)) at 2. apply Rmult_le_compat_l; [apply Rabs_pos|]. apply Rabs_le; lra.
Qed.
Lemma poisson_series x : is_series (term x) (RInt (fun t => w t * cos (x * t)) (-1) 1).
Proof.
  change (is_lim_seq (sum_n (term x)) (RInt (fun t => w t * cos (x * t)) (-1) 1)).
  apply is_lim_seq_Reals. intros eps He. destruct (cv_speed_pow_fact (Rabs x) (eps / 2) ltac:(lra)) as [N HN]. exists N. intros m Hm. specialize (HN (2 * S m)%nat ltac:(lia)). unfold R_dist in *. rewrite <- partial_sum, Rabs_minus_sym. eapply Rle_lt_trans; [apply close|].
  rewrite Rminus_0_r in HN. apply Rabs_lt_between in HN. lra.
Qed.
End Series.

(** ** the weights of the limb-darkening laws *)
Lemma wpow_cont n (t : R) : continuous (fun t => sqrt (1 - t ^ 2) ^ n) t.
Proof. apply (continuous_comp (fun t => sqrt (1 - t ^ 2)) (fun v => v ^ n)); [apply wcont|apply pow_cont]. Qed.
Lemma wpow_mom n k : RInt (fun t => sqrt (1 - t ^ 2) ^ n * t ^ (2 * k)) (-1) 1 = mom (n + 1) k.
Proof.
  pose proof PI_RGT_0. rewrite by_sine. 2: { intros t. apply (continuous_mult (K := R_AbsRing) (fun t => sqrt (1 - t ^ 2) ^ n)); [apply wpow_cont|apply pow_cont]. }
  unfold mom. apply rext; [lra|]. intros t Ht. rewrite root_sine by lra. rewrite pow_add. ring.
Qed.
Lemma wpow_le n t : -1 <= t <= 1 -> Rabs (sqrt (1 - t ^ 2) ^ n) <= 1.
Proof. intros Ht. pose proof (w_le t Ht) as [L U]. apply Rabs_le. pose proof (pow_incr _ 1 n (conj L U)) as I. rewrite pow1 in I. pose proof (pow_le _ n L). lra. Qed.
Lemma cos_power_cont n rho r : continuous (cos_power n rho) r.
Proof. apply (continuous_comp (root rho) (fun v => v ^ n)); [apply root_cont|apply pow_cont]. Qed.
Lemma cos_power_strip n rho t : 0 < rho -> Rabs t < 1 -> strip (cos_power n rho) rho (rho * t) = rho * mom (n + 1) 0 * sqrt (1 - t ^ 2) ^ (n + 1).
Proof.
  intros Hr Ht. assert (H1 : 0 <= 1 - t ^ 2) by (apply Rabs_def2 in Ht; nra). rewrite (strip_unit _ (fun s => sqrt (1 - t ^ 2) ^ n * sqrt (1 - s ^ 2) ^ n)); auto.
  - assert (E : RInt (fun s => sqrt (1 - t ^ 2) ^ n * sqrt (1 - s ^ 2) ^ n) (-1) 1 = sqrt (1 - t ^ 2) ^ n * mom (n + 1) 0).
    { rewrite <- wpow_mom. rewrite (rext (fun t => sqrt (1 - t ^ 2) ^ n * t ^ (2 * 0)) (fun s => sqrt (1 - s ^ 2) ^ n)); [|lra|intros; simpl; ring].
      apply (RInt_scal (V := R_CompleteNormedModule) (fun s => sqrt (1 - s ^ 2) ^ n)). apply cont_ex, wpow_cont. }
    rewrite E, pow_add. ring.
  - apply cos_power_cont.
  - intros s Hs. unfold cos_power. rewrite radius_eq by auto. rewrite sqrt_mult; auto; [apply Rpow_mult_distr|]. apply Rabs_def2 in Hs; nra.
Qed.
Lemma cos_power_transform n rho k : 0 < rho -> transform (cos_power n rho) rho k = RInt (fun t => sqrt (1 - t ^ 2) ^ (n + 1) * cos (k * rho * t)) (-1) 1 / mom (n + 2) 0.
Proof.
  intros Hr. pose proof (mom_pos (n + 1)) as P. rewrite (transform_unit _ (fun t => sqrt (1 - t ^ 2) ^ (n + 1)) (rho * mom (n + 1) 0)); auto.
  - f_equal. replace (n + 2)%nat with (n + 1 + 1)%nat by lia. rewrite <- wpow_mom. apply rext; [lra|]. intros; simpl; ring.
  - apply Rmult_integral_contrapositive_currified; lra.
  - apply wpow_cont.
  - intros t Ht. apply cos_power_strip; auto.
Qed.
(** Poisson: the series of the Bessel function *)
Lemma bessel_poisson n x : 0 < x -> let nu := 1 + INR n / 2 in
  bessel_nu nu x * (Rpower 2 nu * (nu * gammaR nu) / Rpower x nu) = RInt (fun t => sqrt (1 - t ^ 2) ^ (n + 1) * cos (x * t)) (-1) 1 / mom (n + 2) 0.
Proof.
  intros Hx nu. pose proof (pos_INR n) as Pn. assert (Hnu : 0 < nu) by (unfold nu; lra). pose proof (mom_pos (n + 2)) as Pm. pose proof (gammaR_pos nu Hnu) as Pg.
  assert (HM : forall k, RInt (fun t => sqrt (1 - t ^ 2) ^ (n + 1) * t ^ (2 * k)) (-1) 1 = mom (n + 2) k) by (intros k; rewrite wpow_mom; f_equal; lia).
  assert (Sr := poisson_series (fun t => sqrt (1 - t ^ 2) ^ (n + 1)) (mom (n + 2)) (wpow_cont _) (wpow_le _) HM x).
  assert (PX : 0 < Rpower x nu) by apply exp_pos. assert (P2 : 0 < Rpower 2 nu) by apply exp_pos.
  set (I := RInt (fun t => sqrt (1 - t ^ 2) ^ (n + 1) * cos (x * t)) (-1) 1) in *.
  assert (E : bessel_nu nu x = Rpower x nu / (Rpower 2 nu * (nu * gammaR nu) * mom (n + 2) 0) * I).
  { unfold bessel_nu. apply is_series_unique.
    apply (is_series_ext (fun k => scal (Rpower x nu / (Rpower 2 nu * (nu * gammaR nu) * mom (n + 2) 0)) ((-1) ^ k * (x ^ (2 * k) / INR (fact (2 * k))) * mom (n + 2) k))).
    - intros k. rewrite (mom_closed (n + 2) k). replace (INR (n + 2) / 2) with nu by (unfold nu; rewrite plus_INR; simpl (INR 2); lra). rewrite (gammaR_step nu) by auto.
      assert (Ek : Rpower (x / 2) (2 * INR k + nu) = x ^ (2 * k) / 4 ^ k * (Rpower x nu / Rpower 2 nu)).
      { unfold Rdiv. rewrite Rpower_plus. replace (2 * INR k) with (INR (2 * k)) by (rewrite mult_INR; reflexivity). assert (H2 : 0 < / 2) by lra. assert (H3 : 0 < x * / 2) by lra. rewrite Rpower_pow by exact H3. rewrite Rpow_mult_distr.
        rewrite <- (Rpower_mult_distr x (/ 2) nu Hx H2). unfold Rpower. rewrite ln_Rinv by lra. replace (nu * - ln 2) with (- (nu * ln 2)) by ring. rewrite exp_Ropp. rewrite pow_inv. rewrite !pow_mult. replace (2 ^ 2) with 4 by ring. ring. }
      rewrite Ek. pose proof (pos_INR k). pose proof (gammaR_pos (INR k + nu + 1) ltac:(lra)). pose proof (INR_fact_lt_0 k). pose proof (INR_fact_lt_0 (2 * k)). pose proof (pow_lt 4 k ltac:(lra)). match goal with |- scal ?u ?v = ?y => change (@eq R (u * v) y) end. field. repeat split; lra.
    - apply (is_series_scal (V := R_NormedModule) _ _ I). exact Sr. }
  rewrite E. field. repeat split; lra.
Qed.
