(** The Bessel functions of order 1 and 2 by Poisson's integral are those by the series. *)
From Coq Require Import Reals Lia Lra.
From Coquelicot Require Import Coquelicot.
From Verif Require Import S_Bessel S_Profile P_Profile P_BesselSeries.
Local Open Scope R_scope.

(** ** remainder of the cosine series *)
Fixpoint tc (n : nat) (y : R) : R := match n with O => 0 | S n => tc n y + (-1) ^ n * (y ^ (2 * n) / INR (fact (2 * n))) end.
Fixpoint ts (n : nat) (y : R) : R := match n with O => 0 | S n => ts n y + (-1) ^ n * (y ^ (2 * n + 1) / INR (fact (2 * n + 1))) end.
Lemma pw_derive k (y : R) : is_derive (fun y => y ^ S k / INR (fact (S k))) y (y ^ k / INR (fact k)).
Proof.
  apply (is_derive_ext (fun y => / INR (fact (S k)) * y ^ S k)). { intros t. apply Rmult_comm. }
  evar_last. { apply is_derive_scal. apply (is_derive_pow (fun y : R => y) (S k) y 1). apply (is_derive_id (K := R_AbsRing)). }
  rewrite fact_simpl, mult_INR. pose proof (INR_fact_lt_0 k). assert (0 < INR (S k)) by (apply lt_0_INR; lia). cbn [Init.Nat.pred]. field. split; lra.
Qed.
Lemma ts_derive n (y : R) : is_derive (ts n) y (tc n y).
Proof.
  induction n as [|n IH]; cbn [ts tc]; [apply (is_derive_const (V := R_NormedModule) 0 y)|]. apply (is_derive_plus (V := R_NormedModule) (ts n)); [exact IH|]. apply (is_derive_scal (fun y => y ^ (2 * n + 1) / INR (fact (2 * n + 1)))). replace (2 * n + 1)%nat with (S (2 * n)) by lia. apply pw_derive.
Qed.
Lemma tc_derive n (y : R) : is_derive (tc (S n)) y (- ts n y).
Proof.
  induction n as [|n IH].
  - cbn [tc ts]. apply (is_derive_ext (fun _ => 1)). { intros t. simpl. field. } evar_last. apply (is_derive_const (V := R_NormedModule) 1 y). change (0 = - 0). ring.
  - replace (- ts (S n) y) with (- ts n y + (-1) ^ S n * (y ^ (2 * n + 1) / INR (fact (2 * n + 1)))) by (cbn [ts pow]; ring). apply (is_derive_plus (V := R_NormedModule) (tc (S n))); [exact IH|]. apply (is_derive_scal (fun y => y ^ (2 * S n) / INR (fact (2 * S n)))). replace (2 * S n)%nat with (S (2 * n + 1)) by lia. apply pw_derive.
Qed.
Lemma dominate (f f' g g' : R -> R) : (forall t, is_derive f t (f' t)) -> (forall t, is_derive g t (g' t)) -> f 0 = 0 -> g 0 = 0 -> (forall t, 0 <= t -> Rabs (f' t) <= g' t) -> forall y, 0 <= y -> Rabs (f y) <= g y.
Proof.
  intros Hf Hg F0 G0 H y Hy. destruct (Req_dec y 0) as [->|N]; [rewrite F0, G0, Rabs_R0; lra|].
  assert (M : forall s, s = 1 \/ s = -1 -> s * f y <= g y).
  { intros s Hs. destruct (MVT_gen (fun t => g t - s * f t) 0 y (fun t => g' t - s * f' t)) as (c & Hc & E).
    - intros t _. apply (is_derive_minus (V := R_NormedModule) g (fun t => s * f t)); [apply Hg|]. apply is_derive_scal, Hf.
    - intros t _. apply continuity_pt_filterlim. apply (ex_derive_continuous (K := R_AbsRing) (V := R_NormedModule) (fun t => g t - s * f t)). eexists. apply (is_derive_minus (V := R_NormedModule) g (fun t => s * f t)); [apply Hg|]. apply is_derive_scal, Hf.
    - rewrite Rmin_left, Rmax_right in Hc by lra. specialize (H c ltac:(lra)). apply Rabs_le_between in H. rewrite F0, G0 in E. assert (0 <= g' c - s * f' c) by (destruct Hs as [->| ->]; lra). assert (0 <= (g' c - s * f' c) * (y - 0)) by (apply Rmult_le_pos; lra). lra. }
  pose proof (M 1 ltac:(auto)). pose proof (M (-1) ltac:(auto)). apply Rabs_le. lra.
Qed.
Lemma tc_0 n : tc (S n) 0 = 1.
Proof. induction n as [|n IH]; [simpl; field|]. change (tc (S n) 0 + (-1) ^ S n * (0 ^ (2 * S n) / INR (fact (2 * S n))) = 1). rewrite IH, pow_ne_zero by lia. unfold Rdiv. ring. Qed.
Lemma ts_0 n : ts n 0 = 0.
Proof. induction n as [|n IH]; [reflexivity|]. cbn [ts]. rewrite IH, pow_ne_zero by lia. unfold Rdiv. ring. Qed.
Lemma cos_rem n : forall y, 0 <= y -> Rabs (cos y - tc n y) <= y ^ (2 * n) / INR (fact (2 * n)).
Proof.
  induction n as [|n IH]; intros y Hy.
  - simpl. rewrite Rminus_0_r. pose proof (COS_bound y). replace (1 / 1) with 1 by field. apply Rabs_le. lra.
  - assert (S : forall t, 0 <= t -> Rabs (sin t - ts n t) <= t ^ (2 * n + 1) / INR (fact (2 * n + 1))).
    { apply (dominate (fun t => sin t - ts n t) (fun t => cos t - tc n t) (fun t => t ^ (2 * n + 1) / INR (fact (2 * n + 1))) (fun t => t ^ (2 * n) / INR (fact (2 * n)))).
      - intros t. apply (is_derive_minus (V := R_NormedModule) sin (ts n)); [apply is_derive_sin|apply ts_derive].
      - intros t. replace (2 * n + 1)%nat with (S (2 * n)) by lia. apply pw_derive.
      - rewrite sin_0, ts_0. ring. - rewrite pow_ne_zero by lia. unfold Rdiv. ring. - exact IH. }
    apply (dominate (fun t => cos t - tc (Datatypes.S n) t) (fun t => - sin t - - ts n t) (fun t => t ^ (2 * Datatypes.S n) / INR (fact (2 * Datatypes.S n))) (fun t => t ^ (2 * n + 1) / INR (fact (2 * n + 1)))); auto.
    + intros t. apply (is_derive_minus (V := R_NormedModule) cos (tc (Datatypes.S n))); [apply is_derive_cos|apply tc_derive].
    + intros t. replace (2 * Datatypes.S n)%nat with (Datatypes.S (2 * n + 1)) by lia. apply pw_derive.
    + rewrite cos_0, tc_0. ring. + rewrite pow_ne_zero by lia. unfold Rdiv. ring.
    + intros t Ht. replace (- sin t - - ts n t) with (- (sin t - ts n t)) by ring. rewrite Rabs_Ropp. auto.
Qed.
Lemma tc_even n y : tc n (- y) = tc n y.
Proof. induction n as [|n IH]; cbn [tc]; auto. rewrite IH. f_equal. f_equal. f_equal. rewrite !pow_mult. f_equal. ring. Qed.
Lemma cos_rem_abs n y : Rabs (cos y - tc n y) <= Rabs y ^ (2 * n) / INR (fact (2 * n)).
Proof.
  unfold Rabs at 2. destruct (Rcase_abs y) as [H|H]; [|apply cos_rem; lra]. rewrite <- (tc_even n y), <- (cos_neg y). apply cos_rem. lra.
Qed.

(** ** moments *)
Lemma psum_snoc n m z : forall k, psum n k (S m) z = psum n k m z + bc n (k + m) * z ^ m.
Proof.
  induction m as [|m IH]; intros k; [cbn [psum pow]; rewrite Nat.add_0_r; ring|]. change (psum n k (S (S m)) z) with (bc n k + z * psum n (S k) (S m) z). rewrite IH. cbn [psum pow]. replace (S k + m)%nat with (k + S m)%nat by lia. ring.
Qed.
Lemma psum_lim n z : is_lim_seq (fun m => psum n 0 m z) (G n z).
Proof.
  apply is_lim_seq_incr_1. apply (is_lim_seq_ext (sum_n (fun k => bc n k * z ^ k))).
  - intros m. induction m as [|m IH]; [rewrite sum_O; simpl; ring|]. rewrite sum_Sn, IH, (psum_snoc n (S m)). reflexivity.
  - pose proof (PSeries_correct _ _ (bc_ex n z)) as H. apply is_pseries_R in H. exact H.
Qed.
Section Weight.
Variables (w : R -> R) (M : nat -> R) (c : R) (n : nat).
Hypothesis Hw : forall t, continuous w t.
Hypothesis Hw1 : forall t, -1 <= t <= 1 -> Rabs (w t) <= 1.
Hypothesis HM : forall k, RInt (fun t => w t * t ^ (2 * k)) (-1) 1 = M k.
Hypothesis Hc : forall k, M k / INR (fact (2 * k)) = c / (4 ^ k * INR (fact k) * INR (fact (k + n))).
Lemma pow_cont k (t : R) : continuous (fun t => t ^ k) t.
Proof. apply (@ex_derive_continuous R_AbsRing R_NormedModule). auto_derive. auto. Qed.
Lemma tc_cont m x (t : R) : continuous (fun t => tc m (x * t)) t.
Proof.
  apply (continuous_comp (fun t => x * t) (tc m)). - apply (@ex_derive_continuous R_AbsRing R_NormedModule). auto_derive. auto.
  - apply (@ex_derive_continuous R_AbsRing R_NormedModule). destruct m as [|m]; [apply (ex_derive_const (V := R_NormedModule) 0)|eexists; apply tc_derive].
Qed.
Lemma wmul_ex (f : R -> R) : (forall t, continuous f t) -> ex_RInt (fun t => w t * f t) (-1) 1.
Proof. intros H. apply cont_ex. intros t. apply (continuous_mult (K := R_AbsRing) w f t); auto. Qed.
Lemma moment_sum m x : RInt (fun t => w t * tc m (x * t)) (-1) 1 = c * psum n 0 m (x ^ 2).
Proof.
  induction m as [|m IH].
  - cbn [psum]. rewrite (rext _ (fun _ => 0)); [|lra|intros; cbn [tc]; ring]. rewrite RInt_const. unfold scal; simpl; unfold mult; simpl. ring.
  - rewrite psum_snoc, Rmult_plus_distr_l, <- IH. rewrite (rext _ (fun t => w t * tc m (x * t) + (-1) ^ m * x ^ (2 * m) / INR (fact (2 * m)) * (w t * t ^ (2 * m)))); [|lra|].
    2: { intros t _. cbn [tc]. rewrite Rpow_mult_distr. unfold Rdiv. ring. }
    rewrite (RInt_plus (V := R_CompleteNormedModule) (fun t => w t * tc m (x * t)) (fun t => (-1) ^ m * x ^ (2 * m) / INR (fact (2 * m)) * (w t * t ^ (2 * m)))).
    + rewrite (RInt_scal (V := R_CompleteNormedModule) (fun t => w t * t ^ (2 * m))) by (apply wmul_ex, pow_cont). rewrite HM. change (RInt (fun t => w t * tc m (x * t)) (-1) 1 + (-1) ^ m * x ^ (2 * m) / INR (fact (2 * m)) * M m = RInt (fun t => w t * tc m (x * t)) (-1) 1 + c * (bc n (0 + m) * (x ^ 2) ^ m)). f_equal.
      replace ((-1) ^ m * x ^ (2 * m) / INR (fact (2 * m)) * M m) with ((-1) ^ m * x ^ (2 * m) * (M m / INR (fact (2 * m)))) by (unfold Rdiv; ring). rewrite Hc. unfold bc. rewrite pow_mult. unfold Rdiv. cbn [Init.Nat.add]. ring.
    + apply wmul_ex, tc_cont.
    + apply (ex_RInt_scal (V := R_NormedModule) (fun t => w t * t ^ (2 * m))). apply wmul_ex, pow_cont.
Qed.
Lemma moment_close m x : Rabs (RInt (fun t => w t * cos (x * t)) (-1) 1 - c * psum n 0 m (x ^ 2)) <= 2 * (Rabs x ^ (2 * m) / INR (fact (2 * m))).
Proof.
  rewrite <- moment_sum.
  assert (X1 : ex_RInt (fun t => w t * cos (x * t)) (-1) 1) by (apply wmul_ex; intros; apply ccont). assert (X2 : ex_RInt (fun t => w t * tc m (x * t)) (-1) 1) by (apply wmul_ex, tc_cont).
  change (RInt (fun t => w t * cos (x * t)) (-1) 1 - RInt (fun t => w t * tc m (x * t)) (-1) 1) with (minus (RInt (fun t => w t * cos (x * t)) (-1) 1) (RInt (fun t => w t * tc m (x * t)) (-1) 1)). rewrite <- (RInt_minus (V := R_CompleteNormedModule)) by auto.
  set (B := Rabs x ^ (2 * m) / INR (fact (2 * m))). replace (2 * B) with ((1 - -1) * B) by ring.
  apply (abs_RInt_le_const (fun t => minus (w t * cos (x * t)) (w t * tc m (x * t))) (-1) 1 B); [lra| |].
  - apply (ex_RInt_minus (V := R_NormedModule)); auto.
  - intros t Ht. change (minus (w t * cos (x * t)) (w t * tc m (x * t))) with (w t * cos (x * t) - w t * tc m (x * t)). rewrite <- Rmult_minus_distr_l, Rabs_mult. rewrite <- (Rmult_1_l B). apply Rmult_le_compat; auto using Rabs_pos.
    eapply Rle_trans; [apply cos_rem_abs|]. unfold B. apply Rmult_le_compat_r; [left; apply Rinv_0_lt_compat, INR_fact_lt_0|]. apply pow_incr. split; [apply Rabs_pos|]. rewrite Rabs_mult. rewrite <- (Rmult_1_r (Rabs x)) at 2. apply Rmult_le_compat_l; [apply Rabs_pos|]. apply Rabs_le. lra.
Qed.
Lemma poisson x : RInt (fun t => w t * cos (x * t)) (-1) 1 = c * G n (x ^ 2).
Proof.
  assert (L1 : is_lim_seq (fun m => c * psum n 0 m (x ^ 2)) (c * G n (x ^ 2))).
  { apply (is_lim_seq_scal_l (fun m => psum n 0 m (x ^ 2)) c (G n (x ^ 2))). apply psum_lim. }
  assert (L2 : is_lim_seq (fun m => c * psum n 0 m (x ^ 2)) (RInt (fun t => w t * cos (x * t)) (-1) 1)).
  { apply is_lim_seq_Reals. intros eps He. destruct (cv_speed_pow_fact (Rabs x) (eps / 2) ltac:(lra)) as [N HN]. exists N. intros m Hm. specialize (HN (2 * m)%nat ltac:(lia)). unfold R_dist in *. rewrite Rabs_minus_sym. eapply Rle_lt_trans; [apply moment_close|].
    rewrite Rminus_0_r in HN. apply Rabs_lt_between in HN. lra. }
  apply is_lim_seq_unique in L1. apply is_lim_seq_unique in L2. rewrite L1 in L2. injection L2 as L2. auto.
Qed.
End Weight.

(** ** the two weights *)
Definition mom (a k : nat) : R := RInt (fun t => cos t ^ a * sin t ^ (2 * k)) (- (PI / 2)) (PI / 2).
Lemma mom_cont a k (t : R) : continuous (fun t => cos t ^ a * sin t ^ (2 * k)) t.
Proof. apply (@ex_derive_continuous R_AbsRing R_NormedModule). auto_derive. auto. Qed.
Lemma mom4 k : mom 4 k = mom 2 k - mom 2 (S k).
Proof.
  unfold mom. pose proof PI_RGT_0. change (RInt (fun t => cos t ^ 2 * sin t ^ (2 * k)) (- (PI / 2)) (PI / 2) - RInt (fun t => cos t ^ 2 * sin t ^ (2 * S k)) (- (PI / 2)) (PI / 2)) with (minus (RInt (fun t => cos t ^ 2 * sin t ^ (2 * k)) (- (PI / 2)) (PI / 2)) (RInt (fun t => cos t ^ 2 * sin t ^ (2 * S k)) (- (PI / 2)) (PI / 2))).
  rewrite <- (RInt_minus (V := R_CompleteNormedModule)) by (apply cont_ex, mom_cont). apply rext; [lra|]. intros t _. unfold minus, plus, opp; simpl.
  replace (k + S (k + 0))%nat with (S (2 * k)) by lia. cbn [pow]. replace (k + (k + 0))%nat with (2 * k)%nat by lia. pose proof (sin2_cos2 t) as E. unfold Rsqr in E. replace (cos t * (cos t * (cos t * (cos t * 1)))) with (cos t * cos t * (1 - sin t * sin t)) by nra. ring.
Qed.
Lemma lin2 (f g : R -> R) a b lo hi : ex_RInt f lo hi -> ex_RInt g lo hi -> RInt (fun t => a * f t - b * g t) lo hi = a * RInt f lo hi - b * RInt g lo hi.
Proof.
  intros Hf Hg. apply is_RInt_unique. apply (is_RInt_minus (V := R_NormedModule) (fun t => a * f t) (fun t => b * g t)); apply (is_RInt_scal (V := R_NormedModule)); apply (RInt_correct (V := R_CompleteNormedModule)); auto.
Qed.
Lemma mom_parts k : INR (2 * k + 1) * mom 4 k = 3 * mom 2 (S k).
Proof.
  unfold mom. pose proof PI_RGT_0.
  pose proof (ftc (fun t => sin t ^ (2 * k + 1) * cos t ^ 3) (fun t => INR (2 * k + 1) * (cos t ^ 4 * sin t ^ (2 * k)) - 3 * (cos t ^ 2 * sin t ^ (2 * S k))) (- (PI / 2)) (PI / 2)) as F.
  cbv beta in F. rewrite cos_neg, cos_PI2 in F. rewrite (lin2 (fun t => cos t ^ 4 * sin t ^ (2 * k)) (fun t => cos t ^ 2 * sin t ^ (2 * S k))) in F by (apply cont_ex, mom_cont).
  assert (Z : 0 ^ 3 = 0) by ring. rewrite Z in F. apply Rminus_diag_uniq. rewrite F; [ring| |].
  - intros t. evar_last. { apply (is_derive_mult (fun t => sin t ^ (2 * k + 1)) (fun t => cos t ^ 3) t). apply (is_derive_pow sin (2 * k + 1) t (cos t)), is_derive_sin. apply (is_derive_pow cos 3 t (- sin t)), is_derive_cos. apply Rmult_comm. }
    unfold plus, mult; simpl. replace (pred (k + (k + 0) + 1)) with (2 * k)%nat by lia. replace (k + S (k + 0))%nat with (S (2 * k)) by lia. replace (k + (k + 0) + 1)%nat with (S (2 * k)) by lia. cbn [pow]. change (k + (k + 0))%nat with (2 * k)%nat. ring.
  - intros t. apply (@ex_derive_continuous R_AbsRing R_NormedModule). auto_derive. auto.
Qed.
Lemma mom2_0 : mom 2 0 = PI / 2.
Proof.
  unfold mom. pose proof PI_RGT_0. transitivity (RInt (fun t => sqrt (1 - t ^ 2)) (-1) 1); [|apply W1]. rewrite by_sine by (intros; apply wcont). apply rext; [lra|]. intros t Ht. rewrite root_sine by lra. simpl. ring.
Qed.
Lemma mom2_eq k : mom 2 k = PI / 2 * (INR (fact (2 * k)) / (4 ^ k * INR (fact k) * INR (fact (k + 1)))).
Proof.
  induction k as [|k IH]; [rewrite mom2_0; simpl; field|]. pose proof (mom4 k) as A. pose proof (mom_parts k) as B. rewrite A, IH in B. clear A IH. set (m := mom 2 (S k)) in *. clearbody m.
  replace (2 * S k)%nat with (S (S (2 * k))) by lia. replace (S k + 1)%nat with (S (k + 1)) by lia. rewrite (fact_simpl (S (2 * k))), (fact_simpl (2 * k)), (fact_simpl k), (fact_simpl (k + 1)), !mult_INR. cbn [pow].
  rewrite !S_INR, plus_INR, mult_INR in *. change (INR 2) with 2 in *. change (INR 1) with 1 in *. pose proof (pos_INR k). pose proof (INR_fact_lt_0 k). pose proof (INR_fact_lt_0 (k + 1)). pose proof (pow_lt 4 k ltac:(lra)). set (x := INR k) in *. set (f := INR (fact (2 * k))) in *. set (g := INR (fact k)) in *. set (h := INR (fact (k + 1))) in *. set (p := 4 ^ k) in *. clearbody x f g h p.
  assert (E : m * (2 * x + 4) = (2 * x + 1) * (PI / 2 * (f / (p * g * h)))) by lra. apply (Rmult_eq_reg_r (2 * x + 4)); [|lra]. rewrite E. field. repeat split; lra.
Qed.
Lemma mom4_eq k : mom 4 k = 3 * PI / 4 * (INR (fact (2 * k)) / (4 ^ k * INR (fact k) * INR (fact (k + 2)))).
Proof.
  pose proof (mom_parts k) as B. rewrite mom2_eq in B.
  replace (2 * S k)%nat with (S (S (2 * k))) in B by lia. replace (S k + 1)%nat with (k + 2)%nat in B by lia. rewrite (fact_simpl (S (2 * k))), (fact_simpl (2 * k)), (fact_simpl k), !mult_INR in B. cbn [pow] in B.
  rewrite !S_INR, plus_INR, mult_INR in B. change (INR 2) with 2 in *. change (INR 1) with 1 in *. pose proof (pos_INR k). pose proof (INR_fact_lt_0 k). pose proof (INR_fact_lt_0 (k + 2)). pose proof (pow_lt 4 k ltac:(lra)). set (x := INR k) in *. set (f := INR (fact (2 * k))) in *. set (g := INR (fact k)) in *. set (h := INR (fact (k + 2))) in *. set (p := 4 ^ k) in *. clearbody x f g h p.
  apply (Rmult_eq_reg_l (2 * x + 1)); [|lra]. rewrite B. field. repeat split; lra.
Qed.
Lemma w_le t : -1 <= t <= 1 -> 0 <= sqrt (1 - t ^ 2) <= 1.
Proof. intros H. split; [apply sqrt_pos|]. apply Rle_trans with (sqrt 1); [apply sqrt_le_1; nra|rewrite sqrt_1; lra]. Qed.
Theorem bessel1_series x : bessel1 x = besselJ 1 x.
Proof.
  pose proof PI_RGT_0. unfold bessel1. rewrite (poisson (fun t => sqrt (1 - t ^ 2)) (mom 2) (PI / 2) 1).
  - rewrite besselJ_G. field. lra.
  - apply wcont. - intros t Ht. pose proof (w_le t Ht). apply Rabs_le. lra.
  - intros k. rewrite by_sine. 2: { intros t. apply (continuous_mult (K := R_AbsRing) (fun t => sqrt (1 - t ^ 2))); [apply wcont|apply pow_cont]. }
    unfold mom. apply rext; [lra|]. intros t Ht. rewrite root_sine by lra. simpl. ring.
  - intros k. rewrite mom2_eq. pose proof (INR_fact_lt_0 k). pose proof (INR_fact_lt_0 (k + 1)). pose proof (INR_fact_lt_0 (2 * k)). pose proof (pow_lt 4 k ltac:(lra)). field. repeat split; lra.
Qed.
Theorem bessel2_series x : bessel2 x = besselJ 2 x.
Proof.
  pose proof PI_RGT_0. unfold bessel2. assert (C3 : forall t : R, continuous (fun t => sqrt (1 - t ^ 2) ^ 3) t). { intros t. apply (continuous_comp (fun t => sqrt (1 - t ^ 2)) (fun v => v ^ 3)); [apply wcont|apply pow_cont]. }
  rewrite (poisson (fun t => sqrt (1 - t ^ 2) ^ 3) (mom 4) (3 * PI / 4) 2).
  - rewrite besselJ_G. field. lra.
  - apply C3. - intros t Ht. pose proof (w_le t Ht) as [L U]. apply Rabs_le. pose proof (pow_incr _ 1 3 (conj L U)) as I. rewrite pow1 in I. pose proof (pow_le _ 3 L). lra.
  - intros k. rewrite by_sine. 2: { intros t. apply (continuous_mult (K := R_AbsRing) (fun t => sqrt (1 - t ^ 2) ^ 3)); [apply C3|apply pow_cont]. }
    unfold mom. apply rext; [lra|]. intros t Ht. rewrite root_sine by lra. simpl. ring.
  - intros k. rewrite mom4_eq. pose proof (INR_fact_lt_0 k). pose proof (INR_fact_lt_0 (k + 2)). pose proof (INR_fact_lt_0 (2 * k)). pose proof (pow_lt 4 k ltac:(lra)). field. repeat split; lra.
Qed.
