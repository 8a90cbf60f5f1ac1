(** Fourier transforms of the source profiles. *)
From Coq Require Import Reals List Lra Psatz.
From Coquelicot Require Import Coquelicot.
From Verif Require Import S_Profile.
Local Open Scope R_scope.

Ltac req := match goal with |- ?a = ?b => change (@eq R a b) end.
Lemma wcont t : continuous (fun t => sqrt (1 - t ^ 2)) t.
Proof. apply (continuous_comp (fun t => 1 - t ^ 2) sqrt); [|apply continuous_sqrt]. apply (@ex_derive_continuous R_AbsRing R_NormedModule). auto_derive. auto. Qed.
Lemma ccont x t : continuous (fun t => cos (x * t)) t.
Proof. apply (@ex_derive_continuous R_AbsRing R_NormedModule). auto_derive. auto. Qed.
Lemma cont_ex (f : R -> R) a b : (forall t, continuous f t) -> ex_RInt f a b.
Proof. intros H. apply (@ex_RInt_continuous R_CompleteNormedModule). intros; apply H. Qed.
Lemma rext (f g : R -> R) a b : a <= b -> (forall t, a < t < b -> f t = g t) -> RInt f a b = RInt g a b.
Proof. intros H E. apply RInt_ext. rewrite Rmin_left, Rmax_right by auto. exact E. Qed.
Lemma ftc (F f : R -> R) a b : (forall t, is_derive F t (f t)) -> (forall t, continuous f t) -> RInt f a b = F b - F a.
Proof. intros H C. apply is_RInt_unique. apply (is_RInt_derive F f); intros t _; [apply H|apply C]. Qed.
Lemma by_sine (f : R -> R) : (forall t, continuous f t) -> RInt f (-1) 1 = RInt (fun a => cos a * f (sin a)) (- (PI / 2)) (PI / 2).
Proof.
  intros H. symmetry. pose proof (RInt_comp f sin cos (- (PI / 2)) (PI / 2)) as E. rewrite sin_neg, sin_PI2 in E. change (- (1)) with (-1) in E. rewrite <- E; auto.
  intros a _. split; [apply is_derive_sin|apply continuous_cos].
Qed.
Lemma root_sine a : - (PI / 2) <= a <= PI / 2 -> sqrt (1 - sin a ^ 2) = cos a.
Proof.
  intros H. replace (1 - sin a ^ 2) with (cos a ^ 2) by (pose proof (sin2_cos2 a); unfold Rsqr in *; nra). apply sqrt_pow2. apply cos_ge_0; lra.
Qed.
Lemma W1 : RInt (fun t => sqrt (1 - t ^ 2)) (-1) 1 = PI / 2.
Proof.
  rewrite by_sine by (intros; apply wcont). pose proof PI_RGT_0.
  rewrite (rext _ (fun a => cos a ^ 2)); [|lra|intros a Ha; rewrite root_sine by lra; ring].
  rewrite (ftc (fun a => (a + sin a * cos a) / 2) (fun a => cos a ^ 2)).
  -  rewrite cos_PI2, cos_neg, cos_PI2. lra.
  - intros a. auto_derive; auto. pose proof (sin2_cos2 a). unfold Rsqr in *. nra.
  - intros a. apply (@ex_derive_continuous R_AbsRing R_NormedModule). auto_derive. auto.
Qed.
Lemma W3 : RInt (fun t => sqrt (1 - t ^ 2) ^ 3) (-1) 1 = 3 * PI / 8.
Proof.
  assert (C : forall t, continuous (fun t => sqrt (1 - t ^ 2) ^ 3) t).
  { intros t. apply (continuous_comp (fun t => sqrt (1 - t ^ 2)) (fun z => z ^ 3)); [apply wcont|]. apply (@ex_derive_continuous R_AbsRing R_NormedModule). auto_derive. auto. }
  rewrite by_sine by auto. pose proof PI_RGT_0.
  rewrite (rext _ (fun a => cos a ^ 4)); [|lra|intros a Ha; rewrite root_sine by lra; ring].
  set (F := fun a => (3 * a + 3 * (sin a * cos a) + 2 * (sin a * cos a ^ 3)) / 8).
  rewrite (ftc F (fun a => cos a ^ 4)).
  - unfold F. rewrite cos_PI2, cos_neg, cos_PI2. req. field.
  - intros a. unfold F. auto_derive; auto. pose proof (sin2_cos2 a). unfold Rsqr in *. replace (cos a ^ 4) with (cos a ^ 2 * cos a ^ 2) by ring.
      assert (E : sin a ^ 2 = 1 - cos a ^ 2) by nra.
      simpl pred. change (INR 3) with 3. 
      match goal with |- ?l = _ => transitivity ((3 + 3 * (cos a ^ 2 - sin a ^ 2) + 2 * (cos a ^ 2 * cos a ^ 2 - 3 * sin a ^ 2 * cos a ^ 2)) / 8) end; [simpl; field|]. rewrite E. field.
  - intros a. apply (@ex_derive_continuous R_AbsRing R_NormedModule). auto_derive. auto.
Qed.
(** polynomial weights *)
Lemma W2 : RInt (fun t => 1 - t ^ 2) (-1) 1 = 4 / 3.
Proof.
  set (F := fun t : R => t - t ^ 3 / 3). rewrite (ftc F (fun t => 1 - t ^ 2)).
  - unfold F. req. field.
  - intros t. unfold F. auto_derive; auto. simpl; field.
  - intros t. apply (@ex_derive_continuous R_AbsRing R_NormedModule). auto_derive. auto.
Qed.
Lemma W2c x : x <> 0 -> RInt (fun t => (1 - t ^ 2) * cos (x * t)) (-1) 1 = 4 * (sin x - x * cos x) / x ^ 3.
Proof.
  intros Hx. set (F := fun t : R => (1 - t ^ 2) * sin (x * t) / x - 2 * t * cos (x * t) / x ^ 2 + 2 * sin (x * t) / x ^ 3).
  rewrite (ftc F (fun t => (1 - t ^ 2) * cos (x * t))).
  - unfold F. replace (x * -1) with (- x) by ring. rewrite Rmult_1_r, sin_neg, cos_neg. req. field. auto.
  - intros t. unfold F. auto_derive; auto. simpl; field. auto.
  - intros t. apply (@ex_derive_continuous R_AbsRing R_NormedModule). auto_derive. auto.
Qed.

(** ** reduction to the unit disc *)
Lemma lin (f : R -> R) rho a b : ex_RInt f (rho * a) (rho * b) -> RInt f (rho * a) (rho * b) = rho * RInt (fun s => f (rho * s)) a b.
Proof.
  intros H. pose proof (RInt_comp_lin f rho 0 a b) as E. rewrite !Rplus_0_r in E. rewrite <- E by auto.
  rewrite (RInt_ext _ (fun s => scal rho (f (rho * s)))) by (intros; rewrite Rplus_0_r; reflexivity). 
  apply (RInt_scal (fun s => f (rho * s))).
  destruct (Req_dec rho 0) as [->|Hr].
  - apply ex_RInt_ext with (fun _ => f 0); [intros; f_equal; ring|apply ex_RInt_const].
  - pose proof (ex_RInt_comp_lin f rho 0 a b) as E2. rewrite !Rplus_0_r in E2. specialize (E2 H).
    apply (ex_RInt_scal _ _ _ (/ rho)) in E2. revert E2. apply ex_RInt_ext. intros s _. rewrite Rplus_0_r. unfold scal; simpl; unfold mult; simpl. field. auto.
Qed.
Lemma radius_eq rho t s : 0 < rho -> Rabs t < 1 -> Rabs s < 1 -> 1 - (sqrt ((rho * t) ^ 2 + (rho * sqrt (1 - t ^ 2) * s) ^ 2) / rho) ^ 2 = (1 - t ^ 2) * (1 - s ^ 2).
Proof.
  intros Hr Ht Hs. apply Rabs_def2 in Ht. assert (H1 : 0 <= 1 - t ^ 2) by nra. pose proof (pow2_sqrt (1 - t ^ 2) H1) as E.
  set (w := sqrt (1 - t ^ 2)) in *. clearbody w. unfold Rdiv. rewrite Rpow_mult_distr, pow2_sqrt by nra.
  replace ((rho * w * s) ^ 2) with (rho ^ 2 * w ^ 2 * s ^ 2) by ring. rewrite E. field. lra.
Qed.
Lemma strip_unit (S : R -> R) (h : R -> R) rho t : 0 < rho -> Rabs t < 1 -> (forall r, continuous S r) ->
  (forall s, Rabs s < 1 -> S (sqrt ((rho * t) ^ 2 + (rho * sqrt (1 - t ^ 2) * s) ^ 2)) = h s) ->
  strip S rho (rho * t) = rho * sqrt (1 - t ^ 2) * RInt h (-1) 1.
Proof.
  intros Hr Ht HS Hh. unfold strip. apply Rabs_def2 in Ht.
  assert (E : sqrt (rho ^ 2 - (rho * t) ^ 2) = rho * sqrt (1 - t ^ 2)).
  { replace (rho ^ 2 - (rho * t) ^ 2) with (rho ^ 2 * (1 - t ^ 2)) by ring. rewrite sqrt_mult by nra. rewrite sqrt_pow2 by lra. reflexivity. }
  rewrite E. set (c := rho * sqrt (1 - t ^ 2)) in *. replace (- c) with (c * -1) by ring. rewrite <- (Rmult_1_r c) at 2. rewrite lin.
  - f_equal. apply rext; [lra|]. intros s Hs. apply Hh. apply Rabs_def1; lra.
  - apply cont_ex. intros y. apply (continuous_comp (fun y => sqrt ((rho * t) ^ 2 + y ^ 2)) S); [|apply HS].
    apply (continuous_comp (fun y => (rho * t) ^ 2 + y ^ 2) sqrt); [|apply continuous_sqrt]. apply (@ex_derive_continuous R_AbsRing R_NormedModule). auto_derive. auto.
Qed.
(** a source whose strips are known has the transform of the strips *)
Lemma transform_unit (S w : R -> R) c rho k : 0 < rho -> c <> 0 -> (forall t, continuous w t) -> (forall t, Rabs t < 1 -> strip S rho (rho * t) = c * w t) ->
  transform S rho k = RInt (fun t => w t * cos (k * rho * t)) (-1) 1 / RInt w (-1) 1.
Proof.
  intros Hr Hc Hw HS.
  assert (Sub : forall t, - rho < t < rho -> strip S rho t = c * w (t / rho)).
  { intros t Ht. rewrite <- HS. - f_equal. field. lra. - apply Rabs_def1; [apply Rlt_div_l|apply Rlt_div_r]; lra. }
  assert (Cw : forall t, continuous (fun t => w (t / rho)) t).
  { intros t. apply (continuous_comp (fun t => t / rho) w); [|apply Hw]. apply (@ex_derive_continuous R_AbsRing R_NormedModule). auto_derive. auto. }
  assert (N : forall f : R -> R, (forall t, continuous f t) -> RInt (fun t => strip S rho t * f t) (- rho) rho = c * rho * RInt (fun t => w t * f (rho * t)) (-1) 1).
  { intros f Hf. rewrite (rext _ (fun t => c * (w (t / rho) * f t))); [|lra|intros t Ht; rewrite Sub by lra; ring].
    assert (Cg : forall t, continuous (fun t => w (t / rho) * f t) t) by (intros t; apply (continuous_mult (fun t => w (t / rho)) f); auto).
    pose proof (@RInt_scal R_CompleteNormedModule (fun t => w (t / rho) * f t) (- rho) rho c (cont_ex _ _ _ Cg)) as E1. unfold scal in E1; simpl in E1; unfold mult in E1; simpl in E1. rewrite E1. rewrite Rmult_assoc. f_equal.
    pose proof (lin (fun t => w (t / rho) * f t) rho (-1) 1 (cont_ex _ _ _ Cg)) as E2. rewrite Rmult_1_r in E2. replace (rho * -1) with (- rho) in E2 by ring. etransitivity; [exact E2|]. f_equal. apply rext; [lra|]. intros t _. do 2 f_equal. field. lra. }
  unfold transform. rewrite (N (fun t => cos (k * t)) (ccont k)).
  replace (RInt (strip S rho) (- rho) rho) with (c * rho * RInt w (-1) 1).
  - rewrite (rext (fun t => w t * cos (k * (rho * t))) (fun t => w t * cos (k * rho * t))); [|lra|intros; rewrite Rmult_assoc; reflexivity].
    destruct (Req_dec (RInt w (-1) 1) 0) as [->|H]; [unfold Rdiv; rewrite Rmult_0_r, !Rinv_0; ring|]. field. repeat split; auto; lra.
  - rewrite (rext (strip S rho) (fun t => strip S rho t * 1)); [|lra|intros; symmetry; apply Rmult_1_r]. rewrite (N (fun _ => 1)) by (intros; apply continuous_const). f_equal. apply rext; [lra|intros; ring].
Qed.

(** ** the profiles *)
Lemma uniform_strip rho t : 0 < rho -> Rabs t < 1 -> strip (uniform rho) rho (rho * t) = 2 * rho * sqrt (1 - t ^ 2).
Proof.
  intros Hr Ht. rewrite (strip_unit _ (fun _ => 1)); auto; [|intros; apply continuous_const]. rewrite RInt_const. unfold scal; simpl; unfold mult; simpl. ring.
Qed.
Lemma root_cont rho r : continuous (root rho) r.
Proof. apply (continuous_comp (fun r => 1 - (r / rho) ^ 2) sqrt); [|apply continuous_sqrt]. apply (@ex_derive_continuous R_AbsRing R_NormedModule). auto_derive. auto. Qed.
Lemma root_strip rho t : 0 < rho -> Rabs t < 1 -> strip (root rho) rho (rho * t) = rho * (PI / 2) * (1 - t ^ 2).
Proof.
  intros Hr Ht. assert (H1 : 0 <= 1 - t ^ 2) by (apply Rabs_def2 in Ht; nra). rewrite (strip_unit _ (fun s => sqrt (1 - t ^ 2) * sqrt (1 - s ^ 2))); auto.
  - assert (E : RInt (fun s => sqrt (1 - t ^ 2) * sqrt (1 - s ^ 2)) (-1) 1 = sqrt (1 - t ^ 2) * (PI / 2)).
    { rewrite <- W1. apply (RInt_scal (fun s => sqrt (1 - s ^ 2))). apply cont_ex, wcont. }
    rewrite E. transitivity (rho * (sqrt (1 - t ^ 2) * sqrt (1 - t ^ 2)) * (PI / 2)); [ring|]. rewrite sqrt_sqrt by auto. ring.
  - apply root_cont.
  - intros s Hs. unfold root. rewrite radius_eq by auto. apply sqrt_mult; auto. apply Rabs_def2 in Hs; nra.
Qed.
Lemma quadratic_strip rho t : 0 < rho -> Rabs t < 1 -> strip (quadratic rho) rho (rho * t) = 4 / 3 * rho * sqrt (1 - t ^ 2) ^ 3.
Proof.
  intros Hr Ht. assert (H1 : 0 <= 1 - t ^ 2) by (apply Rabs_def2 in Ht; nra). rewrite (strip_unit _ (fun s => (1 - t ^ 2) * (1 - s ^ 2))); auto.
  - assert (E : RInt (fun s => (1 - t ^ 2) * (1 - s ^ 2)) (-1) 1 = (1 - t ^ 2) * (4 / 3)).
    { rewrite <- W2. apply (RInt_scal (fun s => 1 - s ^ 2)). apply cont_ex. intros s. apply (@ex_derive_continuous R_AbsRing R_NormedModule). auto_derive. auto. }
    rewrite E. rewrite <- (sqrt_sqrt (1 - t ^ 2)) at 2 by auto. ring.
  - intros r. apply (@ex_derive_continuous R_AbsRing R_NormedModule). unfold quadratic. auto_derive. auto.
  - intros s Hs. unfold quadratic. apply radius_eq; auto.
Qed.
Lemma uniform_transform rho k : 0 < rho -> transform (uniform rho) rho k = 2 / PI * RInt (fun t => sqrt (1 - t ^ 2) * cos (k * rho * t)) (-1) 1.
Proof.
  intros Hr. rewrite (transform_unit _ (fun t => sqrt (1 - t ^ 2)) (2 * rho)); auto; try lra.
  - rewrite W1. pose proof PI_RGT_0. field. lra.
  - apply wcont.
  - intros t Ht. apply uniform_strip; auto.
Qed.
Lemma root_transform_int rho k : 0 < rho -> transform (root rho) rho k = 3 / 4 * RInt (fun t => (1 - t ^ 2) * cos (k * rho * t)) (-1) 1.
Proof.
  intros Hr. pose proof PI_RGT_0. rewrite (transform_unit _ (fun t => 1 - t ^ 2) (rho * (PI / 2))); auto.
  - rewrite W2. field.
  - assert (0 < rho * (PI / 2)) by (apply Rmult_lt_0_compat; lra). lra.
  - intros t. apply (@ex_derive_continuous R_AbsRing R_NormedModule). auto_derive. auto.
  - intros t Ht. apply root_strip; auto.
Qed.
Lemma root_transform rho k : 0 < rho -> k * rho <> 0 -> transform (root rho) rho k = 3 * (sin (k * rho) - k * rho * cos (k * rho)) / (k * rho) ^ 3.
Proof. intros Hr Hk. rewrite root_transform_int, W2c by auto. set (x := k * rho) in *. clearbody x. field. auto. Qed.
Lemma quadratic_transform rho k : 0 < rho -> transform (quadratic rho) rho k = 8 / (3 * PI) * RInt (fun t => sqrt (1 - t ^ 2) ^ 3 * cos (k * rho * t)) (-1) 1.
Proof.
  intros Hr. pose proof PI_RGT_0. rewrite (transform_unit _ (fun t => sqrt (1 - t ^ 2) ^ 3) (4 / 3 * rho)); auto; try lra.
  - rewrite W3. field. lra.
  - intros t. apply (continuous_comp (fun t => sqrt (1 - t ^ 2)) (fun z => z ^ 3)); [apply wcont|]. apply (@ex_derive_continuous R_AbsRing R_NormedModule). auto_derive. auto.
  - intros t Ht. apply quadratic_strip; auto.
Qed.
Lemma linear_transform a1 rho k : 0 < rho -> 3 - a1 <> 0 ->
  transform (linear a1 rho) rho k = (3 * (1 - a1) * transform (uniform rho) rho k + 2 * a1 * transform (root rho) rho k) / (3 - a1).
Proof.
  intros Hr Ha. pose proof PI_RGT_0 as Hpi.
  assert (CP : forall t, continuous (fun t => 1 - t ^ 2) t) by (intros t; apply (@ex_derive_continuous R_AbsRing R_NormedModule); auto_derive; auto).
  set (w := fun t => 2 * (1 - a1) * sqrt (1 - t ^ 2) + a1 * (PI / 2) * (1 - t ^ 2)).
  assert (Cw : forall t, continuous w t).
  { intros t. apply (continuous_plus (fun t => 2 * (1 - a1) * sqrt (1 - t ^ 2)) (fun t => a1 * (PI / 2) * (1 - t ^ 2))); apply (continuous_scal_r (V := R_NormedModule)); [apply wcont|apply CP]. }
  assert (Int : forall f : R -> R, (forall t, continuous f t) -> RInt (fun t => w t * f t) (-1) 1 = 2 * (1 - a1) * RInt (fun t => sqrt (1 - t ^ 2) * f t) (-1) 1 + a1 * (PI / 2) * RInt (fun t => (1 - t ^ 2) * f t) (-1) 1).
  { intros f Hf. 
    assert (E1 : ex_RInt (fun t => sqrt (1 - t ^ 2) * f t) (-1) 1) by (apply cont_ex; intros t; apply (continuous_mult (fun t => sqrt (1 - t ^ 2)) f); [apply wcont|auto]).
    assert (E2 : ex_RInt (fun t => (1 - t ^ 2) * f t) (-1) 1) by (apply cont_ex; intros t; apply (continuous_mult (fun t => 1 - t ^ 2) f); auto).
    apply is_RInt_unique. apply is_RInt_ext with (fun t => plus (scal (2 * (1 - a1)) (sqrt (1 - t ^ 2) * f t)) (scal (a1 * (PI / 2)) ((1 - t ^ 2) * f t))).
    { intros t _. unfold w, plus, scal; simpl; unfold mult; simpl. ring. }
    apply (is_RInt_plus (V := R_NormedModule)); apply (is_RInt_scal (V := R_NormedModule)); apply (@RInt_correct R_CompleteNormedModule); auto. }
  rewrite (transform_unit _ w rho); auto; try lra.
  - rewrite (Int (fun t => cos (k * rho * t)) (ccont _)). rewrite (rext w (fun t => w t * 1)); [|lra|intros; symmetry; apply Rmult_1_r]. rewrite (Int (fun _ => 1)) by (intros; apply continuous_const).
    rewrite (rext (fun t => sqrt (1 - t ^ 2) * 1) (fun t => sqrt (1 - t ^ 2))); [|lra|intros; apply Rmult_1_r]. rewrite (rext (fun t => (1 - t ^ 2) * 1) (fun t => 1 - t ^ 2)); [|lra|intros; apply Rmult_1_r].
    rewrite W1, W2, uniform_transform, root_transform_int by auto. field. split; [|split]; auto; try lra.
    replace ((1 - a1) * PI * 6 + a1 * PI * 4) with (PI * (2 * (3 - a1))) by ring. apply Rmult_integral_contrapositive. split; lra.
  - intros t Ht. assert (H1 : 0 <= 1 - t ^ 2) by (apply Rabs_def2 in Ht; nra). rewrite (strip_unit _ (fun s => (1 - a1) + a1 * sqrt (1 - t ^ 2) * sqrt (1 - s ^ 2))); auto.
    + assert (E : RInt (fun s => (1 - a1) + a1 * sqrt (1 - t ^ 2) * sqrt (1 - s ^ 2)) (-1) 1 = (1 - a1) * 2 + a1 * sqrt (1 - t ^ 2) * (PI / 2)).
      { rewrite <- W1. apply is_RInt_unique. apply (is_RInt_plus (V := R_NormedModule) (fun _ => 1 - a1) (fun s => a1 * sqrt (1 - t ^ 2) * sqrt (1 - s ^ 2))).
        - replace ((1 - a1) * 2) with (scal (1 - -1) (1 - a1)) by (unfold scal; simpl; unfold mult; simpl; ring). apply (@is_RInt_const R_NormedModule).
        - apply (is_RInt_scal (V := R_NormedModule) (fun s => sqrt (1 - s ^ 2))). apply (@RInt_correct R_CompleteNormedModule). apply cont_ex, wcont. }
      rewrite E. unfold w. rewrite <- (sqrt_sqrt (1 - t ^ 2)) at 4 by auto. ring.
    + intros r. unfold linear. apply (continuous_minus (fun _ => 1) (fun r => a1 * (1 - sqrt (1 - (r / rho) ^ 2)))); [apply continuous_const|].
      apply (continuous_scal_r (V := R_NormedModule) a1 (fun r => 1 - sqrt (1 - (r / rho) ^ 2))). apply (continuous_minus (fun _ => 1) (fun r => sqrt (1 - (r / rho) ^ 2))); [apply continuous_const|apply (root_cont rho)].
    + intros s Hs. unfold linear. rewrite radius_eq by auto. rewrite sqrt_mult; auto; [ring|]. apply Rabs_def2 in Hs; nra.
Qed.
