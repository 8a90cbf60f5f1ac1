(** Proofs: means over circles and over sources. *)
From Coq Require Import Reals Lra Lia.
From Coquelicot Require Import Coquelicot.
From Verif Require Import Base_R S_FiniteSource P_Switch.
Local Open Scope R_scope.

Section Circle.
Variable u : R.
Hypothesis Hu : u <> 0.
Let arg (t a : R) : R := (u + t * cos a) ^ 2 + (0 + t * sin a) ^ 2.
Lemma u2_pos : 0 < u ^ 2. Proof. nra. Qed.
Lemma arg_eq t a : arg t a = u ^ 2 + t ^ 2 + 2 * u * t * cos a.
Proof. unfold arg. pose proof (sin2_cos2 a) as E. unfold Rsqr in E. replace (t ^ 2) with (t ^ 2 * (sin a * sin a + cos a * cos a)) by (rewrite E; ring). ring. Qed.
Lemma arg_low t a : Rabs t <= Rabs u / 2 -> u ^ 2 / 4 <= arg t a.
Proof.
  intros Ht. rewrite arg_eq. pose proof (COS_bound a) as [C1 C2]. assert (A : Rabs (u * t) = Rabs u * Rabs t) by apply Rabs_mult. pose proof (Rabs_pos t). pose proof (Rabs_pos u).
  assert (U : u ^ 2 = Rabs u ^ 2) by (rewrite pow2_abs; reflexivity). assert (T : t ^ 2 = Rabs t ^ 2) by (rewrite pow2_abs; reflexivity).
  assert (B : - Rabs (u * t) <= u * t * cos a). { assert (C : Rabs (u * t * cos a) <= Rabs (u * t)). { rewrite Rabs_mult. rewrite <- (Rmult_1_r (Rabs (u * t))) at 2. apply Rmult_le_compat_l; [apply Rabs_pos|apply Rabs_le; lra]. }
    pose proof (Rle_abs (- (u * t * cos a))) as D. rewrite Rabs_Ropp in D. lra. }
  rewrite A in B. rewrite U, T. nra.
Qed.
Lemma arg_pos t a : Rabs t <= Rabs u / 2 -> 0 < arg t a. Proof. intros H. pose proof (arg_low t a H). pose proof u2_pos. lra. Qed.
Lemma arg_cont t a : continuous (arg t) a.
Proof. apply (ex_derive_continuous (arg t)). unfold arg. auto_derive. auto. Qed.
Lemma mag_cont v : 0 < v -> continuous mag_sq v.
Proof. intros H. apply (ex_derive_continuous mag_sq). eexists. apply (m0_derive v H). Qed.
Lemma mag_arg_cont t a : Rabs t <= Rabs u / 2 -> continuous (fun a => mag_sq (arg t a)) a.
Proof. intros H. apply (continuous_comp (arg t) mag_sq); [apply arg_cont|apply mag_cont, arg_pos; auto]. Qed.
Lemma mag_int t a b : Rabs t <= Rabs u / 2 -> ex_RInt (fun a => mag_sq (arg t a)) a b.
Proof. intros H. apply (ex_RInt_continuous (fun a => mag_sq (arg t a))). intros z _. apply mag_arg_cont; auto. Qed.
(** a quarter of the circle carries the four points *)
Lemma quarter t : Rabs t <= Rabs u / 2 -> let F := fun a => mag_sq (arg t a) in
  RInt F 0 (2 * PI) = RInt (fun a => F a + F (a + PI / 2) + F (a + PI) + F (a + 3 * (PI / 2))) 0 (PI / 2).
Proof.
  intros H F. pose proof (fun a b => mag_int t a b H) as I. fold F in I. pose proof PI_RGT_0.
  assert (Sh : forall c, RInt (fun a => F (a + c)) 0 (PI / 2) = RInt F c (PI / 2 + c)).
  { intros c. pose proof (RInt_comp_lin F 1 c 0 (PI / 2)) as E. rewrite !Rmult_1_l, Rplus_0_l in E. rewrite <- E by apply I. apply RInt_ext. intros x _. unfold scal; simpl; unfold mult; simpl. rewrite Rmult_1_l. f_equal. f_equal. ring. }
  assert (Ic : forall c, ex_RInt (fun a => F (a + c)) 0 (PI / 2)).
  { intros c. apply (ex_RInt_continuous (fun a => F (a + c))). intros z _. apply (continuous_comp (fun a => a + c) F); [apply (continuous_plus (fun a : R => a) (fun _ => c)); [apply continuous_id|apply continuous_const]|]. unfold F. apply mag_arg_cont; auto. }
  assert (P0 : RInt (fun a => F a + F (a + PI / 2) + F (a + PI) + F (a + 3 * (PI / 2))) 0 (PI / 2) = RInt F 0 (PI / 2) + RInt (fun a => F (a + PI / 2)) 0 (PI / 2) + RInt (fun a => F (a + PI)) 0 (PI / 2) + RInt (fun a => F (a + 3 * (PI / 2))) 0 (PI / 2)).
  { assert (J1 : ex_RInt (fun a => F a + F (a + PI / 2)) 0 (PI / 2)) by (apply (ex_RInt_plus F (fun a => F (a + PI / 2))); auto).
    assert (J2 : ex_RInt (fun a => F a + F (a + PI / 2) + F (a + PI)) 0 (PI / 2)) by (apply (ex_RInt_plus (fun a => F a + F (a + PI / 2)) (fun a => F (a + PI))); auto).
    etransitivity; [apply (RInt_plus (fun a => F a + F (a + PI / 2) + F (a + PI)) (fun a => F (a + 3 * (PI / 2)))); auto|]. unfold plus; simpl. f_equal.
    etransitivity; [apply (RInt_plus (fun a => F a + F (a + PI / 2)) (fun a => F (a + PI))); auto|]. unfold plus; simpl. f_equal. apply (RInt_plus F (fun a => F (a + PI / 2))); auto. }
  rewrite P0, !Sh. replace (PI / 2 + PI / 2) with PI by field. replace (PI / 2 + PI) with (3 * (PI / 2)) by field. replace (PI / 2 + 3 * (PI / 2)) with (2 * PI) by field.
  rewrite <- (RInt_Chasles F 0 (3 * (PI / 2)) (2 * PI)) by auto. rewrite <- (RInt_Chasles F 0 PI (3 * (PI / 2))) by auto. rewrite <- (RInt_Chasles F 0 (PI / 2) PI) by auto. reflexivity.
Qed.
Lemma circle_close t : Rabs t <= Rabs u / 10 -> Rabs (circle_mean magn u 0 t - mag_sq (u ^ 2)) <= 0.003 * mag_sq (u ^ 2).
Proof.
  intros Ht. pose proof (Rabs_pos t). pose proof (Rabs_pos_lt u Hu) as Up. assert (Ht2 : Rabs t <= Rabs u / 2) by lra. pose proof PI_RGT_0 as Hpi. unfold circle_mean, magn. change (fun a => mag_sq ((u + t * cos a) ^ 2 + (0 + t * sin a) ^ 2)) with (fun a => mag_sq (arg t a)).
  rewrite (quarter t Ht2). set (F := fun a => mag_sq (arg t a)). set (v := u ^ 2). pose proof u2_pos as Vp. fold v in Vp. pose proof (m0_pos v Vp) as Mp. unfold m0 in Mp.
  set (q := Rabs t / Rabs u). assert (Hq : 0 <= q <= 0.1).
  { unfold q. split; [apply Rmult_le_pos; [lra|left; apply Rinv_0_lt_compat; auto]|]. apply (Rmult_le_reg_r (Rabs u)); auto. unfold Rdiv. rewrite Rmult_assoc, Rinv_l by lra. lra. }
  assert (Pt : forall a, 0 <= a <= PI / 2 -> Rabs ((F a + F (a + PI / 2) + F (a + PI) + F (a + 3 * (PI / 2))) / 4 - mag_sq v) <= 0.003 * mag_sq v).
  { intros a Ha. assert (Hc : 0 <= cos a) by (apply cos_ge_0; lra). assert (Hs : 0 <= sin a) by (apply sin_ge_0; lra). assert (E1 : cos a ^ 2 + sin a ^ 2 = 1) by (pose proof (sin2_cos2 a) as E; unfold Rsqr in E; nra).
    pose proof (four_points v q (cos a) (sin a) Vp Hq Hc Hs E1) as B. cbv zeta in B.
    assert (Q2 : v * q ^ 2 = t ^ 2) by (unfold v, q; replace ((Rabs t / Rabs u) ^ 2) with (Rabs t ^ 2 / Rabs u ^ 2) by (field; lra); rewrite !pow2_abs; field; auto).
    assert (G : forall y, (u * t >= 0 -> v * (1 + q ^ 2 + 2 * q * y) = v + t ^ 2 + 2 * u * t * y) /\ (u * t <= 0 -> v * (1 + q ^ 2 + 2 * q * y) = v + t ^ 2 + 2 * u * t * - y)).
    { intros y. assert (VQ : v * q = Rabs (u * t)) by (unfold v, q; rewrite <- (pow2_abs u), Rabs_mult; field; lra). split; intros S.
      - rewrite Rabs_pos_eq in VQ by lra. replace (v * (1 + q ^ 2 + 2 * q * y)) with (v + v * q ^ 2 + 2 * (v * q) * y) by ring. rewrite Q2, VQ. ring.
      - rewrite Rabs_left1 in VQ by lra. replace (v * (1 + q ^ 2 + 2 * q * y)) with (v + v * q ^ 2 + 2 * (v * q) * y) by ring. rewrite Q2, VQ. ring. }
    assert (FA : F a = mag_sq (v + t ^ 2 + 2 * u * t * cos a)) by (unfold F; rewrite arg_eq; reflexivity).
    assert (FB : F (a + PI / 2) = mag_sq (v + t ^ 2 + 2 * u * t * - sin a)) by (unfold F; rewrite arg_eq, cos_plus, cos_PI2, sin_PI2; do 2 f_equal; ring).
    assert (FC : F (a + PI) = mag_sq (v + t ^ 2 + 2 * u * t * - cos a)) by (unfold F; rewrite arg_eq, neg_cos; reflexivity).
    assert (FD : F (a + 3 * (PI / 2)) = mag_sq (v + t ^ 2 + 2 * u * t * sin a)) by (unfold F; rewrite arg_eq; replace (a + 3 * (PI / 2)) with (a + PI / 2 + PI) by field; rewrite neg_cos, cos_plus, cos_PI2, sin_PI2; do 2 f_equal; ring).
    rewrite FA, FB, FC, FD. unfold m0 in B. destruct (Rle_or_lt 0 (u * t)) as [S|S].
    - destruct (G (cos a)) as [-> _] in B; [|lra]. destruct (G (- cos a)) as [-> _] in B; [|lra]. destruct (G (sin a)) as [-> _] in B; [|lra]. destruct (G (- sin a)) as [-> _] in B; [|lra].
      eapply Rle_trans; [|exact B]. right. f_equal. field.
    - destruct (G (cos a)) as [_ ->] in B; [|lra]. destruct (G (- cos a)) as [_ ->] in B; [|lra]. destruct (G (sin a)) as [_ ->] in B; [|lra]. destruct (G (- sin a)) as [_ ->] in B; [|lra]. rewrite !Ropp_involutive in B.
      eapply Rle_trans; [|exact B]. right. f_equal. field. }
  set (S := fun a => F a + F (a + PI / 2) + F (a + PI) + F (a + 3 * (PI / 2))). change (Rabs (/ (2 * PI) * RInt S 0 (PI / 2) - mag_sq v) <= 0.003 * mag_sq v).
  assert (Ic : forall c z, continuous (fun a => F (a + c)) z).
  { intros c z. apply (continuous_comp (fun a => a + c) F); [apply (continuous_plus (fun a : R => a) (fun _ => c)); [apply continuous_id|apply continuous_const]|]. unfold F. apply mag_arg_cont; auto. }
  assert (IS : ex_RInt S 0 (PI / 2)).
  { apply (ex_RInt_continuous S). intros z _. unfold S. apply (continuous_plus (fun a => F a + F (a + PI / 2) + F (a + PI)) (fun a => F (a + 3 * (PI / 2)))); auto.
    apply (continuous_plus (fun a => F a + F (a + PI / 2)) (fun a => F (a + PI))); auto. apply (continuous_plus F (fun a => F (a + PI / 2))); auto. unfold F. apply mag_arg_cont; auto. }
  assert (Lo : RInt (fun _ => 4 * (1 - 0.003) * mag_sq v) 0 (PI / 2) <= RInt S 0 (PI / 2)).
  { apply RInt_le; auto; [lra|apply ex_RInt_const|]. intros a Ha. specialize (Pt a ltac:(lra)). apply Rabs_le_between in Pt. fold (S a) in Pt. lra. }
  assert (Hi : RInt S 0 (PI / 2) <= RInt (fun _ => 4 * (1 + 0.003) * mag_sq v) 0 (PI / 2)).
  { apply RInt_le; auto; [lra|apply ex_RInt_const|]. intros a Ha. specialize (Pt a ltac:(lra)). apply Rabs_le_between in Pt. fold (S a) in Pt. lra. }
  rewrite RInt_const in Lo, Hi. unfold scal in Lo, Hi; simpl in Lo, Hi; unfold mult in Lo, Hi; simpl in Lo, Hi. set (J := RInt S 0 (PI / 2)) in *. fold S. fold J. clearbody J.
  apply Rabs_le. assert (0 < / (2 * PI)) by (apply Rinv_0_lt_compat; lra). assert (E : / (2 * PI) * (2 * PI) = 1) by (field; lra). assert (Lo' : (1 - 0.003) * mag_sq v * (2 * PI) <= J) by (eapply Rle_trans; [|exact Lo]; right; field). assert (Hi' : J <= (1 + 0.003) * mag_sq v * (2 * PI)) by (eapply Rle_trans; [exact Hi|]; right; field).
  assert (L2 : / (2 * PI) * ((1 - 0.003) * mag_sq v * (2 * PI)) <= / (2 * PI) * J) by (apply Rmult_le_compat_l; lra). assert (H2 : / (2 * PI) * J <= / (2 * PI) * ((1 + 0.003) * mag_sq v * (2 * PI))) by (apply Rmult_le_compat_l; lra).
  replace (/ (2 * PI) * ((1 - 0.003) * mag_sq v * (2 * PI))) with ((1 - 0.003) * mag_sq v) in L2 by (field; lra). replace (/ (2 * PI) * ((1 + 0.003) * mag_sq v * (2 * PI))) with ((1 + 0.003) * mag_sq v) in H2 by (field; lra). split; lra.
Qed.
(** the circle mean depends continuously on the radius *)
Lemma mag_lip x y : u ^ 2 / 4 <= x -> u ^ 2 / 4 <= y -> Rabs (mag_sq x - mag_sq y) <= 4 / rt (u ^ 2 / 4) ^ 3 * Rabs (x - y).
Proof.
  pose proof u2_pos as Up. assert (W : forall x y, u ^ 2 / 4 <= x -> x < y -> Rabs (mag_sq y - mag_sq x) <= 4 / rt (u ^ 2 / 4) ^ 3 * Rabs (y - x)).
  { clear x y. intros x y Hx Hxy. destruct (mvt m0 m1 x y Hxy) as (c & Hc & E); [intros z Hz; apply m0_derive; lra|]. unfold m0 in E. rewrite E, Rabs_mult. apply Rmult_le_compat_r; [apply Rabs_pos|].
    unfold m1. assert (P : 0 < rt (u ^ 2 / 4)) by (apply rt_pos; lra). assert (Q : rt (u ^ 2 / 4) <= rt c) by (apply sqrt_le_1_alt; nra). assert (P3 : 0 < rt (u ^ 2 / 4) ^ 3) by (apply pow_lt; auto). assert (Q3 : rt (u ^ 2 / 4) ^ 3 <= rt c ^ 3) by (apply pow_incr; lra).
    replace (-4 / rt c ^ 3) with (- (4 / rt c ^ 3)) by (unfold Rdiv; ring). rewrite Rabs_Ropp, Rabs_pos_eq by (apply Rlt_le, Rdiv_lt_0_compat; lra). unfold Rdiv. apply Rmult_le_compat_l; [lra|]. apply Rinv_le_contravar; auto. }
  intros Hx Hy. destruct (Rtotal_order x y) as [H|[->|H]].
  - rewrite (Rabs_minus_sym (mag_sq x)), (Rabs_minus_sym x). apply W; auto.
  - rewrite !Rminus_eq_0, Rabs_R0. lra.
  - apply W; auto.
Qed.
Lemma circle_cont t : Rabs t < Rabs u / 2 -> continuous (circle_mean magn u 0) t.
Proof.
  intros Ht. pose proof PI_RGT_0 as Hpi. pose proof u2_pos as Up. pose proof (Rabs_pos_lt u Hu) as Ua. assert (P : 0 < rt (u ^ 2 / 4)) by (apply rt_pos; lra). assert (P3 : 0 < rt (u ^ 2 / 4) ^ 3) by (apply pow_lt; auto).
  set (L := 4 / rt (u ^ 2 / 4) ^ 3 * (3 * Rabs u)). assert (HL : 0 < L) by (unfold L; apply Rmult_lt_0_compat; [apply Rdiv_lt_0_compat; lra|lra]).
  apply filterlim_locally. intros eps. set (d := Rmin (Rabs u / 2 - Rabs t) (eps / (2 * L))).
  assert (Hd : 0 < d). { unfold d. apply Rmin_pos; [lra|]. apply Rdiv_lt_0_compat; [apply cond_pos|lra]. }
  exists (mkposreal d Hd). intros s Hs. unfold ball in *; simpl in *; unfold AbsRing_ball, abs, minus, plus, opp in *; simpl in *.
  replace (s + - t) with (s - t) in Hs by ring. replace (circle_mean magn u 0 s + - circle_mean magn u 0 t) with (circle_mean magn u 0 s - circle_mean magn u 0 t) by ring.
  assert (D1 : Rabs (s - t) < Rabs u / 2 - Rabs t) by (eapply Rlt_le_trans; [exact Hs|apply Rmin_l]). assert (D2 : Rabs (s - t) < eps / (2 * L)) by (eapply Rlt_le_trans; [exact Hs|apply Rmin_r]).
  assert (Hs2 : Rabs s <= Rabs u / 2). { replace s with (s - t + t) by ring. pose proof (Rabs_triang (s - t) t). lra. }
  unfold circle_mean, magn. change (fun a => mag_sq ((u + s * cos a) ^ 2 + (0 + s * sin a) ^ 2)) with (fun a => mag_sq (arg s a)). change (fun a => mag_sq ((u + t * cos a) ^ 2 + (0 + t * sin a) ^ 2)) with (fun a => mag_sq (arg t a)).
  assert (I1 := mag_int s 0 (2 * PI) Hs2). assert (I2 := mag_int t 0 (2 * PI) ltac:(lra)).
  rewrite <- Rmult_minus_distr_l. rewrite Rabs_mult, (Rabs_pos_eq (/ (2 * PI))) by (apply Rlt_le, Rinv_0_lt_compat; lra).
  replace (RInt (fun a => mag_sq (arg s a)) 0 (2 * PI) - RInt (fun a => mag_sq (arg t a)) 0 (2 * PI)) with (RInt (fun a => mag_sq (arg s a) - mag_sq (arg t a)) 0 (2 * PI)) by (apply (RInt_minus (fun a => mag_sq (arg s a)) (fun a => mag_sq (arg t a))); auto).
  assert (B : Rabs (RInt (fun a => mag_sq (arg s a) - mag_sq (arg t a)) 0 (2 * PI)) <= (2 * PI - 0) * (L * Rabs (s - t))).
  { apply (abs_RInt_le_const (fun a => mag_sq (arg s a) - mag_sq (arg t a))); [lra|apply (ex_RInt_minus (fun a => mag_sq (arg s a)) (fun a => mag_sq (arg t a))); auto|].
    intros a Ha. eapply Rle_trans; [apply mag_lip; apply arg_low; lra|]. unfold L. rewrite Rmult_assoc. apply Rmult_le_compat_l; [apply Rlt_le, Rdiv_lt_0_compat; lra|].
    rewrite !arg_eq. replace (u ^ 2 + s ^ 2 + 2 * u * s * cos a - (u ^ 2 + t ^ 2 + 2 * u * t * cos a)) with ((s + t + 2 * (u * cos a)) * (s - t)) by ring. rewrite Rabs_mult. apply Rmult_le_compat_r; [apply Rabs_pos|].
    pose proof (Rabs_triang (s + t) (2 * (u * cos a))). pose proof (Rabs_triang s t). rewrite (Rabs_mult 2), (Rabs_pos_eq 2), Rabs_mult in H by lra. assert (Rabs (cos a) <= 1) by (apply Rabs_le; apply COS_bound). pose proof (Rabs_pos (cos a)). nra. }
  apply Rle_lt_trans with (/ (2 * PI) * ((2 * PI - 0) * (L * Rabs (s - t)))); [apply Rmult_le_compat_l; [apply Rlt_le, Rinv_0_lt_compat; lra|exact B]|].
  replace (/ (2 * PI) * ((2 * PI - 0) * (L * Rabs (s - t)))) with (L * Rabs (s - t)) by (field; lra). pose proof (cond_pos eps) as Ep.
  apply Rlt_trans with (L * (eps / (2 * L))); [apply Rmult_lt_compat_l; auto|]. replace (L * (eps / (2 * L))) with (eps / 2) by (field; lra). lra.
Qed.
(** the mean over a source of radius at most a tenth of its distance *)
Lemma source_close (S : R -> R) rho : 0 < rho -> 10 * rho <= Rabs u -> (forall t, 0 <= t <= rho -> continuous S t) -> (forall t, 0 <= t <= rho -> 0 <= S t) -> 0 < RInt (fun t => S t * t) 0 rho ->
  ex_RInt (fun t => circle_mean magn u 0 t * (S t * t)) 0 rho /\ Rabs (source_mean magn S u 0 rho - mag_sq (u ^ 2)) <= 0.003 * mag_sq (u ^ 2).
Proof.
  intros Hr Hur HS HS0 Hw. set (w := fun t => S t * t). set (M := circle_mean magn u 0). set (m := mag_sq (u ^ 2)).
  assert (Cw : forall t, 0 <= t <= rho -> continuous w t) by (intros t Ht; apply (continuous_mult S (fun t : R => t)); [apply HS; auto|apply continuous_id]).
  assert (CM : forall t, 0 <= t <= rho -> continuous M t) by (intros t Ht; apply circle_cont; rewrite Rabs_pos_eq by lra; lra).
  assert (Iw : ex_RInt w 0 rho) by (apply (ex_RInt_continuous w); intros t Ht; rewrite Rmin_left, Rmax_right in Ht by lra; auto).
  assert (IM : ex_RInt (fun t => M t * w t) 0 rho) by (apply (ex_RInt_continuous (fun t => M t * w t)); intros t Ht; rewrite Rmin_left, Rmax_right in Ht by lra; apply (continuous_mult M w); auto).
  split; [exact IM|]. unfold source_mean. fold M. change (fun t => S t * t) with w in Hw |- *. change (fun t => M t * (S t * t)) with (fun t => M t * w t).
  assert (Lo : RInt (fun t => ((1 - 0.003) * m) * w t) 0 rho <= RInt (fun t => M t * w t) 0 rho).
  { apply RInt_le; auto; [lra|apply (ex_RInt_scal w); auto|]. intros t Ht. apply Rmult_le_compat_r; [apply Rmult_le_pos; [apply HS0; lra|lra]|]. pose proof (circle_close t) as B. rewrite (Rabs_pos_eq t) in B by lra. specialize (B ltac:(lra)). apply Rabs_le_between in B. unfold m, M. lra. }
  assert (Hi : RInt (fun t => M t * w t) 0 rho <= RInt (fun t => ((1 + 0.003) * m) * w t) 0 rho).
  { apply RInt_le; auto; [lra|apply (ex_RInt_scal w); auto|]. intros t Ht. apply Rmult_le_compat_r; [apply Rmult_le_pos; [apply HS0; lra|lra]|]. pose proof (circle_close t) as B. rewrite (Rabs_pos_eq t) in B by lra. specialize (B ltac:(lra)). apply Rabs_le_between in B. unfold m, M. lra. }
  assert (Sc : forall c, RInt (fun t => c * w t) 0 rho = c * RInt w 0 rho) by (intros c; apply (RInt_scal w); auto). rewrite Sc in Lo, Hi.
  set (W := RInt w 0 rho) in *. set (J := RInt (fun t => M t * w t) 0 rho) in *. clearbody W J. apply Rabs_le.
  assert (E : J / W * W = J) by (field; lra). split.
  - apply (Rmult_le_reg_r W); auto. rewrite Rmult_minus_distr_r, E. lra.
  - apply (Rmult_le_reg_r W); auto. rewrite Rmult_minus_distr_r, E. lra.
Qed.
End Circle.
