(** Proofs about M_Parallax. *)
From Coq Require Import Reals List Bool Arith ZArith Lia Lra Psatz Ratan.
From Coquelicot Require Import Coquelicot.
From Verif Require Import Base_R Base_List M_Utils M_MergeArea S_Parallax M_Parallax.
Import ListNotations.
Local Open Scope R_scope.

(** ** peri_vernal *)
Lemma argmin_from_spec l : forall best ib i (pre : list R),
  length pre = i -> (ib < i)%nat -> nth ib pre 0 = best -> (forall j, (j < i)%nat -> best <= nth j pre 0) ->
  (forall j, (j < ib)%nat -> best < nth j pre 0) ->
  let k := argmin_from best ib i l in
  (k < i + length l)%nat /\ (forall j, (j < i + length l)%nat -> nth k (pre ++ l) 0 <= nth j (pre ++ l) 0) /\
  (forall j, (j < k)%nat -> nth k (pre ++ l) 0 < nth j (pre ++ l) 0).
Proof.
  induction l as [|x t IH]; intros best ib i pre Hl Hib Hb H1 H2; cbn zeta.
  - simpl. rewrite app_nil_r, Nat.add_0_r. rewrite Hb. auto.
  - cbn [argmin_from length]. replace (pre ++ x :: t) with ((pre ++ [x]) ++ t) by (rewrite <- app_assoc; reflexivity).
    replace (i + S (length t))%nat with (S i + length t)%nat by lia.
    destruct (Rltb_spec x best); apply IH.
    + rewrite app_length; simpl; lia.
    + lia.
    + rewrite app_nth2, <- Hl, Nat.sub_diag by lia. reflexivity.
    + intros j Hj. destruct (Nat.eq_dec j i) as [->|]; [rewrite app_nth2, <- Hl, Nat.sub_diag by lia; simpl; lra|].
      rewrite app_nth1 by lia. specialize (H1 j ltac:(lia)). lra.
    + intros j Hj. rewrite app_nth1 by lia. specialize (H1 j ltac:(lia)). lra.
    + rewrite app_length; simpl; lia.
    + lia.
    + rewrite app_nth1 by lia. auto.
    + intros j Hj. destruct (Nat.eq_dec j i) as [->|]; [rewrite app_nth2, <- Hl, Nat.sub_diag by lia; simpl; lra|].
      rewrite app_nth1 by lia. apply H1. lia.
    + intros j Hj. rewrite app_nth1 by lia. apply H2. lia.
Qed.
Lemma argmin_spec l : l <> [] -> (argmin l < length l)%nat /\ (forall j, (j < length l)%nat -> nth (argmin l) l 0 <= nth j l 0) /\
  (forall j, (j < argmin l)%nat -> nth (argmin l) l 0 < nth j l 0).
Proof.
  destruct l as [|x t]; [easy|]. intros _. unfold argmin.
  apply (argmin_from_spec t x 0 1 [x]); [reflexivity|lia|reflexivity| |intros; lia].
  intros j Hj. replace j with 0%nat by lia. simpl. lra.
Qed.
Lemma argmin_nearest table t : table <> [] -> nearest table t (argmin (map (fun p => Rabs (p - t)) table)).
Proof.
  intros H. destruct (argmin_spec (map (fun p => Rabs (p - t)) table)) as (A & B & D).
  { intros Q. apply map_eq_nil in Q. auto. }
  rewrite map_length in *.
  assert (N : forall j, (j < length table)%nat -> nth j (map (fun p => Rabs (p - t)) table) 0 = Rabs (nth j table 0 - t)).
  { intros j Hj. rewrite (nth_indep _ 0 ((fun p => Rabs (p - t)) 0)) by (rewrite map_length; auto). apply (map_nth (fun p => Rabs (p - t))). }
  unfold nearest. repeat split; auto.
  - intros j Hj. rewrite <- !N by auto. auto.
  - intros j Hj. rewrite <- !N by lia. auto.
Qed.
Lemma peri_vernal_nearest : forall t, t <= 2450000 -> exists i, nearest peris t i /\ peri_vernal t = (nth i peris 0, nth i vernals 0).
Proof.
  intros t Ht. unfold peri_vernal. destruct (Rltb_spec 2450000 t); [lra|].
  exists (argmin (map (fun p => Rabs (p - t)) peris)). split; [apply argmin_nearest; discriminate|reflexivity].
Qed.
Lemma peri_vernal_full_jd : forall t, 0 < t <= 2450000 -> peri_vernal (t + 2450000) = peri_vernal t.
Proof.
  intros t Ht. unfold peri_vernal. destruct (Rltb_spec 2450000 (t + 2450000)); [|lra]. destruct (Rltb_spec 2450000 t); [lra|].
  replace (t + 2450000 - 2450000) with t by ring. reflexivity.
Qed.
Lemma peri_before_vernal : forall i, (i < 21)%nat -> 74 < nth i vernals 0 - nth i peris 0 < 78.
Proof. intros i Hi. do 21 (destruct i as [|i]; [unfold peris, vernals; simpl; lra|]). lia. Qed.
Lemma argmin_from_skip best ib i l : (forall x, In x l -> best <= x) -> argmin_from best ib i l = ib.
Proof.
  revert i. induction l as [|x t IH]; intros i H; [reflexivity|]. cbn [argmin_from].
  destruct (Rltb_spec x best); [specialize (H x (or_introl eq_refl)); lra|]. apply IH. intros; apply H; simpl; auto.
Qed.
Lemma vernal_not_nearest : nth 0 vernals 0 = 1623.81597 /\ Rabs (nth 0 vernals 0 - 1800) < Rabs (snd (peri_vernal 1800) - 1800).
Proof.
  split; [reflexivity|].
  destruct (peri_vernal_nearest 1800 ltac:(lra)) as (i & (Hi & HN & HF) & ->). cbn [snd].
  assert (i = 1%nat) as ->.
  { change (length peris) with 21%nat in *.
    destruct i as [|[|i]]; [|reflexivity|]; exfalso.
    - specialize (HN 1%nat ltac:(lia)). unfold peris in HN. cbn [nth] in HN. unfold Rabs in HN. repeat destruct Rcase_abs; lra.
    - specialize (HF 1%nat ltac:(lia)). do 19 (destruct i as [|i]; [unfold peris in HF; cbn [nth] in HF; unfold Rabs in HF; repeat destruct Rcase_abs; lra|]). lia. }
  unfold vernals. cbn [nth]. unfold Rabs; repeat destruct Rcase_abs; lra.
Qed.

(** ** Kepler's equation *)
Lemma fprime_pos e x : 0 <= e < 1 -> 1 - e <= 1 - e * cos x.
Proof. intros. pose proof (COS_bound x). nra. Qed.
Lemma kepler_incr e a b : 0 <= e < 1 -> a < b -> a - e * sin a < b - e * sin b.
Proof.
  intros He H. destruct (MVT_gen (fun x => x - e * sin x) a b (fun x => 1 - e * cos x)) as (c & _ & Q).
  - intros x _. auto_derive; auto. ring.
  - intros x _. apply continuity_pt_filterlim. apply (ex_derive_continuous (fun x => x - e * sin x)). auto_derive. auto.
  - pose proof (fprime_pos e c He). nra.
Qed.
Lemma kepler_unique e phi p q : 0 <= e < 1 -> eccentric_anomaly e phi p -> eccentric_anomaly e phi q -> p = q.
Proof.
  unfold eccentric_anomaly. intros He Hp Hq. destruct (Rtotal_order p q) as [H|[H|H]]; auto; pose proof (kepler_incr _ _ _ He H); lra.
Qed.
Lemma kepler_exists e phi : 0 <= e < 1 -> exists p, eccentric_anomaly e phi p /\ phi - 1 <= p <= phi + 1.
Proof.
  intros He. destruct (IVT_cor (fun x => x - e * sin x - phi) (phi - 1) (phi + 1)) as (z & Hz & E).
  - intros x. apply continuity_pt_filterlim. apply (ex_derive_continuous (fun x => x - e * sin x - phi)). auto_derive. auto.
  - lra.
  - pose proof (SIN_bound (phi - 1)). pose proof (SIN_bound (phi + 1)). assert (-1 <= e * sin (phi - 1) <= 1) by nra. assert (-1 <= e * sin (phi + 1) <= 1) by nra. nra.
  - exists z. unfold eccentric_anomaly. split; [lra|auto].
Qed.
Lemma kepler_exists_unique : forall e phi, 0 <= e < 1 -> exists! p, eccentric_anomaly e phi p.
Proof.
  intros e phi He. destruct (kepler_exists e phi He) as (p & Hp & _). exists p. split; auto.
  intros q Hq. eapply kepler_unique; eauto.
Qed.

Lemma cos_lip a c : Rabs (cos a - cos c) <= Rabs (a - c).
Proof.
  destruct (MVT_gen cos c a (fun x => - sin x)) as (d & _ & Q).
  - intros. auto_derive; auto. ring.
  - intros. apply continuity_cos.
  - rewrite Q, Rabs_mult. pose proof (SIN_bound d). assert (Rabs (- sin d) <= 1) by (apply Rabs_le; lra).
    pose proof (Rabs_pos (a - c)). nra.
Qed.
Lemma between_sign a b c : Rmin a b <= c <= Rmax a b -> 0 <= (c - a) * (b - a) /\ Rabs (c - a) <= Rabs (b - a).
Proof.
  unfold Rmin, Rmax. destruct (Rle_dec a b); intros H; (split; [nra|]).
  - rewrite !Rabs_pos_eq; lra.
  - rewrite (Rabs_left1 (c - a)), (Rabs_left1 (b - a)); lra.
Qed.
(** second order Taylor bound of the sine *)
Lemma sin_taylor a b : Rabs (sin b - sin a - cos a * (b - a)) <= (b - a) ^ 2 / 2.
Proof.
  assert (G : forall s, s = 1 \/ s = -1 -> s * (sin b - sin a - cos a * (b - a)) <= (b - a) ^ 2 / 2).
  { intros s Hs. destruct (MVT_gen (fun x => (x - a) ^ 2 / 2 - s * (sin x - sin a - cos a * (x - a))) a b (fun x => (x - a) - s * (cos x - cos a))) as (c & Hc & Q).
    - intros. auto_derive; auto. field.
    - intros x _. apply continuity_pt_filterlim. apply (ex_derive_continuous (fun x => (x - a) ^ 2 / 2 - s * (sin x - sin a - cos a * (x - a)))). auto_derive. auto.
    - replace ((a - a) ^ 2 / 2 - s * (sin a - sin a - cos a * (a - a))) with 0 in Q by field.
      destruct (between_sign _ _ _ Hc) as [H1 H2]. pose proof (cos_lip c a) as H3.
      assert (0 <= ((c - a) - s * (cos c - cos a)) * (b - a)); [|lra].
      unfold Rabs in H3. destruct (Rcase_abs (cos c - cos a)), (Rcase_abs (c - a)); destruct Hs; subst s; 
      (destruct (Rle_dec a b); [assert (0 <= c - a) by (unfold Rmin, Rmax in Hc; destruct (Rle_dec a b); lra)|assert (c - a <= 0) by (unfold Rmin, Rmax in Hc; destruct (Rle_dec a b); lra)]); nra. }
  apply Rabs_le. pose proof (G 1 (or_introl eq_refl)). pose proof (G (-1) (or_intror eq_refl)). lra.
Qed.

Definition newton_const (e : R) : R := e / (2 * (1 - e)).
Lemma kepler_step_err e phi p x : 0 <= e < 1 -> eccentric_anomaly e phi p ->
  Rabs (kepler_step phi e x - p) <= newton_const e * (Rabs (x - p)) ^ 2.
Proof.
  intros He Hp. unfold eccentric_anomaly in Hp. pose proof (fprime_pos e x He) as Hf. unfold kepler_step, newton_const.
  replace (x - (x - e * sin x - phi) / (1 - e * cos x) - p) with (e * (- (sin p - sin x - cos x * (p - x)) / (1 - e * cos x))) by (rewrite <- Hp; field; lra).
  rewrite Rabs_mult, (Rabs_pos_eq e) by lra. unfold Rdiv at 1. rewrite Rabs_mult, Rabs_Ropp.
  rewrite (Rabs_pos_eq (/ (1 - e * cos x))) by (apply Rlt_le, Rinv_0_lt_compat; lra).
  pose proof (sin_taylor x p) as T. replace (Rabs (x - p) ^ 2) with ((p - x) ^ 2) by (rewrite <- (pow2_abs (p - x)), Rabs_minus_sym; reflexivity).
  assert (/ (1 - e * cos x) <= / (1 - e)) by (apply Rinv_le_contravar; lra).
  assert (0 < / (1 - e * cos x)) by (apply Rinv_0_lt_compat; lra).
  replace (e / (2 * (1 - e)) * (p - x) ^ 2) with (e * ((p - x) ^ 2 / 2 * / (1 - e))) by (field; lra).
  apply Rmult_le_compat_l; [lra|]. apply Rmult_le_compat; try lra. apply Rabs_pos.
Qed.
Lemma newton_const_pos e : 0 <= e < 1 -> 0 <= newton_const e.
Proof. intros. unfold newton_const. apply Rmult_le_pos; [lra|]. apply Rlt_le, Rinv_0_lt_compat. lra. Qed.
Lemma quad_pow K d0 d m : 0 <= K -> 0 <= d -> d <= K ^ m * d0 ^ (S m) -> K * d ^ 2 <= K ^ (S (2 * m)) * d0 ^ (S (S (2 * m))).
Proof.
  intros HK Hd H. replace (K ^ S (2 * m) * d0 ^ S (S (2 * m))) with (K * (K ^ m * d0 ^ S m) ^ 2).
  - apply Rmult_le_compat_l; auto. apply pow_incr. split; auto.
  - rewrite Rpow_mult_distr, <- !pow_mult. replace (m * 2)%nat with (2 * m)%nat by lia. replace (S m * 2)%nat with (S (S (2 * m))) by lia. simpl. ring.
Qed.
Lemma kepler_5_err e phi p x : 0 <= e < 1 -> eccentric_anomaly e phi p ->
  Rabs (Nat.iter 5 (kepler_step phi e) x - p) <= newton_const e ^ 31 * Rabs (x - p) ^ 32.
Proof.
  intros He Hp. pose proof (newton_const_pos e He) as HK. cbn [Nat.iter nat_rect].
  set (d0 := Rabs (x - p)).
  assert (H1 : forall y m, Rabs (y - p) <= newton_const e ^ m * d0 ^ S m -> Rabs (kepler_step phi e y - p) <= newton_const e ^ S (2 * m) * d0 ^ S (S (2 * m))).
  { intros y m H. eapply Rle_trans; [apply kepler_step_err; auto|]. apply quad_pow; auto. apply Rabs_pos. }
  assert (E0 : Rabs (x - p) <= newton_const e ^ 0 * d0 ^ 1) by (simpl; unfold d0; lra).
  apply H1 in E0. apply H1 in E0. apply H1 in E0. apply H1 in E0. apply H1 in E0. exact E0.
Qed.

(** the sign of the sine of the mean anomaly is that of the eccentric anomaly *)
Lemma kepler_sign_le e phi p : 0 <= e < 1 -> eccentric_anomaly e phi p -> sin p <= 0 -> sin phi <= 0.
Proof.
  intros He Hp Hs. unfold eccentric_anomaly in Hp. set (s := - sin p). set (d := e * s).
  assert (S1 : 0 <= s <= 1) by (unfold s; pose proof (SIN_bound p); lra).
  assert (D1 : 0 <= d <= s) by (unfold d; nra).
  replace phi with (p + d) by (unfold d, s; lra). rewrite sin_plus. replace (sin p) with (- s) by (unfold s; ring).
  pose proof PI2_1. assert (0 < cos d) by (apply cos_gt_0; lra).
  assert (0 <= sin d) by (apply sin_ge_0; lra).
  assert (sin d <= d) by (destruct (Req_dec d 0) as [->|]; [rewrite sin_0; lra|apply Rlt_le, sin_lt_x; lra]).
  destruct (Rle_dec (cos p) 0); [nra|].
  assert (cos p * sin d <= s * cos d); [|lra].
  apply Rsqr_incr_0_var; [|nra].
  pose proof (sin2_cos2 p) as Q1. pose proof (sin2_cos2 d) as Q2. unfold Rsqr in *. fold s in Q1.
  replace (cos p * sin d * (cos p * sin d)) with ((1 - sin p * sin p) * (sin d * sin d)) by (rewrite <- Q1; ring).
  replace (s * cos d * (s * cos d)) with (s * s * (1 - sin d * sin d)) by (rewrite <- Q2; ring).
  replace (sin p * sin p) with (s * s) by (unfold s; ring). nra.
Qed.
Lemma kepler_neg e phi p : eccentric_anomaly e phi p -> eccentric_anomaly e (- phi) (- p).
Proof. unfold eccentric_anomaly. rewrite sin_neg. lra. Qed.
Lemma kepler_init e phi p : 0 <= e < 1 -> eccentric_anomaly e phi p -> Rabs (phi + rsign (sin phi) * 0.85 * e - p) <= 0.85 * e.
Proof.
  intros He Hp. unfold rsign.
  destruct (Rltb_spec 0 (sin phi)) as [H|H]; [|destruct (Rltb_spec (sin phi) 0) as [H'|H']].
  - assert (0 < sin p). { destruct (Rlt_dec 0 (sin p)); auto. pose proof (kepler_sign_le e phi p He Hp). lra. }
    unfold eccentric_anomaly in Hp. pose proof (SIN_bound p). apply Rabs_le. nra.
  - assert (sin p < 0).
    { destruct (Rlt_dec (sin p) 0); auto. pose proof (kepler_sign_le e (- phi) (- p) He (kepler_neg _ _ _ Hp)) as K. rewrite !sin_neg in K. lra. }
    unfold eccentric_anomaly in Hp. pose proof (SIN_bound p). apply Rabs_le. nra.
  - assert (S0 : sin phi = 0) by lra.
    assert (p = phi) as ->. { apply (kepler_unique e phi); auto. unfold eccentric_anomaly. rewrite S0. ring. }
    replace (phi + 0 * 0.85 * e - phi) with 0 by ring. rewrite Rabs_R0. lra.
Qed.
Lemma getpsi_error : forall e phi p, 0 <= e < 1 -> eccentric_anomaly e phi p ->
  Rabs (getpsi phi e - p) <= (e / (2 * (1 - e))) ^ 31 * (0.85 * e) ^ 32.
Proof.
  intros e phi p He Hp. unfold getpsi. eapply Rle_trans; [apply (kepler_5_err e phi p); auto|].
  pose proof (newton_const_pos e He) as HK. apply Rmult_le_compat_l; [apply pow_le; exact HK|].
  apply pow_incr. split; [apply Rabs_pos|]. now apply kepler_init.
Qed.
Lemma getpsi_earth : forall phi p, eccentric_anomaly 0.0167 phi p -> Rabs (getpsi phi 0.0167 - p) <= (1 / 10) ^ 100.
Proof.
  intros phi p Hp. eapply Rle_trans; [apply getpsi_error; [lra|exact Hp]|].
  assert (A : (0.0167 / (2 * (1 - 0.0167))) ^ 31 <= ((1 / 10) ^ 2) ^ 31) by (apply pow_incr; split; lra).
  assert (B : (0.85 * 0.0167) ^ 32 <= (2 * (1 / 10) ^ 2) ^ 32) by (apply pow_incr; split; lra).
  eapply Rle_trans; [apply Rmult_le_compat; [apply pow_le; lra|apply pow_le; lra|exact A|exact B]|].
  rewrite Rpow_mult_distr. rewrite <- !pow_mult.
  replace (2 ^ 32) with 4294967296 by lra. cbn [Nat.mul Nat.add].
  replace 126%nat with (100 + 26)%nat by reflexivity.
  rewrite (Rmult_comm 4294967296), <- Rmult_assoc, <- pow_add. cbn [Nat.add].
  replace 126%nat with (100 + 26)%nat by reflexivity. rewrite pow_add, Rmult_assoc.
  rewrite <- (Rmult_1_r ((1 / 10) ^ 100)) at 2. apply Rmult_le_compat_l; [apply pow_le; lra|]. lra.
Qed.
Lemma getpsi_odd : forall phi e, getpsi (- phi) e = - getpsi phi e.
Proof.
  intros phi e. unfold getpsi.
  assert (St : forall x, kepler_step (- phi) e (- x) = - kepler_step phi e x).
  { intros x. unfold kepler_step. rewrite sin_neg, cos_neg. unfold Rdiv. ring. }
  assert (I0 : - phi + rsign (sin (- phi)) * 0.85 * e = - (phi + rsign (sin phi) * 0.85 * e)).
  { rewrite sin_neg. unfold rsign. destruct (Rltb_spec 0 (- sin phi)), (Rltb_spec (- sin phi) 0), (Rltb_spec 0 (sin phi)), (Rltb_spec (sin phi) 0); lra. }
  rewrite I0. cbn [Nat.iter nat_rect]. rewrite !St. reflexivity.
Qed.
Lemma sin_period_Z x k : sin (x + 2 * IZR k * PI) = sin x.
Proof.
  destruct (Z_le_gt_dec 0 k).
  - rewrite <- (Z2Nat.id k) by lia. rewrite <- INR_IZR_INZ. apply sin_period.
  - rewrite <- (sin_period (x + 2 * IZR k * PI) (Z.to_nat (- k))). rewrite INR_IZR_INZ, Z2Nat.id, opp_IZR by lia. f_equal. ring.
Qed.
Lemma cos_period_Z x k : cos (x + 2 * IZR k * PI) = cos x.
Proof.
  destruct (Z_le_gt_dec 0 k).
  - rewrite <- (Z2Nat.id k) by lia. rewrite <- INR_IZR_INZ. apply cos_period.
  - rewrite <- (cos_period (x + 2 * IZR k * PI) (Z.to_nat (- k))). rewrite INR_IZR_INZ, Z2Nat.id, opp_IZR by lia. f_equal. ring.
Qed.
Lemma getpsi_turn : forall phi e k, getpsi (phi + 2 * IZR k * PI) e = getpsi phi e + 2 * IZR k * PI.
Proof.
  intros phi e k. unfold getpsi.
  assert (St : forall x, kepler_step (phi + 2 * IZR k * PI) e (x + 2 * IZR k * PI) = kepler_step phi e x + 2 * IZR k * PI).
  { intros x. unfold kepler_step. rewrite sin_period_Z, cos_period_Z. unfold Rdiv. ring. }
  rewrite sin_period_Z. replace (phi + 2 * IZR k * PI + rsign (sin phi) * 0.85 * e) with (phi + rsign (sin phi) * 0.85 * e + 2 * IZR k * PI) by ring.
  cbn [Nat.iter nat_rect]. rewrite !St. reflexivity.
Qed.

(** ** eccentricities close to one *)
Lemma sin_ge_quad x : 0 <= x -> x - x ^ 2 / 2 <= sin x.
Proof. intros. pose proof (sin_taylor 0 x) as T. rewrite sin_0, cos_0 in T. apply Rabs_le_between in T. nra. Qed.
Lemma sin_le_x x : 0 <= x -> sin x <= x.
Proof. intros [H| <-]; [now apply Rlt_le, sin_lt_x|rewrite sin_0; lra]. Qed.
Lemma sin_le_cubic x : 0 <= x <= 1 -> sin x <= x * (1 - 3 / 32 * x ^ 2).
Proof.
  intros H. replace (sin x) with (2 * sin (x / 2) * cos (x / 2)) by (rewrite <- sin_2a; f_equal; field).
  replace (cos (x / 2)) with (1 - 2 * (sin (x / 4) * sin (x / 4))).
  2:{ replace (x / 2) with (2 * (x / 4)) by field. rewrite cos_2a_sin. ring. }
  pose proof (sin_le_x (x / 2) ltac:(lra)). pose proof (sin_ge_quad (x / 4) ltac:(lra)). pose proof (sin_ge_quad (x / 2) ltac:(lra)).
  pose proof (sin_le_x (x / 4) ltac:(lra)).
  assert (7 / 32 * x <= sin (x / 4)) by nra.
  assert (3 / 64 * x ^ 2 <= sin (x / 4) * sin (x / 4)) by nra.
  assert (sin (x / 4) * sin (x / 4) <= 1 / 16) by nra.
  assert (0 <= sin (x / 2)) by nra. nra.
Qed.
Lemma tan_ge h : 0 <= h <= 1 -> h * cos h <= sin h.
Proof.
  intros H. destruct (MVT_gen (fun x => sin x - x * cos x) 0 h (fun x => x * sin x)) as (c & Hc & Q).
  - intros. auto_derive; auto. ring.
  - intros x _. apply continuity_pt_filterlim. apply (ex_derive_continuous (fun x => sin x - x * cos x)). auto_derive. auto.
  - rewrite sin_0 in Q. rewrite Rmin_left, Rmax_right in Hc by lra.
    assert (0 <= sin c) by (apply sin_ge_0; pose proof PI2_1; lra).
    assert (0 <= c * sin c) by nra. nra.
Qed.
Section HighEcc.
Variable d : R.
Hypothesis Hd : 0 < d <= 1 / 1000000000.
Let e := 1 - d.
Lemma halving x : 0 < x <= 1 -> 0 <= x - e * sin x - d -> let y := kepler_step d e x in x / 2 <= y <= x /\ 0 <= y - e * sin y - d.
Proof.
  intros Hx Hf y. assert (Hfp : 0 < 1 - e * cos x) by (pose proof (COS_bound x); unfold e; nra).
  assert (Y : (x - y) * (1 - e * cos x) = x - e * sin x - d) by (unfold y, kepler_step; field; lra).
  assert (T : x * (1 + cos x) <= 2 * sin x).
  { pose proof (tan_ge (x / 2) ltac:(lra)) as T. assert (0 < cos (x / 2)) by (apply cos_gt_0; pose proof PI2_1; lra).
    replace (sin x) with (2 * sin (x / 2) * cos (x / 2)) by (rewrite <- sin_2a; f_equal; field).
    replace (cos x) with (2 * cos (x / 2) * cos (x / 2) - 1) by (rewrite <- cos_2a_cos; f_equal; field). nra. }
  assert (Y1 : y <= x) by nra.
  assert (Y2 : x / 2 <= y).
  { assert (x - y <= x / 2); [|lra]. apply Rmult_le_reg_r with (1 - e * cos x); auto. rewrite Y. unfold e in *. nra. }
  repeat split; auto.
  assert (HC : sin y <= sin x + cos x * (y - x)).
  { destruct (MVT_gen (fun t => sin x + cos x * (t - x) - sin t) x y (fun t => cos x - cos t)) as (c & Hc & Q).
    - intros. auto_derive; auto. ring.
    - intros t _. apply continuity_pt_filterlim. apply (ex_derive_continuous (fun t => sin x + cos x * (t - x) - sin t)). auto_derive. auto.
    - rewrite Rmin_right, Rmax_left in Hc by lra. assert (cos x <= cos c) by (apply cos_decr_1; pose proof PI2_1; lra).
      assert (0 <= (cos x - cos c) * (y - x)) by nra. lra. }
  unfold e in *. nra.
Qed.
Lemma halving_iter n x : 0 < x <= 1 -> 0 <= x - e * sin x - d -> let y := Nat.iter n (kepler_step d e) x in
  x / 2 ^ n <= y <= x /\ 0 <= y - e * sin y - d.
Proof.
  intros Hx Hf. induction n as [|n IH]; cbn zeta.
  - simpl. repeat split; lra.
  - cbn [Nat.iter nat_rect]. change (nat_rect (fun _ => R) x (fun _ => kepler_step d e) n) with (Nat.iter n (kepler_step d e) x).
    destruct IH as ((I1 & I2) & I3). set (y := Nat.iter n (kepler_step d e) x) in *.
    assert (P2 : 0 < 2 ^ n) by (apply pow_lt; lra).
    assert (0 < x / 2 ^ n) by (apply Rdiv_lt_0_compat; lra).
    destruct (halving y ltac:(lra) I3) as ((J1 & J2) & J3). cbn zeta in *. repeat split; try lra.
    eapply Rle_trans; [|exact J1]. replace (x / 2 ^ S n) with (x / 2 ^ n / 2) by (simpl; field; lra). lra.
Qed.
Lemma getpsi_high : forall p, eccentric_anomaly e d p -> 0.01 < getpsi d e - p.
Proof.
  intros p Hp. unfold eccentric_anomaly in Hp.
  assert (He : 0 <= e < 1) by (unfold e; lra).
  assert (Sd : 0 < sin d) by (apply sin_gt_0; pose proof PI2_1; lra).
  unfold getpsi. unfold rsign. destruct (Rltb_spec 0 (sin d)); [|lra].
  set (x0 := d + 1 * 0.85 * e).
  assert (X0 : 0.849 <= x0 <= 0.851) by (unfold x0, e; lra).
  destruct (halving_iter 5 x0) as ((L & _) & _); [lra| |].
  - assert (sin x0 <= 0.85); [|unfold x0 in *; nra].
    eapply Rle_trans; [apply sin_le_cubic; lra|]. nra.
  - assert (p < 0.01).
    { destruct (Rlt_dec p 0.01); auto. exfalso.
      assert (Q : 0.01 - e * sin 0.01 <= d).
      { destruct (Req_dec p 0.01) as [->|]; [lra|]. pose proof (kepler_incr e 0.01 p He ltac:(lra)). lra. }
      pose proof (sin_le_cubic 0.01 ltac:(lra)). assert (e * sin 0.01 <= 0.01 * (1 - 3 / 32 * 0.01 ^ 2)); [|nra].
      destruct (Rle_dec 0 (sin 0.01)); nra. }
    simpl pow in L. lra.
Qed.
End HighEcc.

(** ** projection basis *)
Lemma rot_x_rotation a : rotation (rot_x a).
Proof. unfold rotation, rot_x, unit_vec, orthogonal, ip, det3. pose proof (sin2_cos2 a) as H. unfold Rsqr in H. repeat split; nra. Qed.
Lemma rot_z_rotation a : rotation (rot_z a).
Proof. unfold rotation, rot_z, unit_vec, orthogonal, ip, det3. pose proof (sin2_cos2 (- a)) as H. unfold Rsqr in H. repeat split; nra. Qed.
Lemma orbit_rotation : forall rotaxis_deg psi RA Dec, rotation (fst (fst (prepare_projection_basis rotaxis_deg psi RA Dec))).
Proof.
  intros. unfold prepare_projection_basis. cbn [fst]. unfold rotation, mmul, rot_x, rot_z, transpose, dot, unit_vec, orthogonal, ip, det3.
  set (a := deg2rad rotaxis_deg). pose proof (sin2_cos2 a) as H. pose proof (sin2_cos2 (- psi)) as K. unfold Rsqr in *.
  set (ca := cos a) in *. set (sa := sin a) in *. set (cp := cos (- psi)) in *. set (sp := sin (- psi)) in *. clearbody ca sa cp sp.
  assert (H' : ca * ca = 1 - sa * sa) by lra. assert (K' : cp * cp = 1 - sp * sp) by lra.
  repeat split; ring [H' K'].
Qed.
Lemma sqrt_eq_pos x y : 0 <= y -> x = y * y -> sqrt x = y.
Proof. intros H ->. now apply sqrt_square. Qed.
Lemma basis_explicit rotaxis_deg psi RA Dec : let a := deg2rad RA in let d := deg2rad Dec in 0 < cos d ->
  prepare_projection_basis rotaxis_deg psi RA Dec =
  (mmul (rot_x (deg2rad rotaxis_deg)) (rot_z psi), Some (- cos a * sin d, - sin a * sin d, cos d), Some (- sin a, cos a, 0)).
Proof.
  intros a d Hd. unfold prepare_projection_basis. fold a d.
  pose proof (sin2_cos2 a) as Ha. pose proof (sin2_cos2 d) as Hdd. unfold Rsqr in *.
  assert (E1 : normalize (cross (0, 0, 1) (line_of_sight a d)) = Some (- sin a, cos a, 0)).
  { unfold normalize, cross, line_of_sight.
    assert (N : vnorm (0 * sin d - 1 * (sin a * cos d), 1 * (cos a * cos d) - 0 * sin d, 0 * (sin a * cos d) - 0 * (cos a * cos d)) = cos d).
    { unfold vnorm. apply sqrt_eq_pos; [lra|]. unfold dot.
      replace (_ + _ + _) with ((sin a * sin a + cos a * cos a) * (cos d * cos d)) by ring. rewrite Ha. ring. }
    rewrite N. destruct (Reqb_spec (cos d) 0); [lra|]. unfold vdiv. f_equal. f_equal; [f_equal|]; field; lra. }
  rewrite E1. f_equal. f_equal. unfold normalize, cross, line_of_sight.
  set (v := (_, _, _)).
  assert (V : v = (- cos a * sin d, - sin a * sin d, cos d)).
  { unfold v. f_equal; [f_equal; ring|]. replace (_ - _) with ((sin a * sin a + cos a * cos a) * cos d) by ring. rewrite Ha. ring. }
  rewrite V. assert (N : vnorm (- cos a * sin d, - sin a * sin d, cos d) = 1).
  { unfold vnorm. apply sqrt_eq_pos; [lra|]. unfold dot.
    replace (_ + _ + _) with ((sin a * sin a + cos a * cos a) * (sin d * sin d) + cos d * cos d) by ring. rewrite Ha. lra. }
  rewrite N. destruct (Reqb_spec 1 0); [lra|]. unfold vdiv. f_equal. f_equal; [f_equal|]; field.
Qed.
Lemma dec_cos Dec : -90 < Dec < 90 -> 0 < cos (deg2rad Dec).
Proof. intros H. pose proof PI_RGT_0. apply cos_gt_0; unfold deg2rad; nra. Qed.
Lemma basis_orthonormal : forall rotaxis_deg psi RA Dec, -90 < Dec < 90 ->
  exists Rm north east, prepare_projection_basis rotaxis_deg psi RA Dec = (Rm, Some north, Some east) /\
    let los := direction (RA * PI / 180) (Dec * PI / 180) in
    unit_vec north /\ unit_vec east /\ orthogonal north east /\ orthogonal north los /\ orthogonal east los /\
    det3 east north los = 1 /\ rotation Rm.
Proof.
  intros rotaxis_deg psi RA Dec H. pose proof (basis_explicit rotaxis_deg psi RA Dec (dec_cos Dec H)) as E. cbn zeta in E.
  do 3 eexists. split; [exact E|]. pose proof (orbit_rotation rotaxis_deg psi RA Dec) as O. rewrite E in O. cbn [fst] in O.
  cbn zeta. fold (deg2rad RA). fold (deg2rad Dec).
  change (RA * PI / 180) with (deg2rad RA). change (Dec * PI / 180) with (deg2rad Dec).
  set (a := deg2rad RA). set (d := deg2rad Dec).
  pose proof (sin2_cos2 a) as Ha. pose proof (sin2_cos2 d) as Hdd. unfold Rsqr in *.
  unfold unit_vec, orthogonal, ip, det3, direction.
  set (ca := cos a) in *. set (sa := sin a) in *. set (cd := cos d) in *. set (sd := sin d) in *.
  assert (H' : ca * ca = 1 - sa * sa) by lra. assert (K' : cd * cd = 1 - sd * sd) by lra.
  repeat match goal with |- _ /\ _ => split end; try exact O.
  - replace (_ + _ + _) with ((sa * sa + ca * ca) * (sd * sd) + cd * cd) by ring. rewrite Ha. lra.
  - lra.
  - ring.
  - replace (_ + _ + _) with (cd * sd * (1 - (sa * sa + ca * ca))) by ring. rewrite Ha. ring.
  - ring.
  - replace (_ - _ + _) with ((sa * sa + ca * ca) * (sd * sd + cd * cd)) by ring. rewrite Ha, Hdd. ring.
Qed.
(** east and north are the directions of increasing right ascension and declination *)
Lemma basis_directions : forall rotaxis_deg psi RA Dec Rm north east, -90 < Dec < 90 ->
  prepare_projection_basis rotaxis_deg psi RA Dec = (Rm, Some north, Some east) ->
  let a := RA * PI / 180 in let d := Dec * PI / 180 in
  (forall u, is_derive (fun d' => ip u (direction a d')) d (ip u north)) /\
  (forall u, is_derive (fun a' => ip u (direction a' d)) a (cos d * ip u east)).
Proof.
  intros rotaxis_deg psi RA Dec Rm north east H E a d.
  rewrite (basis_explicit rotaxis_deg psi RA Dec (dec_cos Dec H)) in E. change (deg2rad RA) with a in E. change (deg2rad Dec) with d in E.
  injection E as _ <- <-. split; intros [[u1 u2] u3]; unfold ip, direction; auto_derive; auto; ring.
Qed.
Lemma basis_pole : forall rotaxis_deg psi RA, snd (prepare_projection_basis rotaxis_deg psi RA 90) = None /\
  snd (fst (prepare_projection_basis rotaxis_deg psi RA 90)) = None.
Proof.
  intros. unfold prepare_projection_basis. cbn [fst snd].
  assert (E : normalize (cross (0, 0, 1) (line_of_sight (deg2rad RA) (deg2rad 90))) = None).
  { unfold normalize, cross, line_of_sight. replace (deg2rad 90) with (PI / 2) by (unfold deg2rad; field). rewrite cos_PI2.
    match goal with |- (if Reqb ?x 0 then _ else _) = _ => assert (N : x = 0) end.
    { unfold vnorm. apply sqrt_eq_pos; [lra|]. unfold dot. ring. }
    rewrite N, Reqb_refl. reflexivity. }
  rewrite E. auto.
Qed.

(** Parseval: the two projections and the component along the line of sight make up the whole vector *)
Lemma parseval (n e l v : R * R * R) : unit_vec n -> unit_vec e -> orthogonal n e -> orthogonal n l -> orthogonal e l -> det3 e n l = 1 -> unit_vec l ->
  ip n v ^ 2 + ip e v ^ 2 + ip l v ^ 2 = ip v v.
Proof.
  destruct n as [[n1 n2] n3], e as [[e1 e2] e3], l as [[l1 l2] l3], v as [[v1 v2] v3]. unfold unit_vec, orthogonal, ip, det3.
  intros A B D E F G U.
  (* the transpose of an orthogonal matrix is its inverse: v = (e.v) e + (n.v) n + (l.v) l *)
  assert (X1 : e2 * n3 - e3 * n2 = l1 /\ e3 * n1 - e1 * n3 = l2 /\ e1 * n2 - e2 * n1 = l3).
  { assert (Q : (e2 * n3 - e3 * n2 - l1) ^ 2 + (e3 * n1 - e1 * n3 - l2) ^ 2 + (e1 * n2 - e2 * n1 - l3) ^ 2 = 0).
    { replace ((e2 * n3 - e3 * n2 - l1) ^ 2 + (e3 * n1 - e1 * n3 - l2) ^ 2 + (e1 * n2 - e2 * n1 - l3) ^ 2)
        with ((e1 * e1 + e2 * e2 + e3 * e3) * (n1 * n1 + n2 * n2 + n3 * n3) - (n1 * e1 + n2 * e2 + n3 * e3) ^ 2 + (l1 * l1 + l2 * l2 + l3 * l3)
           - 2 * (e1 * (n2 * l3 - n3 * l2) - e2 * (n1 * l3 - n3 * l1) + e3 * (n1 * l2 - n2 * l1))) by ring.
      rewrite A, B, D, G, U. ring. }
    pose proof (pow2_ge_0 (e2 * n3 - e3 * n2 - l1)). pose proof (pow2_ge_0 (e3 * n1 - e1 * n3 - l2)). pose proof (pow2_ge_0 (e1 * n2 - e2 * n1 - l3)).
    assert (Z : forall x, x ^ 2 = 0 -> x = 0) by (intros x Hx; apply Rsqr_0_uniq; unfold Rsqr; lra).
    assert (e2 * n3 - e3 * n2 - l1 = 0) by (apply Z; lra). assert (e3 * n1 - e1 * n3 - l2 = 0) by (apply Z; lra).
    assert (e1 * n2 - e2 * n1 - l3 = 0) by (apply Z; lra). lra. }
  destruct X1 as (<- & <- & <-).
  (* Gram determinant identity *)
  assert (I : forall a1 a2 a3 b1 b2 b3 w1 w2 w3,
    ((a2 * b3 - a3 * b2) * w1 + (a3 * b1 - a1 * b3) * w2 + (a1 * b2 - a2 * b1) * w3) ^ 2 =
    (a1 * a1 + a2 * a2 + a3 * a3) * ((b1 * b1 + b2 * b2 + b3 * b3) * (w1 * w1 + w2 * w2 + w3 * w3) - (b1 * w1 + b2 * w2 + b3 * w3) ^ 2)
    - (b1 * a1 + b2 * a2 + b3 * a3) * ((b1 * a1 + b2 * a2 + b3 * a3) * (w1 * w1 + w2 * w2 + w3 * w3) - (b1 * w1 + b2 * w2 + b3 * w3) * (a1 * w1 + a2 * w2 + a3 * w3))
    + (a1 * w1 + a2 * w2 + a3 * w3) * ((b1 * a1 + b2 * a2 + b3 * a3) * (b1 * w1 + b2 * w2 + b3 * w3) - (b1 * b1 + b2 * b2 + b3 * b3) * (a1 * w1 + a2 * w2 + a3 * w3)))
    by (intros; ring).
  rewrite I, A, B, D. ring.
Qed.
Lemma rotation_norm m v : rotation m -> ip (mvmul m v) (mvmul m v) = ip v v.
Proof.
  destruct m as [[r1 r2] r3]. unfold rotation. intros (A & B & D & E & F & G & J).
  assert (P := parseval r2 r1 r3 v B A).
  destruct v as [[v1 v2] v3], r1 as [[a1 a2] a3], r2 as [[b1 b2] b3], r3 as [[c1 c2] c3].
  unfold mvmul, dot, unit_vec, orthogonal, ip in *. rewrite <- P; try lra; auto.
Qed.
Lemma orbit_norm psi e : 0 <= e < 1 -> ip (orbit_position psi e) (orbit_position psi e) = (1 - e * cos psi) ^ 2.
Proof.
  intros He. unfold orbit_position, ip. pose proof (sin2_cos2 psi) as H. unfold Rsqr in H.
  assert (S2 : sqrt (1 - e ^ 2) * sqrt (1 - e ^ 2) = 1 - e ^ 2) by (apply sqrt_sqrt; nra).
  replace (sin psi * sqrt (1 - e ^ 2) * (sin psi * sqrt (1 - e ^ 2))) with (sin psi * sin psi * (1 - e ^ 2)) by ring [S2].
  replace (sin psi * sin psi) with (1 - cos psi * cos psi) by lra. ring.
Qed.
(** The projected position is the sky component of a vector of length 1 - e cos psi (the Sun is in the focus). *)
Lemma projection_length : forall t tperi period ecc rotaxis_deg psi0 RA Dec Rm north east, 0 <= ecc < 1 -> -90 < Dec < 90 ->
  prepare_projection_basis rotaxis_deg psi0 RA Dec = (Rm, Some north, Some east) ->
  let q := project_earth_position t tperi period ecc Rm north east in
  let psi := getpsi (2 * PI * (t - tperi) / period) ecc in
  exists along, fst q ^ 2 + snd q ^ 2 + along ^ 2 = (1 - ecc * cos psi) ^ 2.
Proof.
  intros t tperi period ecc rd psi0 RA Dec Rm north east He HD E q psi.
  destruct (basis_orthonormal rd psi0 RA Dec HD) as (Rm' & n' & e' & E' & A & B & D & F & G & J & K).
  rewrite E in E'. injection E' as <- <- <-.
  exists (ip (direction (RA * PI / 180) (Dec * PI / 180)) (mvmul Rm (orbit_position psi ecc))).
  unfold q, project_earth_position. fold psi. cbn [fst snd].
  change (dot north) with (ip north). change (dot east) with (ip east).
  rewrite (parseval north east (direction (RA * PI / 180) (Dec * PI / 180))); auto.
  - rewrite rotation_norm by auto. now apply orbit_norm.
  - unfold unit_vec, direction, ip. pose proof (sin2_cos2 (RA * PI / 180)) as Ha. pose proof (sin2_cos2 (Dec * PI / 180)) as Hdd. unfold Rsqr in *.
    set (ca := cos (RA * PI / 180)) in *. set (sa := sin (RA * PI / 180)) in *.
    replace (_ + _ + _) with ((sa * sa + ca * ca) * (cos (Dec * PI / 180) * cos (Dec * PI / 180)) + sin (Dec * PI / 180) * sin (Dec * PI / 180)) by ring.
    rewrite Ha. lra.
Qed.

(** ** the equinox *)
Lemma atan_cos_sin x y : 0 < x -> x * x + y * y = 1 -> cos (atan (y / x)) = x /\ sin (atan (y / x)) = y.
Proof.
  intros Hx H. assert (Q : sqrt (1 + (y / x)²) = / x).
  { apply sqrt_eq_pos; [apply Rlt_le, Rinv_0_lt_compat; auto|]. unfold Rsqr. replace (1 + y / x * (y / x)) with ((x * x + y * y) * (/ x * / x)) by (field; lra). rewrite H. ring. }
  rewrite cos_atan, sin_atan, Q. split; field; lra.
Qed.
Lemma arctan2_unit x y : x * x + y * y = 1 -> cos (arctan2 y x) = x /\ sin (arctan2 y x) = y.
Proof.
  intros H. unfold arctan2. destruct (Rltb_spec 0 x) as [P|P]; [now apply atan_cos_sin|].
  destruct (Rltb_spec x 0) as [P'|P'].
  - assert (A : cos (atan (y / x)) = - x /\ sin (atan (y / x)) = - y).
    { replace (y / x) with (- y / - x) by (field; lra). apply atan_cos_sin; lra. }
    destruct A as [A1 A2]. destruct (Rleb 0 y).
    + rewrite neg_cos, neg_sin. lra.
    + rewrite cos_minus, sin_minus, cos_PI, sin_PI. lra.
  - assert (x = 0) as -> by lra. destruct (Rltb_spec 0 y).
    + rewrite cos_PI2, sin_PI2. split; nra.
    + destruct (Rltb_spec y 0); [|nra]. replace (- PI / 2) with (- (PI / 2)) by field. rewrite cos_neg, sin_neg, cos_PI2, sin_PI2. split; nra.
Qed.
Lemma mod_2pi_trig t : cos (mod_2pi t) = cos t /\ sin (mod_2pi t) = sin t.
Proof.
  unfold mod_2pi. destruct (Rltb t 0); auto. pose proof (cos_period t 1) as A. pose proof (sin_period t 1) as B. simpl in A, B.
  replace (t + 2 * 1 * PI) with (t + 2 * PI) in A, B by ring. auto.
Qed.
Lemma f_rot_trig tperi tvernal period e : 0 <= e < 1 -> let psi := getpsi (2 * PI * (tvernal - tperi) / period) e in
  cos (f_rot tperi tvernal period e) * (1 - e * cos psi) = cos psi - e /\
  sin (f_rot tperi tvernal period e) * (1 - e * cos psi) = sqrt (1 - e ^ 2) * sin psi.
Proof.
  intros He psi. unfold f_rot. fold psi. set (c := (cos psi - e) / _). set (s := sqrt (1 - e ^ 2) * sin psi / _).
  pose proof (fprime_pos e psi He) as Hf. destruct (mod_2pi_trig (arctan2 s c)) as [-> ->].
  assert (S2 : sqrt (1 - e ^ 2) * sqrt (1 - e ^ 2) = 1 - e ^ 2) by (apply sqrt_sqrt; nra).
  pose proof (sin2_cos2 psi) as T. unfold Rsqr in T.
  destruct (arctan2_unit c s) as [-> ->].
  - unfold c, s.
    replace ((cos psi - e) / (1 - e * cos psi) * ((cos psi - e) / (1 - e * cos psi)) + sqrt (1 - e ^ 2) * sin psi / (1 - e * cos psi) * (sqrt (1 - e ^ 2) * sin psi / (1 - e * cos psi)))
      with (((cos psi - e) ^ 2 + (sqrt (1 - e ^ 2) * sqrt (1 - e ^ 2)) * (sin psi * sin psi)) / (1 - e * cos psi) ^ 2) by (field; lra).
    rewrite S2. replace (sin psi * sin psi) with (1 - cos psi * cos psi) by lra. field. lra.
  - unfold c, s. split; field; lra.
Qed.
(** at the equinox the modelled vector points along the first equatorial axis *)
Lemma equinox_direction : forall tperi tvernal period ecc rotaxis_deg RA Dec, 0 <= ecc < 1 ->
  let psi := getpsi (2 * PI * (tvernal - tperi) / period) ecc in
  let Rm := fst (fst (prepare_projection_basis rotaxis_deg (f_rot tperi tvernal period ecc) RA Dec)) in
  mvmul Rm (orbit_position psi ecc) = (1 - ecc * cos psi, 0, 0).
Proof.
  intros tperi tvernal period e rd RA Dec He psi Rm. destruct (f_rot_trig tperi tvernal period e He) as [A B]. fold psi in A, B.
  unfold Rm, prepare_projection_basis. cbn [fst]. set (f := f_rot tperi tvernal period e) in *. set (a := deg2rad rd).
  unfold mmul, rot_x, rot_z, transpose, mvmul, orbit_position, dot. rewrite !cos_neg, !sin_neg.
  rewrite <- A. replace (sin psi * sqrt (1 - e ^ 2)) with (sin f * (1 - e * cos psi)) by lra.
  pose proof (sin2_cos2 f) as T. unfold Rsqr in T. assert (T' : cos f * cos f = 1 - sin f * sin f) by lra.
  f_equal; [f_equal|]; ring [T'].
Qed.

(** ** offsets *)
Lemma project_periodic : forall t tperi period ecc Rm north east k, period <> 0 ->
  project_earth_position (t + IZR k * period) tperi period ecc Rm north east = project_earth_position t tperi period ecc Rm north east.
Proof.
  intros. unfold project_earth_position.
  replace (2 * PI * (t + IZR k * period - tperi) / period) with (2 * PI * (t - tperi) / period + 2 * IZR k * PI) by (field; auto).
  rewrite getpsi_turn. unfold orbit_position. rewrite cos_period_Z, sin_period_Z. reflexivity.
Qed.
Lemma parallax_zero : forall tref tperi tvernal RA Dec rotaxis_deg ecc period dt p piEN piEE,
  set_parallax tref tperi tvernal RA Dec rotaxis_deg ecc period dt = Some p ->
  compute_parallax [tref] piEN piEE p = ([0], [0]).
Proof.
  intros tref tperi tvernal RA Dec rd ecc period dt p n e H. unfold set_parallax in H.
  destruct (if Reqb (tperi * tvernal) 0 then peri_vernal tref else (tperi, tvernal)) as [tp tv].
  destruct (prepare_projection_basis rd (f_rot tp tv period ecc) RA Dec) as [[Rm [no|]] [ea|]]; try discriminate.
  injection H as <-. unfold compute_parallax, compute_parallax1. cbn [map fst snd pp_q0 pp_v0 pp_R pp_north pp_east pp_tref pp_tperi pp_period pp_ecc].
  f_equal; f_equal; ring.
Qed.
(** the parameters exist for every target off the poles *)
Lemma set_parallax_defined : forall tref tperi tvernal RA Dec rotaxis_deg ecc period dt, -90 < Dec < 90 ->
  exists p, set_parallax tref tperi tvernal RA Dec rotaxis_deg ecc period dt = Some p /\ pp_tref p = tref /\
    (tperi * tvernal <> 0 -> pp_tperi p = tperi).
Proof.
  intros tref tperi tvernal RA Dec rd ecc period dt HD. unfold set_parallax.
  destruct (if Reqb (tperi * tvernal) 0 then peri_vernal tref else (tperi, tvernal)) as [tp tv] eqn:Q.
  destruct (basis_orthonormal rd (f_rot tp tv period ecc) RA Dec HD) as (Rm & n & e & -> & _).
  eexists. split; [reflexivity|]. cbn [pp_tref pp_tperi]. split; auto. intros N. destruct (Reqb_spec (tperi * tvernal) 0); [contradiction|]. congruence.
Qed.
Definition displacement (p : parallax_params) (t : R) : R * R :=
  let q := project_earth_position t (pp_tperi p) (pp_period p) (pp_ecc p) (pp_R p) (pp_north p) (pp_east p) in
  (fst q - fst (pp_q0 p) - fst (pp_v0 p) * (t - pp_tref p), snd q - snd (pp_q0 p) - snd (pp_v0 p) * (t - pp_tref p)).
Lemma parallax_rotation : forall piEN piEE p ts, compute_parallax ts piEN piEE p =
  (map (fun t => piEN * fst (displacement p t) + piEE * snd (displacement p t)) ts,
   map (fun t => piEN * snd (displacement p t) - piEE * fst (displacement p t)) ts).
Proof.
  intros. unfold compute_parallax, compute_parallax1, displacement. rewrite !map_map. f_equal; apply map_ext; intros t; cbv beta zeta; cbn [fst snd]; [ring|]. ring.
Qed.
Lemma pair_lists (a b c d : R) : ([a], [b]) = ([c], [d]) -> a = c /\ b = d.
Proof. intros H. inversion H. auto. Qed.
Lemma parallax_length : forall piEN piEE p t dtn dum, compute_parallax [t] piEN piEE p = ([dtn], [dum]) ->
  dtn ^ 2 + dum ^ 2 = (piEN ^ 2 + piEE ^ 2) * (fst (displacement p t) ^ 2 + snd (displacement p t) ^ 2).
Proof.
  intros n e p t a b H. rewrite parallax_rotation in H. cbn [map] in H. apply pair_lists in H. destruct H as [<- <-]. ring.
Qed.
Lemma parallax_linear : forall a b n1 e1 n2 e2 p t x1 y1 x2 y2,
  compute_parallax [t] n1 e1 p = ([x1], [y1]) -> compute_parallax [t] n2 e2 p = ([x2], [y2]) ->
  compute_parallax [t] (a * n1 + b * n2) (a * e1 + b * e2) p = ([a * x1 + b * x2], [a * y1 + b * y2]).
Proof.
  intros a b n1 e1 n2 e2 p t x1 y1 x2 y2 H K. rewrite parallax_rotation in *. cbn [map] in *. apply pair_lists in H. apply pair_lists in K. destruct H as [<- <-], K as [<- <-].
  f_equal; f_equal; ring.
Qed.
(** the linear motion over the window of width 2 dt is removed *)
Lemma Some_inj {A} (x y : A) : Some x = Some y -> x = y.
Proof. congruence. Qed.
Lemma parallax_window : forall tref tperi tvernal RA Dec rotaxis_deg ecc period dt p n e, dt <> 0 ->
  set_parallax tref tperi tvernal RA Dec rotaxis_deg ecc period dt = Some p ->
  compute_parallax [tref + dt] n e p = compute_parallax [tref - dt] n e p.
Proof.
  intros tref tperi tvernal RA Dec rd ecc period dt p n e Hdt H. unfold set_parallax in H.
  destruct (if Reqb (tperi * tvernal) 0 then peri_vernal tref else (tperi, tvernal)) as [tp tv].
  destruct (prepare_projection_basis rd (f_rot tp tv period ecc) RA Dec) as [[Rm [no|]] [ea|]]; try discriminate.
  apply Some_inj in H. subst p. unfold compute_parallax, compute_parallax1. cbn [map fst snd pp_q0 pp_v0 pp_R pp_north pp_east pp_tref pp_tperi pp_period pp_ecc].
  set (q1 := project_earth_position (tref - dt) _ _ _ _ _ _). set (q2 := project_earth_position (tref + dt) _ _ _ _ _ _).
  set (q0 := project_earth_position tref _ _ _ _ _ _). clearbody q0 q1 q2. replace 0.5 with (1 / 2) by lra.
  assert (Z : forall x0 x1 x2, x2 - (x0 + 1 / 2 * (x2 - x1) / dt * (tref + dt - tref)) = x1 - (x0 + 1 / 2 * (x2 - x1) / dt * (tref - dt - tref)))
    by (intros; field; auto).
  rewrite !Z. reflexivity.
Qed.
