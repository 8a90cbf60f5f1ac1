(** Proofs: how far the average over a small source is from the value at its centre. *)
From Coq Require Import Reals Lra Lia.
From Coquelicot Require Import Coquelicot.
From Verif Require Import Base_R S_FiniteSource.
Local Open Scope R_scope.

(** ** signs from derivatives *)
Lemma mvt (F F' : R -> R) a b : a < b -> (forall x, a <= x <= b -> is_derive F x (F' x)) -> exists c, a < c < b /\ F b - F a = F' c * (b - a).
Proof. intros Hab H. destruct (MVT_cor2 F F' a b Hab) as (c & E & Hc); [intros x Hx; apply is_derive_Reals; auto|]. exists c. split; auto. Qed.
Lemma sign_odd (F F' : R -> R) a b : a <= 0 <= b -> (forall x, a <= x <= b -> is_derive F x (F' x)) -> F 0 = 0 -> (forall x, a <= x <= b -> 0 <= F' x) -> forall x, a <= x <= b -> 0 <= x * F x.
Proof.
  intros Hab H F0 P x Hx. destruct (Rtotal_order x 0) as [Hn|[->|Hp]]; [|lra|].
  - destruct (mvt F F' x 0) as (c & Hc & E); [lra|intros; apply H; lra|]. specialize (P c ltac:(lra)). rewrite F0 in E. nra.
  - destruct (mvt F F' 0 x) as (c & Hc & E); [lra|intros; apply H; lra|]. specialize (P c ltac:(lra)). rewrite F0 in E. nra.
Qed.
Lemma sign_even (F F' : R -> R) a b : a <= 0 <= b -> (forall x, a <= x <= b -> is_derive F x (F' x)) -> F 0 = 0 -> (forall x, a <= x <= b -> 0 <= x * F' x) -> forall x, a <= x <= b -> 0 <= F x.
Proof.
  intros Hab H F0 P x Hx. destruct (Rtotal_order x 0) as [Hn|[->|Hp]]; [|lra|].
  - destruct (mvt F F' x 0) as (c & Hc & E); [lra|intros; apply H; lra|]. specialize (P c ltac:(lra)). rewrite F0 in E. assert (F' c <= 0) by nra. nra.
  - destruct (mvt F F' 0 x) as (c & Hc & E); [lra|intros; apply H; lra|]. specialize (P c ltac:(lra)). rewrite F0 in E. assert (0 <= F' c) by nra. nra.
Qed.
(** a function is below its cubic Taylor polynomial plus the largest quartic term *)
Lemma derive_sub (p q : R -> R) x dp dq : is_derive p x dp -> is_derive q x dq -> is_derive (fun y => p y - q y) x (dp - dq).
Proof. intros Hp Hq. apply (is_derive_minus p q); auto. Qed.
Lemma taylor_above (f f1 f2 f3 f4 : R -> R) v a b M : a <= 0 <= b ->
  (forall x, a <= x <= b -> is_derive f (v + x) (f1 (v + x))) -> (forall x, a <= x <= b -> is_derive f1 (v + x) (f2 (v + x))) ->
  (forall x, a <= x <= b -> is_derive f2 (v + x) (f3 (v + x))) -> (forall x, a <= x <= b -> is_derive f3 (v + x) (f4 (v + x))) ->
  (forall x, a <= x <= b -> f4 (v + x) <= M) ->
  forall x, a <= x <= b -> f (v + x) <= f v + f1 v * x + f2 v * x ^ 2 / 2 + f3 v * x ^ 3 / 6 + M * x ^ 4 / 24.
Proof.
  intros Hab D1 D2 D3 D4 HM.
  assert (Sh : forall (h h' : R -> R) x, is_derive h (v + x) (h' (v + x)) -> is_derive (fun y => h (v + y)) x (h' (v + x))).
  { intros h h' x Hd. evar_last; [apply (is_derive_comp h (fun y => v + y)); [exact Hd|auto_derive; auto; reflexivity]|]. unfold scal; simpl; unfold mult; simpl. ring. }
  set (g3 := fun x => f3 v + M * x - f3 (v + x)). set (g2 := fun x => f2 v + f3 v * x + M * x ^ 2 / 2 - f2 (v + x)).
  set (g1 := fun x => f1 v + f2 v * x + f3 v * x ^ 2 / 2 + M * x ^ 3 / 6 - f1 (v + x)). set (g0 := fun x => f v + f1 v * x + f2 v * x ^ 2 / 2 + f3 v * x ^ 3 / 6 + M * x ^ 4 / 24 - f (v + x)).
  assert (K3 : forall x, a <= x <= b -> 0 <= x * g3 x).
  { apply (sign_odd g3 (fun x => M - f4 (v + x))); auto.
    - intros x Hx. apply (derive_sub (fun x => f3 v + M * x) (fun x => f3 (v + x))); [auto_derive; auto; ring|apply Sh, D4; auto].
    - unfold g3. rewrite Rplus_0_r. ring.
    - intros x Hx. specialize (HM x Hx). lra. }
  assert (K2 : forall x, a <= x <= b -> 0 <= g2 x).
  { apply (sign_even g2 g3); auto.
    - intros x Hx. unfold g2, g3. apply (derive_sub (fun x => f2 v + f3 v * x + M * x ^ 2 / 2) (fun x => f2 (v + x))); [auto_derive; auto; field|apply Sh, D3; auto].
    - unfold g2. rewrite Rplus_0_r. field. }
  assert (K1 : forall x, a <= x <= b -> 0 <= x * g1 x).
  { apply (sign_odd g1 g2); auto.
    - intros x Hx. unfold g1, g2. apply (derive_sub (fun x => f1 v + f2 v * x + f3 v * x ^ 2 / 2 + M * x ^ 3 / 6) (fun x => f1 (v + x))); [auto_derive; auto; field|apply Sh, D2; auto].
    - unfold g1. rewrite Rplus_0_r. field. }
  intros x Hx. assert (0 <= g0 x); [|unfold g0 in *; lra]. revert x Hx. apply (sign_even g0 g1); auto.
  - intros x Hx. unfold g0, g1. apply (derive_sub (fun x => f v + f1 v * x + f2 v * x ^ 2 / 2 + f3 v * x ^ 3 / 6 + M * x ^ 4 / 24) (fun x => f (v + x))); [auto_derive; auto; field|apply Sh, D1; auto].
  - unfold g0. rewrite Rplus_0_r. field.
Qed.
Lemma taylor_below (f f1 f2 f3 f4 : R -> R) v a b : a <= 0 <= b ->
  (forall x, a <= x <= b -> is_derive f (v + x) (f1 (v + x))) -> (forall x, a <= x <= b -> is_derive f1 (v + x) (f2 (v + x))) ->
  (forall x, a <= x <= b -> is_derive f2 (v + x) (f3 (v + x))) -> (forall x, a <= x <= b -> is_derive f3 (v + x) (f4 (v + x))) ->
  (forall x, a <= x <= b -> 0 <= f4 (v + x)) ->
  forall x, a <= x <= b -> f v + f1 v * x + f2 v * x ^ 2 / 2 + f3 v * x ^ 3 / 6 <= f (v + x).
Proof.
  intros Hab D1 D2 D3 D4 HM x Hx.
  assert (N : forall h h' : R -> R, (forall x, a <= x <= b -> is_derive h (v + x) (h' (v + x))) -> forall x, a <= x <= b -> is_derive (fun y => - h y) (v + x) (- h' (v + x))) by (intros h h' Hd y Hy; apply (is_derive_opp h); auto).
  pose proof (taylor_above (fun y => - f y) (fun y => - f1 y) (fun y => - f2 y) (fun y => - f3 y) (fun y => - f4 y) v a b 0 Hab (N _ _ D1) (N _ _ D2) (N _ _ D3) (N _ _ D4)) as T.
  specialize (T ltac:(intros y Hy; specialize (HM y Hy); lra) x Hx). cbv beta in T. lra.
Qed.

(** ** the magnification as a function of the squared distance *)
Definition rt (v : R) : R := sqrt (v * (v + 4)).
Lemma rt_pos v : 0 < v -> 0 < rt v. Proof. intros H. apply sqrt_lt_R0. nra. Qed.
Lemma rt_sq v : 0 < v -> rt v * rt v = v * (v + 4). Proof. intros H. apply sqrt_sqrt. nra. Qed.
Lemma rt_derive v : 0 < v -> is_derive rt v ((v + 2) / rt v).
Proof. intros H. pose proof (rt_pos v H). unfold rt in *. auto_derive; [nra|]. field. lra. Qed.
Lemma quot_derive (P : R -> R) p v n : 0 < v -> is_derive P v p -> is_derive (fun v => P v / rt v ^ n) v ((p * (v * (v + 4)) - INR n * P v * (v + 2)) / rt v ^ (n + 2)).
Proof.
  intros H HP. pose proof (rt_pos v H) as Hr. pose proof (rt_sq v H) as Hs. pose proof (rt_derive v H) as Hd.
  evar_last; [apply (is_derive_div P (fun v => rt v ^ n)); [exact HP|apply is_derive_pow; exact Hd|apply pow_nonzero; lra]|].
  rewrite <- Hs. rewrite pow_add. destruct n as [|n].
  - simpl. field. lra.
  - rewrite S_INR. cbn [Init.Nat.pred]. simpl (rt v ^ S n). simpl (rt v ^ 2). assert (rt v ^ n <> 0) by (apply pow_nonzero; lra). field. split; lra.
Qed.
Definition m0 (v : R) : R := mag_sq v.
Definition m1 (v : R) : R := -4 / rt v ^ 3.
Definition m2 (v : R) : R := 12 * (v + 2) / rt v ^ 5.
Definition m3 (v : R) : R := - (48 * (v + 2) ^ 2 + 48) / rt v ^ 7.
Definition m4 (v : R) : R := (240 * (v + 2) ^ 3 + 720 * (v + 2)) / rt v ^ 9.
Lemma m0_derive v : 0 < v -> is_derive m0 v (m1 v).
Proof.
  intros H. apply (is_derive_ext (fun v => (v + 2) / rt v ^ 1)); [intros t; unfold m0, mag_sq, rt; rewrite pow_1; reflexivity|].
  evar_last; [apply (quot_derive (fun v => v + 2) 1 v 1 H); auto_derive; auto|]. unfold m1. pose proof (rt_pos v H). simpl INR. f_equal. ring.
Qed.
Lemma m1_derive v : 0 < v -> is_derive m1 v (m2 v).
Proof. intros H. evar_last; [apply (quot_derive (fun v => -4) 0 v 3 H); auto_derive; auto|]. unfold m2. f_equal. simpl INR. ring. Qed.
Lemma m2_derive v : 0 < v -> is_derive m2 v (m3 v).
Proof. intros H. evar_last; [apply (quot_derive (fun v => 12 * (v + 2)) 12 v 5 H); auto_derive; auto; ring|]. unfold m3. f_equal. simpl INR. ring. Qed.
Lemma m3_derive v : 0 < v -> is_derive m3 v (m4 v).
Proof. intros H. evar_last; [apply (quot_derive (fun v => - (48 * (v + 2) ^ 2 + 48)) (- (96 * (v + 2))) v 7 H); auto_derive; auto; ring|]. unfold m4. f_equal. simpl INR. ring. Qed.
(** ** in units of the value itself *)
Lemma m0_pos v : 0 < v -> 0 < m0 v. Proof. intros H. unfold m0, mag_sq. apply Rdiv_lt_0_compat; [lra|apply (rt_pos v H)]. Qed.
Lemma m1_rel v : 0 < v -> m1 v * v = m0 v * (- (4 / ((v + 2) * (v + 4)))).
Proof.
  intros H. pose proof (rt_pos v H). pose proof (rt_sq v H) as S. unfold m1, m0, mag_sq. fold (rt v). replace (rt v ^ 3) with (rt v * (v * (v + 4))) by (rewrite <- S; ring). field. repeat split; lra.
Qed.
Lemma m2_rel v : 0 < v -> m2 v * v ^ 2 = m0 v * (12 / (v + 4) ^ 2).
Proof.
  intros H. pose proof (rt_pos v H). pose proof (rt_sq v H) as S. unfold m2, m0, mag_sq. fold (rt v). replace (rt v ^ 5) with (rt v * (v * (v + 4)) ^ 2) by (rewrite <- S; ring). field. repeat split; lra.
Qed.
Lemma m3_rel v : 0 < v -> m3 v * v ^ 3 = m0 v * (- ((48 * (v + 2) ^ 2 + 48) / ((v + 2) * (v + 4) ^ 3))).
Proof.
  intros H. pose proof (rt_pos v H). pose proof (rt_sq v H) as S. unfold m3, m0, mag_sq. fold (rt v). replace (rt v ^ 7) with (rt v * (v * (v + 4)) ^ 3) by (rewrite <- S; ring). field. repeat split; lra.
Qed.
Lemma m4_rel v : 0 < v -> m4 v * v ^ 4 = m0 v * ((240 * (v + 2) ^ 2 + 720) / (v + 4) ^ 4).
Proof.
  intros H. pose proof (rt_pos v H). pose proof (rt_sq v H) as S. unfold m4, m0, mag_sq. fold (rt v). replace (rt v ^ 9) with (rt v * (v * (v + 4)) ^ 4) by (rewrite <- S; ring). field. repeat split; lra.
Qed.
Lemma m4_pos v : 0 < v -> 0 <= m4 v.
Proof. intros H. unfold m4. apply Rlt_le, Rdiv_lt_0_compat; [|apply pow_lt, rt_pos; auto]. assert (0 < (v + 2) ^ 3) by (apply pow_lt; lra). lra. Qed.
Lemma m4_le v : 0 < v -> m4 v * v ^ 4 <= 6.5625 * m0 v.
Proof.
  intros H. rewrite m4_rel by auto. rewrite (Rmult_comm 6.5625). apply Rmult_le_compat_l; [left; apply m0_pos; auto|].
  assert (0 < (v + 4) ^ 4) by (apply pow_lt; lra). apply (Rmult_le_reg_r ((v + 4) ^ 4)); auto. unfold Rdiv. rewrite Rmult_assoc, Rinv_l, Rmult_1_r by lra. nra.
Qed.
(** [v m0^2] increases, [m0] decreases *)
Lemma m0_sq v : 0 < v -> m0 v ^ 2 * v = (v + 2) ^ 2 / (v + 4).
Proof. intros H. pose proof (rt_pos v H). pose proof (rt_sq v H) as S. unfold m0, mag_sq. fold (rt v). replace (((v + 2) / rt v) ^ 2) with ((v + 2) ^ 2 / (rt v * rt v)) by (field; lra). rewrite S. field. split; lra. Qed.
Lemma m0_decr x v : 0 < v -> v <= x -> m0 x <= m0 v.
Proof.
  intros Hv Hx. destruct (Req_dec v x) as [->|Hn]; [lra|]. destruct (mvt m0 m1 v x) as (c & Hc & E); [lra|intros; apply m0_derive; lra|].
  assert (m1 c <= 0). { unfold m1. assert (0 < rt c ^ 3) by (apply pow_lt, rt_pos; lra). assert (0 < / rt c ^ 3) by (apply Rinv_0_lt_compat; auto). unfold Rdiv. lra. } nra.
Qed.
Lemma m0_grow x v : 0 < v -> 0.81 * v <= x -> x <= v -> 0.9 * m0 x <= m0 v.
Proof.
  intros Hv Hx Hxv. assert (Hx0 : 0 < x) by lra. pose proof (m0_pos x Hx0). pose proof (m0_pos v Hv). apply Rsqr_incr_0_var; [|lra]. unfold Rsqr.
  assert (E : m0 x ^ 2 * x <= m0 v ^ 2 * v).
  { rewrite !m0_sq by auto. apply (Rmult_le_reg_r (x + 4)); [lra|]. apply (Rmult_le_reg_r (v + 4)); [lra|].
    replace ((x + 2) ^ 2 / (x + 4) * (x + 4) * (v + 4)) with ((x + 2) ^ 2 * (v + 4)) by (field; lra). replace ((v + 2) ^ 2 / (v + 4) * (x + 4) * (v + 4)) with ((v + 2) ^ 2 * (x + 4)) by (field; lra).
    assert (0 <= (v - x) * (x * v + 4 * (x + v) + 12)) by (apply Rmult_le_pos; nra). nra. }
  assert (0.81 * (m0 x ^ 2) * v <= m0 v ^ 2 * v). { apply Rle_trans with (m0 x ^ 2 * x); auto. replace (0.81 * m0 x ^ 2 * v) with (m0 x ^ 2 * (0.81 * v)) by ring. apply Rmult_le_compat_l; [apply pow2_ge_0|lra]. }
  assert (0.81 * (m0 x ^ 2) <= m0 v ^ 2) by (apply (Rmult_le_reg_r v); auto). nra.
Qed.
Lemma m4_up x v : 0 < v -> v <= x -> m4 x <= 6.5625 * m0 v / v ^ 4.
Proof.
  intros Hv Hx. assert (0 < v ^ 4) by (apply pow_lt; lra). apply (Rmult_le_reg_r (v ^ 4)); auto. unfold Rdiv. rewrite Rmult_assoc, Rinv_l, Rmult_1_r by lra.
  apply Rle_trans with (m4 x * x ^ 4); [apply Rmult_le_compat_l; [apply m4_pos; lra|apply pow_incr; lra]|]. apply Rle_trans with (6.5625 * m0 x); [apply m4_le; lra|]. apply Rmult_le_compat_l; [lra|apply m0_decr; auto].
Qed.
Lemma m4_down x v : 0 < v -> 0.81 * v <= x -> m4 x <= 6.5625 * m0 v / v ^ 4 / 0.9 ^ 9.
Proof.
  intros Hv Hx. destruct (Rle_or_lt v x) as [Hge|Hlt].
  - apply Rle_trans with (1 := m4_up x v Hv Hge). assert (0 < v ^ 4) by (apply pow_lt; lra). assert (0 <= 6.5625 * m0 v / v ^ 4) by (pose proof (m0_pos v Hv); apply Rlt_le, Rdiv_lt_0_compat; lra).
    set (X := 6.5625 * m0 v / v ^ 4) in *. clearbody X. assert (1 <= / 0.9 ^ 9) by (rewrite <- Rinv_1; apply Rinv_le_contravar; lra). unfold Rdiv. nra.
  - assert (0 < v ^ 4) by (apply pow_lt; lra). apply (Rmult_le_reg_r (v ^ 4 * 0.9 ^ 9)); [apply Rmult_lt_0_compat; lra|]. replace (6.5625 * m0 v / v ^ 4 / 0.9 ^ 9 * (v ^ 4 * 0.9 ^ 9)) with (6.5625 * m0 v) by (field; lra).
    apply Rle_trans with (6.5625 * (0.9 * m0 x)); [|apply Rmult_le_compat_l; [lra|apply m0_grow; lra]].
    replace (m4 x * (v ^ 4 * 0.9 ^ 9)) with (0.9 * (m4 x * (0.81 * v) ^ 4)) by (replace (0.9 ^ 9) with (0.9 * 0.81 ^ 4) by lra; ring).
    apply Rle_trans with (0.9 * (m4 x * x ^ 4)); [|pose proof (m4_le x ltac:(lra)); lra]. apply Rmult_le_compat_l; [lra|]. apply Rmult_le_compat_l; [apply m4_pos; lra|apply pow_incr; lra].
Qed.

(** ** four points of a circle *)
Definition b1 (v : R) : R := 4 / ((v + 2) * (v + 4)).
Definition b2 (v : R) : R := 12 / (v + 4) ^ 2.
Definition b3 (v : R) : R := (48 * (v + 2) ^ 2 + 48) / ((v + 2) * (v + 4) ^ 3).
Lemma rel_terms v e : 0 < v -> m0 v + m1 v * (v * e) + m2 v * (v * e) ^ 2 / 2 + m3 v * (v * e) ^ 3 / 6 = m0 v * (1 - b1 v * e + b2 v * e ^ 2 / 2 - b3 v * e ^ 3 / 6).
Proof.
  intros H. replace (m1 v * (v * e)) with (m1 v * v * e) by ring. replace (m2 v * (v * e) ^ 2) with (m2 v * v ^ 2 * e ^ 2) by ring. replace (m3 v * (v * e) ^ 3) with (m3 v * v ^ 3 * e ^ 3) by ring.
  rewrite m1_rel, m2_rel, m3_rel by auto. unfold b1, b2, b3. field. split; lra.
Qed.
Lemma rel_above_pos v e : 0 < v -> 0 <= e -> m0 (v + v * e) <= m0 v * (1 - b1 v * e + b2 v * e ^ 2 / 2 - b3 v * e ^ 3 / 6 + 6.5625 * e ^ 4 / 24).
Proof.
  intros H He. assert (0 <= v * e) by nra. assert (0 < v ^ 4) by (apply pow_lt; auto).
  pose proof (taylor_above m0 m1 m2 m3 m4 v 0 (v * e) (6.5625 * m0 v / v ^ 4) ltac:(lra)) as T.
  specialize (T ltac:(intros; apply m0_derive; lra) ltac:(intros; apply m1_derive; lra) ltac:(intros; apply m2_derive; lra) ltac:(intros; apply m3_derive; lra) ltac:(intros; apply m4_up; lra) (v * e) ltac:(lra)).
  rewrite rel_terms in T by auto. replace (6.5625 * m0 v / v ^ 4 * (v * e) ^ 4 / 24) with (m0 v * (6.5625 * e ^ 4 / 24)) in T by (field; lra). lra.
Qed.
Lemma rel_above v e : 0 < v -> -0.19 <= e -> m0 (v + v * e) <= m0 v * (1 - b1 v * e + b2 v * e ^ 2 / 2 - b3 v * e ^ 3 / 6 + 6.5625 / 0.9 ^ 9 * e ^ 4 / 24).
Proof.
  intros H He. assert (-0.19 * v <= v * e) by nra. assert (0 < v ^ 4) by (apply pow_lt; auto). set (b := Rmax 0 (v * e)). pose proof (Rmax_l 0 (v * e)). pose proof (Rmax_r 0 (v * e)).
  pose proof (taylor_above m0 m1 m2 m3 m4 v (- 0.19 * v) b (6.5625 * m0 v / v ^ 4 / 0.9 ^ 9) ltac:(unfold b; lra)) as T.
  specialize (T ltac:(intros; apply m0_derive; lra) ltac:(intros; apply m1_derive; lra) ltac:(intros; apply m2_derive; lra) ltac:(intros; apply m3_derive; lra) ltac:(intros; apply m4_down; lra) (v * e) ltac:(unfold b; lra)).
  rewrite rel_terms in T by auto. replace (6.5625 * m0 v / v ^ 4 / 0.9 ^ 9 * (v * e) ^ 4 / 24) with (m0 v * (6.5625 / 0.9 ^ 9 * e ^ 4 / 24)) in T by (field; lra). lra.
Qed.
Lemma rel_below v e : 0 < v -> -0.19 <= e -> m0 v * (1 - b1 v * e + b2 v * e ^ 2 / 2 - b3 v * e ^ 3 / 6) <= m0 (v + v * e).
Proof.
  intros H He. assert (-0.19 * v <= v * e) by nra. set (b := Rmax 0 (v * e)). pose proof (Rmax_l 0 (v * e)). pose proof (Rmax_r 0 (v * e)).
  pose proof (taylor_below m0 m1 m2 m3 m4 v (- 0.19 * v) b ltac:(unfold b; lra)) as T.
  specialize (T ltac:(intros; apply m0_derive; lra) ltac:(intros; apply m1_derive; lra) ltac:(intros; apply m2_derive; lra) ltac:(intros; apply m3_derive; lra) ltac:(intros; apply m4_pos; lra) (v * e) ltac:(unfold b; lra)).
  rewrite rel_terms in T by auto. lra.
Qed.
Lemma b_bounds v : 0 < v -> b1 v <= b2 v <= 0.75 /\ 0 <= b1 v /\ 0 <= b3 v <= 1.875 /\ b2 v - b1 v <= 0.25.
Proof.
  intros H. unfold b1, b2, b3. assert (P2 : 0 < (v + 4) ^ 2) by (apply pow_lt; lra). assert (P3 : 0 < (v + 4) ^ 3) by (apply pow_lt; lra). assert (P1 : 0 < (v + 2) * (v + 4)) by nra.
  split; [split|].
  - apply (Rmult_le_reg_r ((v + 2) * (v + 4) ^ 2)); [nra|]. replace (4 / ((v + 2) * (v + 4)) * ((v + 2) * (v + 4) ^ 2)) with (4 * (v + 4)) by (field; split; lra). replace (12 / (v + 4) ^ 2 * ((v + 2) * (v + 4) ^ 2)) with (12 * (v + 2)) by (field; lra). lra.
  - apply (Rmult_le_reg_r ((v + 4) ^ 2)); auto. unfold Rdiv. rewrite Rmult_assoc, Rinv_l by lra. nra.
  - split; [apply Rlt_le, Rdiv_lt_0_compat; lra|]. split; [split|].
    + apply Rlt_le, Rdiv_lt_0_compat; nra.
    + apply (Rmult_le_reg_r ((v + 2) * (v + 4) ^ 3)); [nra|]. unfold Rdiv. rewrite Rmult_assoc, Rinv_l by nra. nra.
    + apply (Rmult_le_reg_r ((v + 2) * (v + 4) ^ 2)); [nra|]. replace ((12 / (v + 4) ^ 2 - 4 / ((v + 2) * (v + 4))) * ((v + 2) * (v + 4) ^ 2)) with (8 * v + 8) by (field; split; lra). nra.
Qed.
Lemma quartic_pos q c s : 0 <= q <= 0.1 -> 0 <= c -> 0 <= s -> c ^ 2 + s ^ 2 = 1 -> (q + 2 * c) ^ 4 + (q + 2 * s) ^ 4 <= 19.46.
Proof.
  intros Hq Hc Hs E. assert (c <= 1) by nra. assert (s <= 1) by nra. assert (C4 : c ^ 4 + s ^ 4 <= 1) by (replace 1 with ((c ^ 2 + s ^ 2) ^ 2) by (rewrite E; ring); nra).
  assert (C3 : c ^ 3 + s ^ 3 <= 1) by (assert (c ^ 3 <= c ^ 2) by nra; assert (s ^ 3 <= s ^ 2) by nra; lra). assert (C1 : c + s <= 1.5) by nra. assert (0 <= c ^ 3 + s ^ 3) by (assert (0 <= c ^ 3) by (apply pow_le; auto); assert (0 <= s ^ 3) by (apply pow_le; auto); lra).
  replace ((q + 2 * c) ^ 4 + (q + 2 * s) ^ 4) with (16 * (c ^ 4 + s ^ 4) + 32 * (q * (c ^ 3 + s ^ 3)) + 24 * (q ^ 2 * (c ^ 2 + s ^ 2)) + 8 * (q ^ 3 * (c + s)) + 2 * q ^ 4) by ring. rewrite E.
  assert (q ^ 2 <= 0.01) by nra. assert (0 <= q ^ 2) by nra. assert (q ^ 3 <= 0.001) by nra. assert (0 <= q ^ 3) by (apply pow_le; lra). assert (q ^ 4 <= 0.0001) by nra.
  assert (q * (c ^ 3 + s ^ 3) <= 0.1) by nra. assert (q ^ 3 * (c + s) <= 0.0015) by nra. lra.
Qed.
Lemma quartic_neg q c s : 0 <= q <= 0.1 -> 0 <= c -> 0 <= s -> c ^ 2 + s ^ 2 = 1 -> (q - 2 * c) ^ 4 + (q - 2 * s) ^ 4 <= 16.25.
Proof.
  intros Hq Hc Hs E. assert (C4 : c ^ 4 + s ^ 4 <= 1) by (replace 1 with ((c ^ 2 + s ^ 2) ^ 2) by (rewrite E; ring); nra).
  assert (0 <= c ^ 3) by (apply pow_le; auto). assert (0 <= s ^ 3) by (apply pow_le; auto).
  replace ((q - 2 * c) ^ 4 + (q - 2 * s) ^ 4) with (16 * (c ^ 4 + s ^ 4) - 32 * (q * (c ^ 3 + s ^ 3)) + 24 * (q ^ 2 * (c ^ 2 + s ^ 2)) - 8 * (q ^ 3 * (c + s)) + 2 * q ^ 4) by ring. rewrite E.
  assert (q ^ 2 <= 0.01) by nra. assert (0 <= q ^ 3) by (apply pow_le; lra). assert (q ^ 4 <= 0.0001) by nra. assert (0 <= q * (c ^ 3 + s ^ 3)) by nra. assert (0 <= q ^ 3 * (c + s)) by nra. lra.
Qed.
Lemma four_points v q c s : 0 < v -> 0 <= q <= 0.1 -> 0 <= c -> 0 <= s -> c ^ 2 + s ^ 2 = 1 ->
  let f := fun y => m0 (v * (1 + q ^ 2 + 2 * q * y)) in Rabs ((f c + f (- c) + f s + f (- s)) / 4 - m0 v) <= 0.003 * m0 v.
Proof.
  intros Hv Hq Hc Hs E f. assert (Hc1 : c <= 1) by nra. assert (Hs1 : s <= 1) by nra. pose proof (m0_pos v Hv) as Hm. destruct (b_bounds v Hv) as ((B1 & B2) & B3 & (B4 & B5) & B6).
  assert (Q2 : 0 <= q ^ 2 <= 0.01) by (split; nra). assert (Q4 : 0 <= q ^ 4 <= 0.0001) by (split; [apply pow_le; lra|replace (q ^ 4) with (q ^ 2 * q ^ 2) by ring; nra]). assert (Q6 : 0 <= q ^ 6 <= 0.000001) by (split; [apply pow_le; lra|replace (q ^ 6) with (q ^ 2 * q ^ 4) by ring; nra]).
  assert (Ef : forall y, f y = m0 (v + v * (q * (q + 2 * y)))) by (intros y; unfold f; f_equal; ring).
  assert (R : forall y, y <= 1 -> -0.19 <= q * (q + 2 * - y)) by (intros y Hy; nra).
  set (P := fun e => 1 - b1 v * e + b2 v * e ^ 2 / 2 - b3 v * e ^ 3 / 6).
  assert (SP : P (q * (q + 2 * c)) + P (q * (q + 2 * - c)) + P (q * (q + 2 * s)) + P (q * (q + 2 * - s)) = 4 + 4 * (b2 v - b1 v) * q ^ 2 + 2 * b2 v * q ^ 4 - b3 v * (4 * q ^ 6 + 24 * q ^ 4) / 6).
  { unfold P. replace s with s by auto. assert (S2 : s ^ 2 = 1 - c ^ 2) by lra.
    transitivity (4 - 4 * b1 v * q ^ 2 + b2 v * (4 * q ^ 4 + 8 * q ^ 2 * (c ^ 2 + s ^ 2)) / 2 - b3 v * (4 * q ^ 6 + 24 * q ^ 4 * (c ^ 2 + s ^ 2)) / 6); [field|rewrite E; field]. }
  apply Rabs_le. rewrite !Ef. split.
  - pose proof (rel_below v (q * (q + 2 * c)) Hv ltac:(nra)) as L1. pose proof (rel_below v (q * (q + 2 * - c)) Hv (R c Hc1)) as L2. pose proof (rel_below v (q * (q + 2 * s)) Hv ltac:(nra)) as L3. pose proof (rel_below v (q * (q + 2 * - s)) Hv (R s Hs1)) as L4.
    fold (P (q * (q + 2 * c))) in L1. fold (P (q * (q + 2 * - c))) in L2. fold (P (q * (q + 2 * s))) in L3. fold (P (q * (q + 2 * - s))) in L4.
    assert (G : 4 * (1 - 0.003) <= P (q * (q + 2 * c)) + P (q * (q + 2 * - c)) + P (q * (q + 2 * s)) + P (q * (q + 2 * - s))).
    { rewrite SP. assert (0 <= (b2 v - b1 v) * q ^ 2) by (apply Rmult_le_pos; lra). assert (0 <= b2 v * q ^ 4) by (apply Rmult_le_pos; lra). assert (b3 v * (4 * q ^ 6 + 24 * q ^ 4) <= 1.875 * 0.0025) by (apply Rmult_le_compat; lra). lra. }
    nra.
  - pose proof (rel_above_pos v (q * (q + 2 * c)) Hv ltac:(nra)) as L1. pose proof (rel_above v (q * (q + 2 * - c)) Hv (R c Hc1)) as L2. pose proof (rel_above_pos v (q * (q + 2 * s)) Hv ltac:(nra)) as L3. pose proof (rel_above v (q * (q + 2 * - s)) Hv (R s Hs1)) as L4.
    fold (P (q * (q + 2 * c))) in L1. fold (P (q * (q + 2 * - c))) in L2. fold (P (q * (q + 2 * s))) in L3. fold (P (q * (q + 2 * - s))) in L4.
    pose proof (quartic_pos q c s Hq Hc Hs E) as X1. pose proof (quartic_neg q c s Hq Hc Hs E) as X2.
    assert (Y1 : (q * (q + 2 * c)) ^ 4 + (q * (q + 2 * s)) ^ 4 <= 0.0001 * 19.46). { replace ((q * (q + 2 * c)) ^ 4 + (q * (q + 2 * s)) ^ 4) with (q ^ 4 * ((q + 2 * c) ^ 4 + (q + 2 * s) ^ 4)) by ring. apply Rmult_le_compat; try lra. assert (0 <= (q + 2 * c) ^ 4) by (apply pow_le; lra). assert (0 <= (q + 2 * s) ^ 4) by (apply pow_le; lra). lra. }
    assert (Y2 : (q * (q + 2 * - c)) ^ 4 + (q * (q + 2 * - s)) ^ 4 <= 0.0001 * 16.25). { replace ((q * (q + 2 * - c)) ^ 4 + (q * (q + 2 * - s)) ^ 4) with (q ^ 4 * ((q - 2 * c) ^ 4 + (q - 2 * s) ^ 4)) by ring. apply Rmult_le_compat; try lra. replace ((q - 2 * c) ^ 4) with (((q - 2 * c) ^ 2) ^ 2) by ring. replace ((q - 2 * s) ^ 4) with (((q - 2 * s) ^ 2) ^ 2) by ring. pose proof (pow2_ge_0 ((q - 2 * c) ^ 2)). pose proof (pow2_ge_0 ((q - 2 * s) ^ 2)). lra. }
    assert (G : P (q * (q + 2 * c)) + P (q * (q + 2 * - c)) + P (q * (q + 2 * s)) + P (q * (q + 2 * - s)) <= 4 + 4 * 0.25 * 0.01 + 2 * 0.75 * 0.0001).
    { rewrite SP. assert ((b2 v - b1 v) * q ^ 2 <= 0.25 * 0.01) by (apply Rmult_le_compat; lra). assert (b2 v * q ^ 4 <= 0.75 * 0.0001) by (apply Rmult_le_compat; lra). assert (0 <= b3 v * (4 * q ^ 6 + 24 * q ^ 4)) by (apply Rmult_le_pos; lra). lra. }
    set (e1 := (q * (q + 2 * c)) ^ 4) in *. set (e2 := (q * (q + 2 * - c)) ^ 4) in *. set (e3 := (q * (q + 2 * s)) ^ 4) in *. set (e4 := (q * (q + 2 * - s)) ^ 4) in *.
    change (m0 (v + v * (q * (q + 2 * c))) <= m0 v * (P (q * (q + 2 * c)) + 6.5625 * e1 / 24)) in L1. change (m0 (v + v * (q * (q + 2 * - c))) <= m0 v * (P (q * (q + 2 * - c)) + 6.5625 / 0.9 ^ 9 * e2 / 24)) in L2.
    change (m0 (v + v * (q * (q + 2 * s))) <= m0 v * (P (q * (q + 2 * s)) + 6.5625 * e3 / 24)) in L3. change (m0 (v + v * (q * (q + 2 * - s))) <= m0 v * (P (q * (q + 2 * - s)) + 6.5625 / 0.9 ^ 9 * e4 / 24)) in L4.
    assert (I9 : / 0.9 ^ 9 <= 2.5813) by (apply (Rmult_le_reg_r (0.9 ^ 9)); [lra|]; rewrite Rinv_l by lra; lra).
    assert (E4 : 0 <= e2 + e4). { unfold e2, e4. replace ((q * (q + 2 * - c)) ^ 4) with (((q * (q + 2 * - c)) ^ 2) ^ 2) by ring. replace ((q * (q + 2 * - s)) ^ 4) with (((q * (q + 2 * - s)) ^ 2) ^ 2) by ring. pose proof (pow2_ge_0 ((q * (q + 2 * - c)) ^ 2)). pose proof (pow2_ge_0 ((q * (q + 2 * - s)) ^ 2)). lra. }
    assert (Z : 6.5625 / 0.9 ^ 9 * (e2 + e4) <= 6.5625 * 2.5813 * (0.0001 * 16.25)) by (unfold Rdiv; apply Rmult_le_compat; try lra; nra).
    assert (T : P (q * (q + 2 * c)) + P (q * (q + 2 * - c)) + P (q * (q + 2 * s)) + P (q * (q + 2 * - s)) + 6.5625 * (e1 + e3) / 24 + 6.5625 / 0.9 ^ 9 * (e2 + e4) / 24 <= 4 * (1 + 0.003)) by lra.
    clear - Hm L1 L2 L3 L4 T. nra.
Qed.
