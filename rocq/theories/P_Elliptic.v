(** The complete elliptic integrals and the arithmetic-geometric mean: Landen's transformation, Gauss's theorem, and
    the accuracy of the iteration in special.py. *)
From Coq Require Import Reals Lra Lia.
From Coquelicot Require Import Coquelicot.
From Verif Require Import Base_R Base_Int M_Special S_Special.
Local Open Scope R_scope.

(** ** Gauss's two-parameter integrals *)
Definition Q2 (a b t : R) : R := a ^ 2 * cos t ^ 2 + b ^ 2 * sin t ^ 2.
Definition Dl (a b t : R) : R := sqrt (Q2 a b t).
Definition GI (a b : R) : R := RInt (fun t => 1 / Dl a b t) 0 (PI / 2).
Definition GJ (a b : R) : R := RInt (fun t => Dl a b t) 0 (PI / 2).

Lemma sc1 t : sin t ^ 2 = 1 - cos t ^ 2.
Proof. pose proof (sin2_cos2 t) as H. unfold Rsqr in H. lra. Qed.
Lemma mix_pos p q t : 0 < p -> 0 < q -> 0 < p * cos t ^ 2 + q * sin t ^ 2.
Proof.
  intros Hp Hq. pose proof (pow2_ge_0 (cos t)) as H0. pose proof (pow2_ge_0 (sin t)) as H1. pose proof (sc1 t) as H.
  destruct (Rle_lt_dec (cos t ^ 2) (1 / 2)).
  - assert (0 < q * sin t ^ 2) by (apply Rmult_lt_0_compat; lra). assert (0 <= p * cos t ^ 2) by (apply Rmult_le_pos; lra). lra.
  - assert (0 < p * cos t ^ 2) by (apply Rmult_lt_0_compat; lra). assert (0 <= q * sin t ^ 2) by (apply Rmult_le_pos; lra). lra.
Qed.
Lemma Q2_between a b t : 0 < b -> b <= a -> b ^ 2 <= Q2 a b t <= a ^ 2.
Proof.
  intros Hb Hab. unfold Q2. rewrite sc1. pose proof (pow2_ge_0 (cos t)) as H0. pose proof (pow2_ge_0 (sin t)) as H1. rewrite sc1 in H1.
  assert (b ^ 2 <= a ^ 2) by (apply pow_incr; lra). nra.
Qed.
Lemma Q2_pos a b t : 0 < a -> 0 < b -> 0 < Q2 a b t.
Proof.
  intros Ha Hb. apply mix_pos; apply pow_lt; auto.
Qed.
Lemma Dl_pos a b t : 0 < a -> 0 < b -> 0 < Dl a b t.
Proof. intros. apply sqrt_lt_R0, Q2_pos; auto. Qed.
Lemma Dl_sq a b t : 0 < a -> 0 < b -> Dl a b t ^ 2 = Q2 a b t.
Proof. intros. unfold Dl. rewrite pow2_sqrt; auto. left. apply Q2_pos; auto. Qed.
Lemma Dl_between a b t : 0 < b -> b <= a -> b <= Dl a b t <= a.
Proof.
  intros Hb Hab. destruct (Q2_between a b t Hb Hab) as [H1 H2]. unfold Dl. split.
  - rewrite <- (sqrt_pow2 b) at 1 by lra. apply sqrt_le_1_alt; auto.
  - rewrite <- (sqrt_pow2 a) at 2 by lra. apply sqrt_le_1_alt; auto.
Qed.
Lemma Dl_cont a b t : 0 < a -> 0 < b -> continuous (Dl a b) t.
Proof.
  intros Ha Hb. apply (ex_derive_continuous (V := R_NormedModule)). unfold Dl, Q2. auto_derive.
  repeat split; auto. pose proof (Q2_pos a b t Ha Hb) as H. unfold Q2 in H. nra.
Qed.
Lemma iDl_cont a b t : 0 < a -> 0 < b -> continuous (fun t => 1 / Dl a b t) t.
Proof.
  intros Ha Hb. pose proof (Dl_pos a b t Ha Hb). pose proof (Q2_pos a b t Ha Hb) as HQ.
  apply (ex_derive_continuous (V := R_NormedModule)). unfold Dl, Q2 in *. auto_derive.
  repeat split; auto; try nra. 
  apply Rgt_not_eq. replace (a * (a * 1) * (cos t * (cos t * 1)) + b * (b * 1) * (sin t * (sin t * 1))) with (a ^ 2 * cos t ^ 2 + b ^ 2 * sin t ^ 2) by ring. auto.
Qed.
Lemma Dl_ex a b u v : 0 < a -> 0 < b -> ex_RInt (Dl a b) u v.
Proof. intros. apply exI_cont. intros. apply Dl_cont; auto. Qed.
Lemma iDl_ex a b u v : 0 < a -> 0 < b -> ex_RInt (fun t => 1 / Dl a b t) u v.
Proof. intros. apply exI_cont. intros. apply iDl_cont; auto. Qed.

(** ** Landen's substitution *)
Definition lan (a b t : R) : R := 2 * t - atan ((a - b) * (sin t * cos t) / (a * cos t ^ 2 + b * sin t ^ 2)).
Definition dlan (a b t : R) : R := (Q2 a b t + a * b) / Q2 a b t.
Lemma lin_pos a b t : 0 < a -> 0 < b -> 0 < a * cos t ^ 2 + b * sin t ^ 2.
Proof. apply mix_pos. Qed.
(** the radicand factorises *)
Lemma Q2_split a b t : (a * cos t ^ 2 + b * sin t ^ 2) ^ 2 + ((a - b) * (sin t * cos t)) ^ 2 = Q2 a b t.
Proof.
  unfold Q2. assert (H : sin t ^ 2 = 1 - cos t ^ 2) by apply sc1.
  replace (((a - b) * (sin t * cos t)) ^ 2) with ((a - b) ^ 2 * (sin t ^ 2 * cos t ^ 2)) by ring. rewrite H. ring.
Qed.
Lemma Q2_ab a b t : Q2 a b t + a * b = (a + b) * (a * cos t ^ 2 + b * sin t ^ 2).
Proof. unfold Q2. rewrite sc1. ring. Qed.
Lemma lan_derive a b t : 0 < a -> 0 < b -> is_derive (lan a b) t (dlan a b t).
Proof.
  intros Ha Hb. pose proof (lin_pos a b t Ha Hb) as HL. pose proof (Q2_pos a b t Ha Hb) as HQ. pose proof (Q2_split a b t) as HS.
  unfold lan. auto_derive.
  - apply Rgt_not_eq. replace (a * (cos t * (cos t * 1)) + b * (sin t * (sin t * 1))) with (a * cos t ^ 2 + b * sin t ^ 2) by ring. exact HL.
  - unfold dlan. set (L := a * cos t ^ 2 + b * sin t ^ 2) in *. set (N := (a - b) * (sin t * cos t)) in *.
    replace (a * (cos t * (cos t * 1)) + b * (sin t * (sin t * 1))) with L by (unfold L; ring).
    unfold Rsqr.
    assert (HQ' : Q2 a b t = L ^ 2 + N ^ 2) by lra. rewrite HQ'.
    assert (HD : 0 < L ^ 2 + N ^ 2) by lra.
    apply Rminus_diag_uniq. 
    match goal with |- ?X = 0 => replace X with (((L ^ 2 + N ^ 2) - ((a - b) * (cos t ^ 2 - sin t ^ 2) * L + N * (2 * (a - b) * sin t * cos t)) - a * b) / (L ^ 2 + N ^ 2)) end.
    + replace (L ^ 2 + N ^ 2 - ((a - b) * (cos t ^ 2 - sin t ^ 2) * L + N * (2 * (a - b) * sin t * cos t)) - a * b) with 0; [unfold Rdiv; ring|].
      rewrite <- HQ'. unfold L, N, Q2.
      replace ((a - b) * (sin t * cos t) * (2 * (a - b) * sin t * cos t)) with (2 * (a - b) ^ 2 * (sin t ^ 2 * cos t ^ 2)) by ring.
      rewrite sc1. ring.
    + field. repeat split; try lra. 
Qed.
Lemma dlan_cont a b t : 0 < a -> 0 < b -> continuous (dlan a b) t.
Proof.
  intros Ha Hb. pose proof (Q2_pos a b t Ha Hb) as HQ. apply (ex_derive_continuous (V := R_NormedModule)). unfold dlan, Q2 in *. auto_derive.
  apply Rgt_not_eq. replace (a * (a * 1) * (cos t * (cos t * 1)) + b * (b * 1) * (sin t * (sin t * 1))) with (a ^ 2 * cos t ^ 2 + b ^ 2 * sin t ^ 2) by ring. exact HQ.
Qed.
Lemma lan_0 a b : lan a b 0 = 0.
Proof. unfold lan. rewrite sin_0. replace ((a - b) * (0 * cos 0) / _) with 0 by (unfold Rdiv; ring). rewrite atan_0. ring. Qed.
Lemma lan_half a b : lan a b (PI / 2) = PI.
Proof. unfold lan. rewrite cos_PI2. replace ((a - b) * (sin (PI / 2) * 0) / _) with 0 by (unfold Rdiv; ring). rewrite atan_0. field. Qed.
Lemma cos_atan_div n l : 0 < l -> cos (atan (n / l)) = l / sqrt (l ^ 2 + n ^ 2).
Proof.
  intros Hl. rewrite cos_atan. assert (0 < l ^ 2 + n ^ 2) by nra.
  replace (1 + (n / l)²) with ((l ^ 2 + n ^ 2) / l ^ 2) by (unfold Rsqr; field; lra).
  rewrite sqrt_div_alt by nra. rewrite sqrt_pow2 by lra. field. split; [|lra]. apply Rgt_not_eq, sqrt_lt_R0. auto.
Qed.
Lemma sin_atan_div n l : 0 < l -> sin (atan (n / l)) = n / sqrt (l ^ 2 + n ^ 2).
Proof.
  intros Hl. rewrite sin_atan. assert (0 < l ^ 2 + n ^ 2) by nra.
  replace (1 + (n / l)²) with ((l ^ 2 + n ^ 2) / l ^ 2) by (unfold Rsqr; field; lra).
  rewrite sqrt_div_alt by nra. rewrite sqrt_pow2 by lra. field. split; [|lra]. apply Rgt_not_eq, sqrt_lt_R0. auto.
Qed.
Lemma cos_lan a b t : 0 < a -> 0 < b -> cos (lan a b t) = (a * cos t ^ 2 - b * sin t ^ 2) / Dl a b t.
Proof.
  intros Ha Hb. pose proof (lin_pos a b t Ha Hb). pose proof (Dl_pos a b t Ha Hb) as HD. unfold lan. rewrite cos_minus, cos_atan_div, sin_atan_div by auto.
  rewrite Q2_split. fold (Dl a b t). rewrite cos_2a, sin_2a.
  transitivity (((cos t ^ 2 - sin t ^ 2) * (a * cos t ^ 2 + b * sin t ^ 2) + 2 * (a - b) * (sin t ^ 2 * cos t ^ 2)) / Dl a b t); [field; lra|].
  f_equal. rewrite sc1. ring.
Qed.
Lemma sin_lan a b t : 0 < a -> 0 < b -> sin (lan a b t) = (a + b) * (sin t * cos t) / Dl a b t.
Proof.
  intros Ha Hb. pose proof (lin_pos a b t Ha Hb). pose proof (Dl_pos a b t Ha Hb) as HD. unfold lan. rewrite sin_minus, cos_atan_div, sin_atan_div by auto.
  rewrite Q2_split. fold (Dl a b t). rewrite cos_2a, sin_2a.
  transitivity (sin t * cos t * (2 * a * cos t ^ 2 + 2 * b * sin t ^ 2 - (a - b) * (cos t ^ 2 - sin t ^ 2)) / Dl a b t); [field; lra|].
  f_equal. rewrite sc1. ring.
Qed.
(** the transformed radicand *)
Lemma Dl_lan a b t : 0 < a -> 0 < b ->
  Dl ((a + b) / 2) (sqrt (a * b)) (lan a b t) = (Q2 a b t + a * b) / (2 * Dl a b t).
Proof.
  intros Ha Hb. pose proof (lin_pos a b t Ha Hb) as HL. pose proof (Dl_pos a b t Ha Hb) as HD. pose proof (Q2_pos a b t Ha Hb) as HQ.
  assert (Hab : 0 < a * b) by (apply Rmult_lt_0_compat; auto).
  unfold Dl at 1. rewrite <- (sqrt_pow2 ((Q2 a b t + a * b) / (2 * Dl a b t))).
  2:{ apply Rlt_le, Rdiv_lt_0_compat; lra. }
  f_equal. unfold Q2 at 1. rewrite cos_lan, sin_lan, pow2_sqrt by (auto; lra).
  rewrite Q2_ab.
  transitivity ((a + b) ^ 2 * ((a * cos t ^ 2 - b * sin t ^ 2) ^ 2 + 4 * (a * b) * (sin t ^ 2 * cos t ^ 2)) / (4 * Dl a b t ^ 2)); [field; lra|].
  transitivity ((a + b) ^ 2 * (a * cos t ^ 2 + b * sin t ^ 2) ^ 2 / (4 * Dl a b t ^ 2)); [|field; lra].
  f_equal. rewrite sc1. ring.
Qed.
(** reflection: the whole half turn is twice the quarter turn *)
Lemma half_turn (f : R -> R) : (forall x, continuous f x) -> (forall x, f (PI - x) = f x) ->
  RInt f 0 PI = 2 * RInt f 0 (PI / 2).
Proof.
  intros Hc Hs. assert (Hex : forall u v, ex_RInt f u v) by (intros; apply exI_cont; intros; apply Hc).
  rewrite <- (I_chasles f 0 (PI / 2) PI) by auto.
  assert (RInt f (PI / 2) PI = RInt f 0 (PI / 2)); [|lra].
  pose proof (I_lin f (-1) PI 0 (PI / 2)) as H. 
  replace (-1 * 0 + PI) with PI in H by ring. replace (-1 * (PI / 2) + PI) with (PI / 2) in H by field.
  rewrite <- (I_swap f PI (PI / 2)) by auto. rewrite <- H by auto.
  rewrite I_scal.
  - assert (RInt (fun y => f (-1 * y + PI)) 0 (PI / 2) = RInt f 0 (PI / 2)); [|lra].
    apply I_ext. intros x _. replace (-1 * x + PI) with (PI - x) by ring. apply Hs.
  - apply (exI_ext f). intros x _. replace (-1 * x + PI) with (PI - x) by ring. symmetry. apply Hs. auto.
Qed.
Lemma Dl_refl a b t : Dl a b (PI - t) = Dl a b t.
Proof. unfold Dl, Q2. rewrite Rtrigo_facts.cos_pi_minus, Rtrigo_facts.sin_pi_minus. f_equal. ring. Qed.

(** Gauss: the integral is unchanged by one arithmetic-geometric step *)
Lemma GI_agm a b : 0 < a -> 0 < b -> GI a b = GI ((a + b) / 2) (sqrt (a * b)).
Proof.
  intros Ha Hb. set (a1 := (a + b) / 2). set (b1 := sqrt (a * b)).
  assert (Ha1 : 0 < a1) by (unfold a1; lra). assert (Hb1 : 0 < b1) by (apply sqrt_lt_R0, Rmult_lt_0_compat; auto).
  assert (H : RInt (fun y => scal (dlan a b y) (1 / Dl a1 b1 (lan a b y))) 0 (PI / 2) = RInt (fun t => 1 / Dl a1 b1 t) 0 PI).
  { rewrite <- (lan_half a b) at 2. rewrite <- (lan_0 a b) at 2.
    apply (RInt_comp (V := R_CompleteNormedModule) (fun t => 1 / Dl a1 b1 t) (lan a b) (dlan a b)).
    - intros. apply iDl_cont; auto.
    - intros. split; [apply lan_derive|apply dlan_cont]; auto. }
  rewrite half_turn in H.
  2:{ intros; apply iDl_cont; auto. } 2:{ intros. rewrite Dl_refl. reflexivity. }
  fold (GI a1 b1) in H.
  assert (H2 : RInt (fun y => scal (dlan a b y) (1 / Dl a1 b1 (lan a b y))) 0 (PI / 2) = 2 * GI a b); [|lra].
  unfold GI. rewrite <- I_scal by (apply iDl_ex; auto). apply I_ext. intros x _.
  pose proof (Dl_pos a b x Ha Hb) as HD. pose proof (Q2_pos a b x Ha Hb) as HQ. pose proof (Dl_sq a b x Ha Hb) as HS.
  assert (0 < a * b) by (apply Rmult_lt_0_compat; auto).
  unfold a1, b1. rewrite Dl_lan by auto. unfold dlan, scal; simpl; unfold mult; simpl. rewrite <- HS.
  assert (Dl a b x ^ 2 + a * b <> 0) by (rewrite HS; lra). field. repeat split; auto; lra.
Qed.
(** the total derivative behind the second-kind recurrence *)
Lemma Dl_derive a b t : 0 < a -> 0 < b -> is_derive (Dl a b) t ((b ^ 2 - a ^ 2) * (sin t * cos t) / Dl a b t).
Proof.
  intros Ha Hb. pose proof (Dl_pos a b t Ha Hb) as HD. pose proof (Q2_pos a b t Ha Hb) as HQ.
  unfold Dl at 1. unfold Q2 at 1. auto_derive.
  - unfold Q2 in HQ. replace (a * (a * 1) * (cos t * (cos t * 1)) + b * (b * 1) * (sin t * (sin t * 1))) with (a ^ 2 * cos t ^ 2 + b ^ 2 * sin t ^ 2) by ring. auto.
  - replace (a * (a * 1) * (cos t * (cos t * 1)) + b * (b * 1) * (sin t * (sin t * 1))) with (Q2 a b t) by (unfold Q2; ring).
    fold (Dl a b t). field. lra.
Qed.
Lemma iDl3_cont a b t : 0 < a -> 0 < b -> continuous (fun t => 1 / Dl a b t ^ 3) t.
Proof.
  intros Ha Hb. pose proof (Dl_pos a b t Ha Hb) as HD. apply (ex_derive_continuous (V := R_NormedModule)). auto_derive.
  repeat split; [|apply Rgt_not_eq; repeat apply Rmult_lt_0_compat; lra]. eexists. apply Dl_derive; auto.
Qed.
Lemma iDl3_ex a b u v : 0 < a -> 0 < b -> ex_RInt (fun t => 1 / Dl a b t ^ 3) u v.
Proof. intros. apply exI_cont. intros. apply iDl3_cont; auto. Qed.
Lemma GD3_d a b (x : R) : 0 < a -> 0 < b -> is_derive (fun t => (a ^ 2 - b ^ 2) * (sin t * cos t) / Dl a b t) x
  (Dl a b x + (- (a ^ 2 * b ^ 2)) * (1 / Dl a b x ^ 3)).
Proof.
  intros Ha Hb. pose proof (Dl_pos a b x Ha Hb) as HD. pose proof (Q2_pos a b x Ha Hb) as HQ. pose proof (Dl_sq a b x Ha Hb) as HS.
  pose proof (Dl_derive a b x Ha Hb) as Hd.
  assert (H1 : is_derive (fun t => (a ^ 2 - b ^ 2) * (sin t * cos t)) x ((a ^ 2 - b ^ 2) * (cos x ^ 2 - sin x ^ 2))).
  { auto_derive; auto. ring. }
  pose proof (is_derive_div _ _ _ _ _ H1 Hd (Rgt_not_eq _ _ HD)) as H2.
  replace (Dl a b x + - (a ^ 2 * b ^ 2) * (1 / Dl a b x ^ 3)) with
    (((a ^ 2 - b ^ 2) * (cos x ^ 2 - sin x ^ 2) * Dl a b x - (a ^ 2 - b ^ 2) * (sin x * cos x) * ((b ^ 2 - a ^ 2) * (sin x * cos x) / Dl a b x)) / Dl a b x ^ 2); [exact H2|].
  transitivity ((a ^ 2 - b ^ 2) * ((cos x ^ 2 - sin x ^ 2) * Dl a b x ^ 2 + (a ^ 2 - b ^ 2) * (sin x ^ 2 * cos x ^ 2)) / Dl a b x ^ 3).
  { field. lra. }
  transitivity ((Dl a b x ^ 2 * Dl a b x ^ 2 - a ^ 2 * b ^ 2) / Dl a b x ^ 3); [|field; lra].
  f_equal. rewrite HS. unfold Q2. rewrite sc1. ring.
Qed.
Lemma GD3 a b : 0 < a -> 0 < b -> a ^ 2 * b ^ 2 * RInt (fun t => 1 / Dl a b t ^ 3) 0 (PI / 2) = GJ a b.
Proof.
  intros Ha Hb.
  assert (H : is_RInt (fun t => Dl a b t + (- (a ^ 2 * b ^ 2)) * (1 / Dl a b t ^ 3)) 0 (PI / 2)
    ((a ^ 2 - b ^ 2) * (sin (PI / 2) * cos (PI / 2)) / Dl a b (PI / 2) - (a ^ 2 - b ^ 2) * (sin 0 * cos 0) / Dl a b 0)).
  { apply (I_derive (fun t => (a ^ 2 - b ^ 2) * (sin t * cos t) / Dl a b t)).
    - intros x _. apply GD3_d; auto.
    - intros x _. apply (continuous_plus (V := R_NormedModule) (Dl a b)); [apply Dl_cont; auto|].
      apply (continuous_scal_r (V := R_NormedModule) (- (a ^ 2 * b ^ 2)) (fun t => 1 / Dl a b t ^ 3)).
      apply iDl3_cont; auto. }
  apply I_unique in H. pose proof (iDl3_ex a b 0 (PI / 2) Ha Hb) as X3. pose proof (Dl_ex a b 0 (PI / 2) Ha Hb) as X1.
  rewrite (I_plus (fun t => Dl a b t) (fun t => - (a ^ 2 * b ^ 2) * (1 / Dl a b t ^ 3))) in H; [|exact X1|apply exI_scal; exact X3].
  rewrite (I_scal (fun t => 1 / Dl a b t ^ 3)) in H by exact X3.
  rewrite cos_PI2, sin_0 in H. unfold GJ. unfold Rdiv in H. rewrite Rmult_0_r, Rmult_0_l, !Rmult_0_r, !Rmult_0_l in H. lra.
Qed.
(** the second kind under one step *)
Lemma GJ_agm a b : 0 < a -> 0 < b -> GJ a b = 2 * GJ ((a + b) / 2) (sqrt (a * b)) - a * b * GI a b.
Proof.
  intros Ha Hb. set (a1 := (a + b) / 2). set (b1 := sqrt (a * b)).
  assert (Ha1 : 0 < a1) by (unfold a1; lra). assert (Hb1 : 0 < b1) by (apply sqrt_lt_R0, Rmult_lt_0_compat; auto).
  assert (H : RInt (fun y => scal (dlan a b y) (Dl a1 b1 (lan a b y))) 0 (PI / 2) = RInt (fun t => Dl a1 b1 t) 0 PI).
  { rewrite <- (lan_half a b) at 2. rewrite <- (lan_0 a b) at 2.
    apply (RInt_comp (V := R_CompleteNormedModule) (Dl a1 b1) (lan a b) (dlan a b)).
    - intros. apply Dl_cont; auto.
    - intros. split; [apply lan_derive|apply dlan_cont]; auto. }
  rewrite half_turn in H.
  2:{ intros; apply Dl_cont; auto. } 2:{ intros. apply Dl_refl. }
  fold (GJ a1 b1) in H. rewrite <- H.
  transitivity (RInt (fun t => 1 / 2 * Dl a b t + (a * b * (1 / Dl a b t) + (a ^ 2 * b ^ 2 / 2) * (1 / Dl a b t ^ 3))) 0 (PI / 2) - a * b * GI a b).
  - pose proof (iDl3_ex a b 0 (PI / 2) Ha Hb) as X3. pose proof (Dl_ex a b 0 (PI / 2) Ha Hb) as X1. pose proof (iDl_ex a b 0 (PI / 2) Ha Hb) as X2.
    rewrite (I_plus (fun t => 1 / 2 * Dl a b t) (fun t => a * b * (1 / Dl a b t) + (a ^ 2 * b ^ 2 / 2) * (1 / Dl a b t ^ 3))).
    2: apply (exI_scal (fun t => Dl a b t)); exact X1.
    2: apply (exI_plus (fun t => a * b * (1 / Dl a b t))); [apply (exI_scal (fun t => 1 / Dl a b t)); exact X2|apply (exI_scal (fun t => 1 / Dl a b t ^ 3)); exact X3].
    rewrite (I_plus (fun t => a * b * (1 / Dl a b t)) (fun t => (a ^ 2 * b ^ 2 / 2) * (1 / Dl a b t ^ 3))).
    2: apply (exI_scal (fun t => 1 / Dl a b t)); exact X2.
    2: apply (exI_scal (fun t => 1 / Dl a b t ^ 3)); exact X3.
    rewrite (I_scal (fun t => Dl a b t)) by exact X1. rewrite (I_scal (fun t => 1 / Dl a b t)) by exact X2. rewrite (I_scal (fun t => 1 / Dl a b t ^ 3)) by exact X3.
    fold (GI a b). fold (GJ a b). pose proof (GD3 a b Ha Hb). lra.
  - f_equal. apply I_ext. intros x _.
    pose proof (Dl_pos a b x Ha Hb) as HD. pose proof (Q2_pos a b x Ha Hb) as HQ. pose proof (Dl_sq a b x Ha Hb) as HS.
    unfold a1, b1. rewrite Dl_lan by auto. unfold dlan, scal; simpl; unfold mult; simpl. change (Dl a b x * (Dl a b x * (Dl a b x * 1))) with (Dl a b x ^ 3).
    rewrite <- HS. field. lra.
Qed.
