(** The arithmetic-geometric iteration of special.py: order, quadratic decay, Gauss's theorem and error bounds. *)
From Coq Require Import Reals Lra Lia.
From Coquelicot Require Import Coquelicot.
From Verif Require Import Base_R Base_Int M_Special S_Special P_Elliptic.
Local Open Scope R_scope.

Definition agm_seq (a b : R) (n : nat) : R * R := Nat.iter n agm_step (a, b).
Definition an a b n := fst (agm_seq a b n).
Definition bn a b n := snd (agm_seq a b n).
Lemma agm_seq_S a b n : agm_seq a b (S n) = ((an a b n + bn a b n) / 2, sqrt (an a b n * bn a b n)).
Proof. unfold an, bn, agm_seq. cbn [Nat.iter nat_rect]. unfold agm_step at 1. destruct (Nat.iter n agm_step (a, b)) eqn:E; unfold Nat.iter in E; rewrite E; reflexivity. Qed.
Lemma an_S a b n : an a b (S n) = (an a b n + bn a b n) / 2.
Proof. unfold an at 1. rewrite agm_seq_S. reflexivity. Qed.
Lemma bn_S a b n : bn a b (S n) = sqrt (an a b n * bn a b n).
Proof. unfold bn at 1. rewrite agm_seq_S. reflexivity. Qed.

(** ** one step *)
Lemma step_order a b : 0 < b -> b <= a -> b <= sqrt (a * b) /\ sqrt (a * b) <= (a + b) / 2 /\ (a + b) / 2 <= a.
Proof.
  intros Hb Hab. repeat split; try lra.
  - rewrite <- (sqrt_pow2 b) at 1 by lra. apply sqrt_le_1_alt. nra.
  - rewrite <- (sqrt_pow2 ((a + b) / 2)) by lra. apply sqrt_le_1_alt. pose proof (pow2_ge_0 (a - b)). nra.
Qed.
Lemma seq_order a b n : 0 < b -> b <= a -> 0 < bn a b n /\ bn a b n <= an a b n.
Proof.
  intros Hb Hab. induction n as [|n [H1 H2]].
  - unfold an, bn; simpl. lra.
  - rewrite an_S, bn_S. destruct (step_order (an a b n) (bn a b n) H1 H2) as (P & Q & _). lra.
Qed.
Lemma seq_mono a b n : 0 < b -> b <= a -> bn a b n <= bn a b (S n) /\ an a b (S n) <= an a b n.
Proof.
  intros Hb Hab. destruct (seq_order a b n Hb Hab) as [H1 H2]. rewrite an_S, bn_S.
  destruct (step_order _ _ H1 H2) as (P & _ & Q'). lra.
Qed.
(** the gap at least halves, and is squared *)
Lemma step_gap a b : 0 < b -> b <= a -> (a + b) / 2 - sqrt (a * b) <= (a - b) ^ 2 / (8 * b).
Proof.
  intros Hb Hab. rewrite sqrt_mult by lra. set (x := sqrt a). set (y := sqrt b).
  assert (Hx : x * x = a) by (apply sqrt_sqrt; lra). assert (Hy : y * y = b) by (apply sqrt_sqrt; lra).
  assert (Hy0 : 0 < y) by (apply sqrt_lt_R0; auto). assert (Hxy : y <= x) by (apply sqrt_le_1_alt; auto).
  rewrite <- Hx, <- Hy. apply (Rmult_le_reg_r (8 * (y * y))); [nra|].
  replace ((x * x - y * y) ^ 2 / (8 * (y * y)) * (8 * (y * y))) with ((x - y) ^ 2 * (x + y) ^ 2) by (field; lra).
  replace (((x * x + y * y) / 2 - x * y) * (8 * (y * y))) with ((x - y) ^ 2 * (4 * (y * y))) by field.
  apply Rmult_le_compat_l; [apply pow2_ge_0|]. nra.
Qed.
Lemma seq_gap a b n : 0 < b -> b <= a -> an a b (S n) - bn a b (S n) <= (an a b n - bn a b n) ^ 2 / (8 * bn a b n).
Proof. intros Hb Hab. destruct (seq_order a b n Hb Hab) as [H1 H2]. rewrite an_S, bn_S. apply step_gap; auto. Qed.
Lemma seq_halves a b n : 0 < b -> b <= a -> an a b (S n) - bn a b (S n) <= (an a b n - bn a b n) / 2.
Proof.
  intros Hb Hab. destruct (seq_order a b n Hb Hab) as [H1 H2]. destruct (step_order _ _ H1 H2) as (P & _ & _).
  rewrite an_S, bn_S. lra.
Qed.
Lemma seq_gap_pow a b n : 0 < b -> b <= a -> an a b n - bn a b n <= (a - b) / 2 ^ n.
Proof.
  intros Hb Hab. induction n as [|n IH]. unfold an, bn; simpl; lra.
  pose proof (seq_halves a b n Hb Hab). assert (0 < 2 ^ n) by (apply pow_lt; lra).
  replace ((a - b) / 2 ^ S n) with ((a - b) / 2 ^ n / 2) by (simpl; field; lra). lra.
Qed.

(** ** Gauss *)
Lemma GI_seq a b n : 0 < b -> b <= a -> GI (an a b n) (bn a b n) = GI a b.
Proof.
  intros Hb Hab. induction n as [|n IH]; [reflexivity|]. destruct (seq_order a b n Hb Hab) as [H1 H2].
  rewrite an_S, bn_S, <- GI_agm by lra. auto.
Qed.
Lemma GI_bounds a b : 0 < b -> b <= a -> PI / (2 * a) <= GI a b <= PI / (2 * b).
Proof.
  intros Hb Hab. pose proof PI_RGT_0 as HP. unfold GI. split.
  - assert (HC : PI / (2 * a) = RInt (fun _ => 1 / a) 0 (PI / 2)).
    { rewrite I_const. field. lra. }
    rewrite HC.
    apply RInt_le; [lra| | |]. apply ex_RInt_const. apply iDl_ex; lra.
    intros x _. destruct (Dl_between a b x Hb Hab). unfold Rdiv. rewrite !Rmult_1_l. apply Rinv_le_contravar; [apply Dl_pos; lra|auto].
  - assert (HC : PI / (2 * b) = RInt (fun _ => 1 / b) 0 (PI / 2)).
    { rewrite I_const. field. lra. }
    rewrite HC.
    apply RInt_le; [lra| | |]. apply iDl_ex; lra. apply ex_RInt_const.
    intros x _. destruct (Dl_between a b x Hb Hab). unfold Rdiv. rewrite !Rmult_1_l. apply Rinv_le_contravar; auto.
Qed.
Lemma GI_pos a b : 0 < b -> b <= a -> 0 < GI a b.
Proof.
  intros Hb Hab. destruct (GI_bounds a b Hb Hab) as [H _]. pose proof PI_RGT_0. assert (0 < PI / (2 * a)) by (apply Rdiv_lt_0_compat; lra). lra.
Qed.
(** the common limit of the two sequences *)
Definition agm_limit (a b : R) : R := PI / (2 * GI a b).
Lemma limit_between a b n : 0 < b -> b <= a -> bn a b n <= agm_limit a b <= an a b n.
Proof.
  intros Hb Hab. destruct (seq_order a b n Hb Hab) as [H1 H2]. pose proof (GI_bounds _ _ H1 H2) as HB. rewrite GI_seq in HB by auto.
  pose proof (GI_pos a b Hb Hab) as HG. pose proof PI_RGT_0. unfold agm_limit. destruct HB as [B1 B2].
  split; apply (Rmult_le_reg_r (2 * GI a b)); try lra.
  - replace (PI / (2 * GI a b) * (2 * GI a b)) with PI by (field; lra).
    apply (Rmult_le_compat_r (2 * bn a b n)) in B2; [|lra]. replace (PI / (2 * bn a b n) * (2 * bn a b n)) with PI in B2 by (field; lra). lra.
  - replace (PI / (2 * GI a b) * (2 * GI a b)) with PI by (field; lra).
    apply (Rmult_le_compat_r (2 * an a b n)) in B1; [|lra]. replace (PI / (2 * an a b n) * (2 * an a b n)) with PI in B1 by (field; lra). lra.
Qed.
Lemma gap_lim a b : is_lim_seq (fun n => (a - b) / 2 ^ n) 0.
Proof.
  apply (is_lim_seq_ext (fun n => (a - b) * (/ 2) ^ n)).
  - intros n. rewrite pow_inv by lra. reflexivity.
  - replace (Finite 0) with (Rbar_mult (a - b) 0) by (simpl; f_equal; ring).
    apply is_lim_seq_scal_l. apply is_lim_seq_geom. rewrite Rabs_pos_eq; lra.
Qed.
Lemma an_lim a b : 0 < b -> b <= a -> is_lim_seq (an a b) (agm_limit a b).
Proof.
  intros Hb Hab. apply (is_lim_seq_le_le (fun _ => agm_limit a b) _ (fun n => agm_limit a b + (a - b) / 2 ^ n)).
  - intros n. destruct (limit_between a b n Hb Hab). pose proof (seq_gap_pow a b n Hb Hab). lra.
  - apply is_lim_seq_const.
  - replace (Finite (agm_limit a b)) with (Rbar_plus (agm_limit a b) 0) by (simpl; f_equal; ring).
    apply is_lim_seq_plus'; [apply is_lim_seq_const|apply gap_lim].
Qed.
Lemma bn_lim a b : 0 < b -> b <= a -> is_lim_seq (bn a b) (agm_limit a b).
Proof.
  intros Hb Hab. apply (is_lim_seq_le_le (fun n => agm_limit a b + - ((a - b) / 2 ^ n)) _ (fun _ => agm_limit a b)).
  - intros n. destruct (limit_between a b n Hb Hab). pose proof (seq_gap_pow a b n Hb Hab). lra.
  - replace (Finite (agm_limit a b)) with (Rbar_plus (agm_limit a b) (Rbar_opp 0)) by (simpl; f_equal; ring).
    apply is_lim_seq_plus'; [apply is_lim_seq_const|]. apply (is_lim_seq_opp _ 0). apply gap_lim.
  - apply is_lim_seq_const.
Qed.

(** ** relative gap *)
Definition rg a b n := an a b n / bn a b n - 1.
Lemma rg_nonneg a b n : 0 < b -> b <= a -> 0 <= rg a b n.
Proof.
  intros Hb Hab. destruct (seq_order a b n Hb Hab) as [H1 H2]. unfold rg.
  assert (1 <= an a b n / bn a b n); [|lra]. apply (Rmult_le_reg_r (bn a b n)); auto.
  replace (an a b n / bn a b n * bn a b n) with (an a b n) by (field; lra). lra.
Qed.
Lemma rg_S a b n : 0 < b -> b <= a -> rg a b (S n) <= rg a b n ^ 2 / 8.
Proof.
  intros Hb Hab. destruct (seq_order a b n Hb Hab) as [H1 H2]. destruct (seq_order a b (S n) Hb Hab) as [H3 H4].
  destruct (seq_mono a b n Hb Hab) as [M _]. pose proof (seq_gap a b n Hb Hab) as HG. unfold rg.
  set (A := an a b n) in *. set (B := bn a b n) in *. set (A' := an a b (S n)) in *. set (B' := bn a b (S n)) in *.
  replace (A' / B' - 1) with ((A' - B') / B') by (field; lra).
  replace ((A / B - 1) ^ 2 / 8) with ((A - B) ^ 2 / (8 * B) / B) by (field; lra).
  apply Rle_trans with ((A' - B') / B).
  - unfold Rdiv. apply Rmult_le_compat_l; [lra|]. apply Rinv_le_contravar; lra.
  - unfold Rdiv. apply Rmult_le_compat_r; [left; apply Rinv_0_lt_compat; lra|]. exact HG.
Qed.
Lemma rg_quadratic a b n k : 0 < b -> b <= a -> rg a b (n + k) <= 8 * (rg a b n / 8) ^ (2 ^ k).
Proof.
  intros Hb Hab. induction k as [|k IH].
  - rewrite Nat.add_0_r. simpl. lra.
  - rewrite Nat.add_succ_r. eapply Rle_trans; [apply rg_S; auto|].
    pose proof (rg_nonneg a b (n + k) Hb Hab). pose proof (rg_nonneg a b n Hb Hab).
    replace (2 ^ S k)%nat with (2 ^ k + 2 ^ k)%nat by (simpl; lia). rewrite pow_add.
    set (P := (rg a b n / 8) ^ 2 ^ k) in *. nra.
Qed.
(** monotone evaluation: an upper bound on the ratio propagates *)
Lemma ratio_S a b n s s' : 0 < b -> b <= a -> 1 <= s -> 0 <= s' -> an a b n <= s * bn a b n -> (s + 1) ^ 2 <= 4 * s * s' ^ 2 ->
  an a b (S n) <= s' * bn a b (S n).
Proof.
  intros Hb Hab Hs Hs' HR Hq. destruct (seq_order a b n Hb Hab) as [H1 H2]. rewrite an_S, bn_S.
  set (A := an a b n) in *. set (B := bn a b n) in *.
  replace s' with (sqrt (s' ^ 2)) by (apply sqrt_pow2; auto). rewrite <- sqrt_mult_alt by (apply pow2_ge_0).
  rewrite <- (sqrt_pow2 ((A + B) / 2)) by lra. apply sqrt_le_1_alt.
  (* (A+B)^2/(4AB) is increasing in A/B >= 1 *)
  assert (HK : (A + B) ^ 2 * s <= (s + 1) ^ 2 * (A * B)).
  { replace ((s + 1) ^ 2 * (A * B)) with ((A + B) ^ 2 * s + (s * B - A) * (s * A - B)) by ring.
    assert (0 <= (s * B - A) * (s * A - B)) by (apply Rmult_le_pos; nra). lra. }
  assert (HAB : 0 < A * B) by (apply Rmult_lt_0_compat; lra).
  apply (Rmult_le_reg_r (4 * s)); [lra|]. 
  apply Rle_trans with ((s + 1) ^ 2 * (A * B)); [lra|].
  replace (s' ^ 2 * (A * B) * (4 * s)) with (4 * s * s' ^ 2 * (A * B)) by ring. apply Rmult_le_compat_r; lra.
Qed.

(** ** the code's first-kind integral *)
Lemma K_GI m : m < 1 -> ellint_K m = GI 1 (sqrt (1 - m)).
Proof.
  intros Hm. unfold ellint_K, GI. apply I_ext. intros x _. unfold Dl, Q2. rewrite pow2_sqrt by lra.
  do 2 f_equal. rewrite sc1. ring.
Qed.
Lemma E_GJ m : m < 1 -> ellint_E m = GJ 1 (sqrt (1 - m)).
Proof.
  intros Hm. unfold ellint_E, GJ. apply I_ext. intros x _. unfold Dl, Q2. rewrite pow2_sqrt by lra.
  f_equal. rewrite sc1. ring.
Qed.
Lemma agm_an a b n : agm a b n = an a b n.
Proof. reflexivity. Qed.
Lemma b0_range m : 0 <= m -> m < 1 -> 0 < sqrt (1 - m) <= 1.
Proof. intros H0 H1. split. apply sqrt_lt_R0; lra. rewrite <- sqrt_1 at 2. apply sqrt_le_1_alt. lra. Qed.
Lemma limit_K m : 0 <= m -> m < 1 -> ellint_K m = PI / (2 * agm_limit 1 (sqrt (1 - m))).
Proof.
  intros H0 H1. destruct (b0_range m H0 H1) as [B1 B2]. rewrite K_GI by auto. pose proof (GI_pos 1 _ B1 B2). unfold agm_limit.
  pose proof PI_RGT_0. field. lra.
Qed.
Lemma bracket_K m n s : 0 <= m -> m < 1 -> an 1 (sqrt (1 - m)) n <= s * bn 1 (sqrt (1 - m)) n ->
  let k := PI / (2 * agm 1 (sqrt (1 - m)) n) in 0 < k /\ k <= ellint_K m <= s * k.
Proof.
  intros H0 H1 Hs k. destruct (b0_range m H0 H1) as [B1 B2]. unfold k. rewrite agm_an. set (b := sqrt (1 - m)) in *.
  destruct (seq_order 1 b n B1 B2) as [P Q]. pose proof (GI_bounds _ _ P Q) as [L U]. rewrite GI_seq in L, U by auto.
  rewrite K_GI by auto. fold b. pose proof PI_RGT_0 as HP. split; [apply Rdiv_lt_0_compat; lra|]. split; [exact L|].
  eapply Rle_trans; [exact U|]. set (A := an 1 b n) in *. set (B := bn 1 b n) in *.
  apply (Rmult_le_reg_r (2 * A * B)); [apply Rmult_lt_0_compat; lra|].
  replace (PI / (2 * B) * (2 * A * B)) with (PI * A) by (field; lra).
  replace (s * (PI / (2 * A)) * (2 * A * B)) with (PI * (s * B)) by (field; lra).
  apply Rmult_le_compat_l; lra.
Qed.

(** symmetric and homogeneous *)
Lemma quarter_refl (f : R -> R) : (forall x, continuous f x) -> RInt (fun x => f (PI / 2 - x)) 0 (PI / 2) = RInt f 0 (PI / 2).
Proof.
  intros Hc. assert (Hex : forall u v, ex_RInt f u v) by (intros; apply exI_cont; intros; apply Hc).
  pose proof (I_lin f (-1) (PI / 2) 0 (PI / 2) (Hex _ _)) as H.
  replace (-1 * 0 + PI / 2) with (PI / 2) in H by ring. replace (-1 * (PI / 2) + PI / 2) with 0 in H by ring.
  rewrite <- (I_swap f 0 (PI / 2)) in H by auto.
  assert (E : RInt (fun y => -1 * f (-1 * y + PI / 2)) 0 (PI / 2) = RInt (fun x => -1 * f (PI / 2 - x)) 0 (PI / 2)).
  { apply I_ext. intros x _. replace (-1 * x + PI / 2) with (PI / 2 - x) by ring. reflexivity. }
  rewrite E in H. rewrite (I_scal (fun x => f (PI / 2 - x))) in H; [lra|].
  apply exI_cont. intros x _. apply (continuous_comp (fun x => PI / 2 - x) f); [|apply Hc].
  apply (ex_derive_continuous (V := R_NormedModule)). auto_derive. auto.
Qed.
Lemma Dl_comp a b x : Dl a b (PI / 2 - x) = Dl b a x.
Proof. unfold Dl, Q2. rewrite cos_shift, sin_shift. f_equal. ring. Qed.
Lemma GI_sym a b : 0 < a -> 0 < b -> GI a b = GI b a.
Proof.
  intros Ha Hb. unfold GI. rewrite <- (quarter_refl (fun t => 1 / Dl a b t)) by (intros; apply iDl_cont; auto).
  apply I_ext. intros x _. rewrite Dl_comp. reflexivity.
Qed.
Lemma GJ_sym a b : 0 < a -> 0 < b -> GJ a b = GJ b a.
Proof.
  intros Ha Hb. unfold GJ. rewrite <- (quarter_refl (fun t => Dl a b t)) by (intros; apply Dl_cont; auto).
  apply I_ext. intros x _. apply Dl_comp.
Qed.
Lemma Dl_hom k a b x : 0 <= k -> Dl (k * a) (k * b) x = k * Dl a b x.
Proof.
  intros Hk. unfold Dl, Q2. rewrite <- (sqrt_pow2 k) at 3 by auto. rewrite <- sqrt_mult_alt by apply pow2_ge_0. f_equal. ring.
Qed.
Lemma GI_hom k a b : 0 < k -> 0 < a -> 0 < b -> GI (k * a) (k * b) = / k * GI a b.
Proof.
  intros Hk Ha Hb. unfold GI. rewrite <- (I_scal (fun t => 1 / Dl a b t)) by (apply iDl_ex; auto). apply I_ext. intros x _.
  rewrite Dl_hom by lra. pose proof (Dl_pos a b x Ha Hb). field. lra.
Qed.
Lemma GJ_hom k a b : 0 < k -> 0 < a -> 0 < b -> GJ (k * a) (k * b) = k * GJ a b.
Proof.
  intros Hk Ha Hb. unfold GJ. rewrite <- (I_scal (fun t => Dl a b t)) by (apply Dl_ex; auto). apply I_ext. intros x _.
  rewrite Dl_hom by lra. reflexivity.
Qed.
(** the imaginary-modulus transformation *)
Lemma neg_sqrt m : m <= 0 -> sqrt (1 - Rabs m / (Rabs m + 1)) = / sqrt (1 - m).
Proof.
  intros Hm. rewrite Rabs_left1 by auto. replace (1 - - m / (- m + 1)) with (/ (1 - m)) by (field; lra).
  rewrite sqrt_inv by lra. reflexivity.
Qed.
Lemma neg_range m : m <= 0 -> 0 <= Rabs m / (Rabs m + 1) < 1.
Proof.
  intros Hm. rewrite Rabs_left1 by auto. split. apply Rmult_le_pos; [lra|]. left. apply Rinv_0_lt_compat. lra.
  apply (Rmult_lt_reg_r (- m + 1)); [lra|]. replace (- m / (- m + 1) * (- m + 1)) with (- m) by (field; lra). lra.
Qed.
Lemma K_neg m : m <= 0 -> ellint_K m = 1 / sqrt (Rabs m + 1) * ellint_K (Rabs m / (Rabs m + 1)).
Proof.
  intros Hm. destruct (neg_range m Hm) as [R0 R1]. rewrite !K_GI by lra. rewrite neg_sqrt by auto.
  rewrite (Rabs_left1 m) by auto. replace (- m + 1) with (1 - m) by ring. assert (HS : 0 < sqrt (1 - m)) by (apply sqrt_lt_R0; lra).
  assert (HI : 0 < / sqrt (1 - m)) by (apply Rinv_0_lt_compat; auto).
  rewrite GI_sym by lra. replace (GI (sqrt (1 - m)) 1) with (GI (sqrt (1 - m) * 1) (sqrt (1 - m) * / sqrt (1 - m))) by (f_equal; field; lra).
  rewrite GI_hom by lra. unfold Rdiv. ring.
Qed.
Lemma E_neg m : m <= 0 -> ellint_E m = sqrt (Rabs m + 1) * ellint_E (Rabs m / (Rabs m + 1)).
Proof.
  intros Hm. destruct (neg_range m Hm) as [R0 R1]. rewrite !E_GJ by lra. rewrite neg_sqrt by auto.
  rewrite (Rabs_left1 m) by auto. replace (- m + 1) with (1 - m) by ring. assert (HS : 0 < sqrt (1 - m)) by (apply sqrt_lt_R0; lra).
  assert (HI : 0 < / sqrt (1 - m)) by (apply Rinv_0_lt_compat; auto).
  rewrite GJ_sym by lra. replace (GJ (sqrt (1 - m)) 1) with (GJ (sqrt (1 - m) * 1) (sqrt (1 - m) * / sqrt (1 - m))) by (f_equal; field; lra).
  rewrite GJ_hom by lra. ring.
Qed.

(** starting value of the geometric sequence actually iterated by [ellipk] and [ellipe] *)
Definition start (m : R) : R := if Rltb 0 m then sqrt (1 - m) else / sqrt (1 - m).
Lemma start_range m : m < 1 -> 0 < start m <= 1.
Proof.
  intros Hm. unfold start. Rbool. apply b0_range; lra.
  rewrite <- neg_sqrt by lra. destruct (neg_range m); [lra|]. apply b0_range; lra.
Qed.
Lemma ellipk_bracket m s : m < 1 -> an 1 (start m) 5 <= s * bn 1 (start m) 5 ->
  exists k, ellipk m = Some k /\ 0 < k /\ k <= ellint_K m <= s * k.
Proof.
  intros Hm Hs. unfold ellipk, start in *. destruct (Rltb_spec 0 m) as [H0|H0].
  - unfold ellipk_. destruct (Rltb_spec 1 m); [lra|]. eexists. split; [reflexivity|]. apply bracket_K; auto; lra.
  - assert (H0' : m <= 0) by lra. destruct (neg_range m H0') as [R0 R1]. unfold ellipk_. destruct (Rltb_spec 1 (Rabs m / (Rabs m + 1))); [lra|].
    rewrite <- neg_sqrt in Hs by auto.
    destruct (bracket_K (Rabs m / (Rabs m + 1)) 5 s R0 R1 Hs) as (P & Q & U).
    cbn [option_map]. eexists. split; [reflexivity|]. rewrite K_neg by auto.
    pose proof (Rabs_pos m). assert (HS : 0 < 1 / sqrt (Rabs m + 1)) by (apply Rdiv_lt_0_compat; [lra|apply sqrt_lt_R0; lra]).
    set (w := 1 / sqrt (Rabs m + 1)) in *. set (k := PI / _) in *. set (K := ellint_K _) in *. repeat split; try nra.
Qed.
Lemma ratio0 a b s : 0 < b -> a <= s * b -> an a b 0 <= s * bn a b 0.
Proof. intros _ H. exact H. Qed.
(** the relative gap after five steps, in closed form *)
Lemma rg1 b : 0 < b -> b <= 1 -> rg 1 b 1 = (1 - sqrt b) ^ 2 / (2 * sqrt b).
Proof.
  intros Hb H1. unfold rg. rewrite an_S, bn_S. unfold an, bn. simpl fst; simpl snd. rewrite Rmult_1_l.
  assert (HS : 0 < sqrt b) by (apply sqrt_lt_R0; auto). pose proof (sqrt_sqrt b) as HQ. rewrite <- HQ at 1 by lra. field. lra.
Qed.
Lemma ratio5 b : 0 < b -> b <= 1 -> an 1 b 5 <= (1 + 8 * ((1 - sqrt b) ^ 2 / (16 * sqrt b)) ^ 16) * bn 1 b 5.
Proof.
  intros Hb H1. assert (HS : 0 < sqrt b) by (apply sqrt_lt_R0; auto).
  assert (HE : rg 1 b 1 / 8 = (1 - sqrt b) ^ 2 / (16 * sqrt b)) by (rewrite rg1 by auto; field; lra).
  rewrite <- HE. pose proof (rg_quadratic 1 b 1 4 Hb H1) as H.
  destruct (seq_order 1 b 5 Hb H1) as [P Q]. 
  assert (HR : an 1 b 5 = (1 + rg 1 b 5) * bn 1 b 5) by (unfold rg; field; lra). rewrite HR at 1. apply Rmult_le_compat_r; [lra|].
  apply Rplus_le_compat_l. exact H.
Qed.
Lemma ratio5_wide b : 1 / 100000000 <= b -> b <= 1 -> an 1 b 5 <= 1.0028 * bn 1 b 5.
Proof.
  intros Hb H1. assert (Hp : 0 < b) by lra.
  apply (ratio_S 1 b 4 1.1604); auto; try lra.
  apply (ratio_S 1 b 3 3.058); auto; try lra.
  apply (ratio_S 1 b 2 35.37); auto; try lra.
  apply (ratio_S 1 b 1 5001); auto; try lra.
  apply (ratio_S 1 b 0 100000000); auto; try lra.
  unfold an, bn; simpl; lra.
Qed.
Lemma ratio5_narrow b : 1 / 100 <= b -> b <= 1 -> an 1 b 5 <= (1 + 1 / 10000000000) * bn 1 b 5.
Proof.
  intros Hb H1. assert (Hp : 0 < b) by lra.
  apply (ratio_S 1 b 4 1.0000157); auto; try lra.
  apply (ratio_S 1 b 3 1.0112); auto; try lra.
  apply (ratio_S 1 b 2 1.3463); auto; try lra.
  apply (ratio_S 1 b 1 5.0501); auto; try lra.
  apply (ratio_S 1 b 0 100); auto; try lra.
  unfold an, bn; simpl; lra.
Qed.
Lemma start_neg m : m <= 0 -> start m = 1 / sqrt (1 - m).
Proof. intros H. unfold start. destruct (Rltb_spec 0 m); [lra|]. unfold Rdiv. ring. Qed.

(** ** the second kind *)
(** what is left after [n] steps: [GJ - a^2 GI], between [-(a^2 - b^2) GI] and 0 *)
Definition er a b n := GJ (an a b n) (bn a b n) - an a b n ^ 2 * GI a b.
Lemma er_S a b n : 0 < b -> b <= a -> er a b n = 2 * er a b (S n) - (an a b n ^ 2 - bn a b n ^ 2) / 2 * GI a b.
Proof.
  intros Hb Hab. destruct (seq_order a b n Hb Hab) as [P Q]. unfold er. rewrite (GJ_agm (an a b n) (bn a b n)) by lra.
  rewrite GI_seq by auto. rewrite an_S, bn_S. field.
Qed.
Lemma GJ_GI a b : 0 < b -> b <= a -> - (a ^ 2 - b ^ 2) * GI a b <= GJ a b - a ^ 2 * GI a b <= 0.
Proof.
  intros Hb Hab. assert (Ha : 0 < a) by lra. pose proof PI_RGT_0. pose proof (Dl_ex a b 0 (PI / 2) Ha Hb) as X1. pose proof (iDl_ex a b 0 (PI / 2) Ha Hb) as X2.
  assert (H1 : b ^ 2 * GI a b <= GJ a b).
  { unfold GI, GJ. rewrite <- (I_scal (fun t => 1 / Dl a b t)) by exact X2. apply RInt_le; [lra|apply exI_scal; exact X2|exact X1|].
    intros x _. pose proof (Dl_pos a b x Ha Hb). destruct (Q2_between a b x Hb Hab) as [L _]. rewrite <- Dl_sq in L by auto.
    apply (Rmult_le_reg_r (Dl a b x)); auto. replace (b ^ 2 * (1 / Dl a b x) * Dl a b x) with (b ^ 2) by (field; lra). lra. }
  assert (H2 : GJ a b <= a ^ 2 * GI a b).
  { unfold GI, GJ. rewrite <- (I_scal (fun t => 1 / Dl a b t)) by exact X2. apply RInt_le; [lra|exact X1|apply exI_scal; exact X2|].
    intros x _. pose proof (Dl_pos a b x Ha Hb). destruct (Q2_between a b x Hb Hab) as [_ L]. rewrite <- Dl_sq in L by auto.
    apply (Rmult_le_reg_r (Dl a b x)); auto. replace (a ^ 2 * (1 / Dl a b x) * Dl a b x) with (a ^ 2) by (field; lra). lra. }
  split; lra.
Qed.
Lemma er_bounds a b n : 0 < b -> b <= a -> - (an a b n ^ 2 - bn a b n ^ 2) * GI a b <= er a b n <= 0.
Proof.
  intros Hb Hab. destruct (seq_order a b n Hb Hab) as [P Q]. pose proof (GJ_GI _ _ P Q) as H. rewrite GI_seq in H by auto. exact H.
Qed.
(** the partial sums of the code *)
Fixpoint ssum a b (n : nat) : R :=
  match n with O => (a ^ 2 - b ^ 2) / 2 | S k => ssum a b k + 2 ^ k * (an a b (S k) ^ 2 - bn a b (S k) ^ 2) end.
Lemma cn_S a b n : 0 < b -> b <= a -> an a b (S n) ^ 2 - bn a b (S n) ^ 2 = (0.5 * (an a b n - bn a b n)) ^ 2.
Proof.
  intros Hb Hab. destruct (seq_order a b n Hb Hab) as [P Q]. rewrite an_S, bn_S. rewrite pow2_sqrt by (apply Rmult_le_pos; lra).
  replace 0.5 with (1 / 2) by lra. field.
Qed.
Lemma agm2_state a b n : 0 < b -> b <= a ->
  Nat.iter n agm_step2 (a, b, (a ^ 2 - b ^ 2) / 2, 1%nat) = (an a b n, bn a b n, ssum a b n, S n).
Proof.
  intros Hb Hab. induction n as [|n IH]; [reflexivity|]. cbn [Nat.iter nat_rect]. unfold Nat.iter in IH. rewrite IH.
  unfold agm_step2. rewrite an_S, bn_S. replace (S n - 1)%nat with n by lia. cbn [ssum]. rewrite cn_S by auto. reflexivity.
Qed.
Lemma ssum_exact a b n : 0 < b -> b <= a ->
  GJ a b = (a ^ 2 - ssum a b n) * GI a b + 2 ^ n * (an a b n ^ 2 - bn a b n ^ 2) / 2 * GI a b + 2 ^ n * er a b n.
Proof.
  intros Hb Hab. induction n as [|n IH].
  - unfold er, an, bn; simpl. field.
  - rewrite IH. rewrite (er_S a b n) by auto. cbn [ssum]. rewrite <- (tech_pow_Rmult 2 n). field.
Qed.
Lemma ssum_error a b n : 0 < b -> b <= a ->
  Rabs (GJ a b - (a ^ 2 - ssum a b n) * GI a b) <= 2 ^ n * (an a b n ^ 2 - bn a b n ^ 2) / 2 * GI a b.
Proof.
  intros Hb Hab. rewrite (ssum_exact a b n) by auto. pose proof (er_bounds a b n Hb Hab) as [L U]. assert (0 < 2 ^ n) by (apply pow_lt; lra).
  set (X := (an a b n ^ 2 - bn a b n ^ 2) * GI a b) in *.
  replace (2 ^ n * (an a b n ^ 2 - bn a b n ^ 2) / 2 * GI a b) with (2 ^ n * X / 2) by (unfold X; field).
  apply Rabs_le. assert (2 ^ n * er a b n <= 0) by nra. assert (- (2 ^ n * X) <= 2 ^ n * er a b n) by (unfold X in *; nra). split; lra.
Qed.
Lemma cn_nonneg a b n : 0 < b -> b <= a -> 0 <= an a b n ^ 2 - bn a b n ^ 2.
Proof. intros Hb Hab. destruct (seq_order a b n Hb Hab) as [P Q]. assert (bn a b n ^ 2 <= an a b n ^ 2) by (apply pow_incr; lra). lra. Qed.
Lemma ssum_nonneg a b n : 0 < b -> b <= a -> 0 <= ssum a b n.
Proof.
  intros Hb Hab. induction n as [|n IH]. simpl. pose proof (cn_nonneg a b 0 Hb Hab) as H. unfold an, bn in H; simpl in H. lra.
  cbn [ssum]. pose proof (cn_nonneg a b (S n) Hb Hab). assert (0 < 2 ^ n) by (apply pow_lt; lra). nra.
Qed.
Lemma ellipe__val m : 0 <= m -> m < 1 ->
  ellipe_ m = Some (PI / (2 * an 1 (sqrt (1 - m)) 5) * (1 - ssum 1 (sqrt (1 - m)) 5)).
Proof.
  intros H0 H1. destruct (b0_range m H0 H1) as [B1 B2]. unfold ellipe_. destruct (Rltb_spec 1 m); [lra|].
  assert (Hb : 0.5 * sqrt (Rabs (1 ^ 2 - sqrt (1 - m) ^ 2)) ^ 2 = (1 ^ 2 - sqrt (1 - m) ^ 2) / 2).
  { rewrite pow2_sqrt by apply Rabs_pos. rewrite pow2_sqrt by lra. rewrite Rabs_pos_eq by lra. replace 0.5 with (1 / 2) by lra. field. }
  cbv zeta. rewrite Hb. unfold agm2. rewrite agm2_state by auto. reflexivity.
Qed.
Lemma GI1_lower b : 0 < b -> b <= 1 -> PI / 2 <= GI 1 b.
Proof. intros Hb H1. destruct (GI_bounds 1 b Hb H1) as [H _]. lra. Qed.
Lemma ellipe__error m s : 0 <= m -> m < 1 -> 1 <= s -> s <= 2 -> an 1 (sqrt (1 - m)) 5 <= s * bn 1 (sqrt (1 - m)) 5 ->
  exists e, ellipe_ m = Some e /\ Rabs (ellint_E m - e) <= (s - 1) * 34 * ellint_K m.
Proof.
  intros H0 H1 Hs1 Hs2 Hs. destruct (b0_range m H0 H1) as [B1 B2]. rewrite ellipe__val by auto. eexists. split; [reflexivity|].
  destruct (bracket_K m 5 s H0 H1 Hs) as (P & L & U). rewrite agm_an in P, L, U. rewrite E_GJ by auto. rewrite K_GI in L, U |- * by auto.
  set (b := sqrt (1 - m)) in *. set (k := PI / (2 * an 1 b 5)) in *.
  pose proof (ssum_error 1 b 5 B1 B2) as HE. rewrite pow1 in HE.
  pose proof (cn_nonneg 1 b 5 B1 B2) as HC. pose proof (ssum_nonneg 1 b 5 B1 B2) as HN. destruct (seq_order 1 b 5 B1 B2) as [Pb Pa].
  pose proof (GI_pos 1 b B1 B2) as HG.
  assert (Ha1 : an 1 b 5 <= 1).
  { assert (forall n, an 1 b n <= 1) as Hall; [|apply Hall]. induction n. unfold an; simpl; lra. destruct (seq_mono 1 b n B1 B2). lra. }
  assert (HCu : an 1 b 5 ^ 2 - bn 1 b 5 ^ 2 <= 2 * (s - 1)).
  { set (A := an 1 b 5) in *. set (B := bn 1 b 5) in *. replace (A ^ 2 - B ^ 2) with ((A - B) * (A + B)) by ring.
    assert (A - B <= (s - 1) * B) by lra. assert (A - B <= s - 1) by nra. apply Rle_trans with ((s - 1) * (A + B)). apply Rmult_le_compat_r; lra.
    assert (0 <= s - 1) by lra. nra. }
  assert (HC2 : an 1 b 5 ^ 2 - bn 1 b 5 ^ 2 <= 1 / 16).
  { replace (an 1 b 5) with (an 1 b (S 4)) by reflexivity. replace (bn 1 b 5) with (bn 1 b (S 4)) by reflexivity. rewrite cn_S by auto.
    pose proof (seq_gap_pow 1 b 4 B1 B2) as Hg. destruct (seq_order 1 b 4 B1 B2). simpl pow in Hg. set (x := an 1 b 4 - bn 1 b 4) in *.
    assert (0 <= x <= 1 / 16) by (unfold x in *; lra). replace ((0.5 * x) ^ 2) with (x * x / 4) by (replace 0.5 with (1 / 2) by lra; field). nra. }
  set (C5 := an 1 b 5 ^ 2 - bn 1 b 5 ^ 2) in *. set (S5 := ssum 1 b 5) in *.
  replace (2 ^ 5 * C5 / 2) with (16 * C5) in HE by (simpl; field).
  (* the factor 1 - S5 lies between -1 and 1 *)
  assert (HJ : 0 <= GJ 1 b).
  { apply RInt_ge_0. pose proof PI_RGT_0; lra. apply Dl_ex; lra. intros x _. left. apply Dl_pos; lra. }
  assert (HF : -1 <= 1 - S5 <= 1).
  { split; [|lra]. apply Rabs_le_between in HE. destruct HE as [E1 E2].
    assert (GJ 1 b <= (1 - S5 + 16 * C5) * GI 1 b) by lra. assert (0 <= 1 - S5 + 16 * C5) by nra. lra. }
  replace (GJ 1 b - k * (1 - S5)) with ((GJ 1 b - (1 - S5) * GI 1 b) + (1 - S5) * (GI 1 b - k)) by ring.
  eapply Rle_trans; [apply Rabs_triang|]. rewrite Rabs_mult.
  assert (Hk : Rabs (GI 1 b - k) <= (s - 1) * GI 1 b) by (rewrite Rabs_pos_eq by lra; nra).
  assert (Hf : Rabs (1 - S5) <= 1) by (apply Rabs_le; lra).
  assert (Rabs (1 - S5) * Rabs (GI 1 b - k) <= 1 * ((s - 1) * GI 1 b)).
  { apply Rmult_le_compat; auto using Rabs_pos. }
  assert (16 * C5 * GI 1 b <= 32 * (s - 1) * GI 1 b) by (apply Rmult_le_compat_r; lra).
  assert (0 <= (s - 1) * GI 1 b) by (apply Rmult_le_pos; lra). lra.
Qed.
(** [ellipe] for every parameter below 1 *)
Lemma RInt_cos : RInt (fun t => cos t) 0 (PI / 2) = 1.
Proof.
  apply I_unique. replace 1 with (sin (PI / 2) - sin 0) by (rewrite sin_PI2, sin_0; ring).
  apply (I_derive sin (fun t => cos t)).
  - intros x _. auto_derive; auto. ring.
  - intros x _. apply (ex_derive_continuous (V := R_NormedModule)). auto_derive. auto.
Qed.
Lemma GJ1_lower b : 0 < b -> 1 <= GJ 1 b.
Proof.
  intros Hb. apply Rle_trans with (RInt (fun t => cos t) 0 (PI / 2)); [rewrite RInt_cos; lra|]. unfold GJ. apply RInt_le; [pose proof PI_RGT_0; lra| |apply Dl_ex; lra|].
  - apply exI_cont. intros x _. apply (ex_derive_continuous (V := R_NormedModule)). auto_derive. auto.
  - intros x Hx. rewrite <- (sqrt_pow2 (cos x)). 2:{ apply cos_ge_0; lra. }
    apply sqrt_le_1_alt. unfold Q2. pose proof (pow2_ge_0 (b * sin x)). nra.
Qed.
Lemma ellipe_error m s kmax : m < 1 -> 1 <= s <= 2 -> an 1 (start m) 5 <= s * bn 1 (start m) 5 -> GI 1 (start m) <= kmax ->
  exists e, ellipe m = Some e /\ Rabs (ellint_E m - e) <= (s - 1) * 34 * kmax * ellint_E m.
Proof.
  intros Hm [Hs1 Hs2] Hs Hk. unfold ellipe, start in *. destruct (Rltb_spec 0 m) as [H0|H0].
  - destruct (ellipe__error m s) as (e & He & Hb); auto; try lra. exists e. split; auto.
    destruct (b0_range m) as [B1 B2]; auto; try lra. rewrite K_GI in Hb by auto. pose proof (GJ1_lower _ B1) as HJ. rewrite <- E_GJ in HJ by auto.
    pose proof (GI_pos 1 _ B1 B2). assert (0 <= (s - 1) * 34) by lra.
    eapply Rle_trans; [exact Hb|]. apply Rle_trans with ((s - 1) * 34 * kmax). apply Rmult_le_compat_l; lra.
    rewrite <- (Rmult_1_r ((s - 1) * 34 * kmax)) at 1. apply Rmult_le_compat_l; auto. apply Rmult_le_pos; lra.
  - assert (H0' : m <= 0) by lra. destruct (neg_range m H0') as [R0 R1]. rewrite <- neg_sqrt in Hs, Hk by auto.
    destruct (ellipe__error (Rabs m / (Rabs m + 1)) s) as (e & He & Hb); auto. rewrite He. cbn [option_map]. eexists. split; [reflexivity|].
    rewrite E_neg by auto. pose proof (Rabs_pos m). assert (HS : 0 < sqrt (Rabs m + 1)) by (apply sqrt_lt_R0; lra).
    set (w := sqrt (Rabs m + 1)) in *. set (mm := Rabs m / (Rabs m + 1)) in *.
    destruct (b0_range mm) as [B1 B2]; auto. rewrite K_GI in Hb by auto. pose proof (GJ1_lower _ B1) as HJ. rewrite <- E_GJ in HJ by auto.
    pose proof (GI_pos 1 _ B1 B2). assert (0 <= (s - 1) * 34) by lra.
    replace (w * ellint_E mm - w * e) with (w * (ellint_E mm - e)) by ring. rewrite Rabs_mult, (Rabs_pos_eq w) by lra.
    replace ((s - 1) * 34 * kmax * (w * ellint_E mm)) with (w * ((s - 1) * 34 * kmax * ellint_E mm)) by ring.
    apply Rmult_le_compat_l; [lra|].
    eapply Rle_trans; [exact Hb|]. apply Rle_trans with ((s - 1) * 34 * kmax). apply Rmult_le_compat_l; lra.
    rewrite <- (Rmult_1_r ((s - 1) * 34 * kmax)) at 1. apply Rmult_le_compat_l; auto. apply Rmult_le_pos; lra.
Qed.
Lemma GI1_upper b : 1 / 100 <= b -> b <= 1 -> GI 1 b <= 20.
Proof.
  intros Hb H1. assert (Hp : 0 < b) by lra. destruct (seq_order 1 b 1 Hp H1) as [P Q]. pose proof (GI_bounds _ _ P Q) as [_ U]. rewrite GI_seq in U by auto.
  eapply Rle_trans; [exact U|]. assert (HB : 1 / 10 <= bn 1 b 1).
  { rewrite bn_S. unfold an, bn; simpl. rewrite <- (sqrt_pow2 (1 / 10)) by lra. apply sqrt_le_1_alt. lra. }
  apply (Rmult_le_reg_r (2 * bn 1 b 1)); [lra|]. replace (PI / (2 * bn 1 b 1) * (2 * bn 1 b 1)) with PI by (field; lra).
  pose proof PI_4. lra.
Qed.

(** ** five steps are not enough close to 1 *)
Lemma an_half b n : 0 < b -> b <= 1 -> 1 / 2 ^ n <= an 1 b n.
Proof.
  intros Hb H1. induction n as [|n IH]. unfold an; simpl; lra. destruct (seq_order 1 b n Hb H1). rewrite an_S.
  assert (0 < 2 ^ n) by (apply pow_lt; lra). replace (1 / 2 ^ S n) with (1 / 2 ^ n / 2) by (simpl; field; lra). lra.
Qed.
Lemma GI1_log b : 0 < b -> b <= 1 -> - ln b <= GI 1 b.
Proof.
  intros Hb H1. pose proof PI_RGT_0 as HP. assert (HP2 : 1 < PI / 2) by (pose proof PI2_1; lra).
  assert (HD : is_RInt (fun t => 1 / (PI / 2 - t + b)) 0 (PI / 2) (- ln (PI / 2 - PI / 2 + b) - - ln (PI / 2 - 0 + b))).
  { apply (I_derive (fun t => - ln (PI / 2 - t + b))).
    - intros x Hx. rewrite Rmin_left, Rmax_right in Hx by lra. auto_derive; [lra|]. field. lra.
    - intros x Hx. rewrite Rmin_left, Rmax_right in Hx by lra. apply (ex_derive_continuous (V := R_NormedModule)). auto_derive. lra. }
  apply Rle_trans with (- ln (PI / 2 - PI / 2 + b) - - ln (PI / 2 - 0 + b)).
  - replace (PI / 2 - PI / 2 + b) with b by ring. assert (0 <= ln (PI / 2 - 0 + b)); [|lra]. apply Rle_trans with (ln 1); [rewrite ln_1; lra|apply ln_le; lra].
  - rewrite <- (I_unique _ _ _ _ HD). unfold GI. apply RInt_le; [lra|eexists; exact HD|apply iDl_ex; lra|].
    intros x Hx. replace (1 / (PI / 2 - x + b)) with (/ (PI / 2 - x + b)) by (field; lra).
    pose proof (Dl_pos 1 b x Rlt_0_1 Hb). replace (1 / Dl 1 b x) with (/ Dl 1 b x) by (field; lra). apply Rinv_le_contravar; auto.
    rewrite <- (sqrt_pow2 (PI / 2 - x + b)) by lra. apply sqrt_le_1_alt. unfold Q2.
    assert (Hc : 0 <= cos x <= PI / 2 - x).
    { split; [apply cos_ge_0; lra|]. rewrite <- sin_shift. left. apply sin_lt_x. lra. }
    pose proof (pow2_ge_0 (cos x)) as Hc2. pose proof (sc1 x).
    assert (sin x ^ 2 <= 1) by lra. assert (b ^ 2 * sin x ^ 2 <= b ^ 2) by (pose proof (pow2_ge_0 b); nra).
    assert (cos x ^ 2 <= (PI / 2 - x) ^ 2) by (apply pow_incr; lra). nra.
Qed.
Lemma ellipk_near_one : exists m k, 0 < m < 1 /\ ellipk m = Some k /\ 2 * k < ellint_K m.
Proof.
  set (b := exp (-130)). assert (Hb : 0 < b) by apply exp_pos.
  assert (Hb1 : b < 1) by (unfold b; rewrite <- exp_0; apply exp_increasing; lra).
  exists (1 - b ^ 2). exists (PI / (2 * an 1 b 5)).
  assert (Hbb : 0 < b ^ 2 < 1) by (split; [apply pow_lt; auto|nra]).
  assert (HS : sqrt (1 - (1 - b ^ 2)) = b) by (replace (1 - (1 - b ^ 2)) with (b ^ 2) by ring; apply sqrt_pow2; lra).
  split; [lra|]. split.
  - unfold ellipk, ellipk_. destruct (Rltb_spec 0 (1 - b ^ 2)); [|lra]. destruct (Rltb_spec 1 (1 - b ^ 2)); [lra|]. rewrite HS. reflexivity.
  - rewrite K_GI, HS by lra. pose proof (GI1_log b Hb (Rlt_le _ _ Hb1)) as HL. unfold b at 1 in HL. rewrite ln_exp in HL.
    pose proof (an_half b 5 Hb (Rlt_le _ _ Hb1)) as HA. replace (1 / 2 ^ 5) with (1 / 32) in HA by (simpl; field).
    pose proof PI_4. pose proof PI_RGT_0. assert (PI / (2 * an 1 b 5) <= 16 * PI); [|lra].
    apply (Rmult_le_reg_r (2 * an 1 b 5)); [lra|]. replace (PI / (2 * an 1 b 5) * (2 * an 1 b 5)) with PI by (field; lra). nra.
Qed.
