(** The Gaussian integral. *)
From Coq Require Import Reals Lra Lia.
From Coquelicot Require Import Coquelicot.
From Verif Require Import Base_Int S_Integral.
Local Open Scope R_scope.

Definition gs (x : R) : R := exp (- (x * x)).
Lemma gs_cont x : continuous gs x.
Proof.
  unfold gs. apply continuity_pt_filterlim. apply derivable_continuous_pt. reg.
Qed.
Lemma gs_int a b : ex_RInt gs a b.
Proof. apply (ex_RInt_continuous (V := R_CompleteNormedModule)). intros. apply gs_cont. Qed.
Definition E (t : R) : R := RInt gs 0 t.
Definition gf (t x : R) : R := exp (- (t * t * (1 + x * x))) / (1 + x * x).
Definition G (t : R) : R := RInt (gf t) 0 1.
Lemma den_pos x : 0 < 1 + x * x. Proof. nra. Qed.
Lemma gf_cont t x : continuous (gf t) x.
Proof.
  apply continuity_pt_filterlim. apply derivable_continuous_pt. unfold gf.
  assert (1 + x * x <> 0) by (pose proof (den_pos x); lra). reg. 
Qed.
Lemma gf_int t a b : ex_RInt (gf t) a b.
Proof. apply (ex_RInt_continuous (V := R_CompleteNormedModule)). intros. apply gf_cont. Qed.
Lemma gf_derive t x : is_derive (fun u => gf u x) t (- 2 * t * exp (- (t * t * (1 + x * x)))).
Proof.
  unfold gf. pose proof (den_pos x). auto_derive; [lra|]. field. lra.
Qed.
Lemma E_derive t : is_derive E t (gs t).
Proof.
  unfold E. apply (is_derive_RInt gs (fun t => RInt gs 0 t) 0 t).
  - exists (mkposreal 1 Rlt_0_1). intros. apply (RInt_correct (V := R_CompleteNormedModule)), gs_int.
  - apply gs_cont.
Qed.
Lemma G_derive t : is_derive G t (- 2 * gs t * E t).
Proof.
  unfold G.
  assert (D : is_derive (fun u => RInt (gf u) 0 1) t (RInt (fun x => Derive (fun u => gf u x) t) 0 1)).
  { apply (is_derive_RInt_param gf 0 1 t).
    - exists (mkposreal 1 Rlt_0_1). intros y _ x _. eexists. apply gf_derive.
    - intros x _.
      apply (continuity_2d_pt_ext (fun u v => - 2 * u * exp (- (u * u * (1 + v * v))))).
      { intros u v. symmetry. apply is_derive_unique, gf_derive. }
      apply continuity_2d_pt_mult.
      + apply continuity_2d_pt_mult; [apply continuity_2d_pt_const|apply continuity_2d_pt_id1].
      + apply (continuity_1d_2d_pt_comp exp (fun u v => - (u * u * (1 + v * v)))).
        * apply derivable_continuous_pt, derivable_pt_exp.
        * apply continuity_2d_pt_opp, continuity_2d_pt_mult.
          -- apply continuity_2d_pt_mult; apply continuity_2d_pt_id1.
          -- apply continuity_2d_pt_plus; [apply continuity_2d_pt_const|].
             apply continuity_2d_pt_mult; apply continuity_2d_pt_id2.
    - exists (mkposreal 1 Rlt_0_1). intros y _. apply gf_int. }
  replace (- 2 * gs t * E t) with (RInt (fun x => Derive (fun u => gf u x) t) 0 1); [exact D|].
  transitivity (RInt (fun x => scal (- 2 * gs t) (scal t (gs (t * x + 0)))) 0 1).
  - apply RInt_ext. intros x _. etransitivity; [exact (is_derive_unique _ _ _ (gf_derive t x))|].
    unfold scal; simpl; unfold mult; simpl. unfold gs.
    replace (- (t * t * (1 + x * x))) with (- (t * t) + - ((t * x + 0) * (t * x + 0))) by ring.
    rewrite exp_plus. ring.
  - transitivity (- 2 * gs t * RInt (fun x => scal t (gs (t * x + 0))) 0 1).
    + apply (RInt_scal (V := R_CompleteNormedModule) (fun x => scal t (gs (t * x + 0))) 0 1 (- 2 * gs t)).
      apply (ex_RInt_comp_lin gs t 0 0 1). apply gs_int.
    + f_equal. unfold E. transitivity (RInt gs (t * 0 + 0) (t * 1 + 0)).
      * apply (RInt_comp_lin (V := R_CompleteNormedModule)). apply gs_int.
      * f_equal; ring.
Qed.
Lemma EG_const t : E t * E t + G t = PI / 4.
Proof.
  assert (D : forall x, is_derive (fun u => E u * E u + G u) x 0).
  { intros x. replace 0 with ((gs x * E x + E x * gs x) + (- 2 * gs x * E x)) by ring.
    apply (is_derive_plus (fun u => E u * E u) G); [|apply G_derive].
    apply (is_derive_mult E E x (gs x) (gs x)); try apply E_derive. intros; apply Rmult_comm. }
  assert (C : E t * E t + G t = E 0 * E 0 + G 0).
  { destruct (Req_dec t 0) as [->|N]; [reflexivity|].
    destruct (MVT_gen (fun u => E u * E u + G u) 0 t (fun _ => 0)) as (c & _ & H).
    - intros; apply D.
    - intros. apply continuity_pt_filterlim. apply (ex_derive_continuous (fun u => E u * E u + G u)). eexists; apply D.
    - lra. }
  assert (E0 : E 0 = 0) by (unfold E; apply (RInt_point (V := R_CompleteNormedModule))).
  rewrite C, E0.
  rewrite Rmult_0_l, Rplus_0_l. unfold G.
  transitivity (RInt (fun x => / (1 + x ^ 2)) 0 1).
  - apply RInt_ext. intros x _. unfold gf. replace (- (0 * 0 * (1 + x * x))) with 0 by ring. rewrite exp_0.
    replace (1 + x ^ 2) with (1 + x * x) by ring. unfold Rdiv. apply Rmult_1_l.
  - apply is_RInt_unique. replace (PI / 4) with (minus (atan 1) (atan 0)) by (rewrite atan_0, atan_1; unfold minus, plus, opp; simpl; ring).
    apply (is_RInt_derive atan (fun x => / (1 + x ^ 2))).
    + intros x _. apply is_derive_Reals. apply derivable_pt_lim_atan.
    + intros x _. apply continuity_pt_filterlim, derivable_continuous_pt.
      assert (1 + x ^ 2 <> 0) by nra. reg.
Qed.
Lemma G_bound t : 0 <= G t <= exp (- (t * t)).
Proof.
  unfold G. split.
  - apply RInt_ge_0; [lra|apply gf_int|]. intros x _. unfold gf. pose proof (den_pos x).
    apply Rmult_le_pos; [apply Rlt_le, exp_pos|apply Rlt_le, Rinv_0_lt_compat; lra].
  - replace (exp (- (t * t))) with (RInt (fun _ => exp (- (t * t))) 0 1).
    2:{ rewrite RInt_const. unfold scal; simpl; unfold mult; simpl. ring. }
    apply RInt_le; [lra|apply gf_int|apply ex_RInt_const|]. intros x _. unfold gf. pose proof (den_pos x).
    apply (Rmult_le_reg_r (1 + x * x)); [lra|]. unfold Rdiv. rewrite Rmult_assoc, Rinv_l, Rmult_1_r by lra.
    assert (exp (- (t * t * (1 + x * x))) <= exp (- (t * t))).
    { destruct (Req_dec (t * x) 0) as [e|n].
      - right. f_equal. replace (t * t * (1 + x * x)) with (t * t + (t * x) * (t * x)) by ring. rewrite e. ring.
      - left. apply exp_increasing. pose proof (Rsqr_pos_lt _ n). unfold Rsqr in *. nra. }
    pose proof (exp_pos (- (t * t))). nra.
Qed.
Lemma E_nonneg t : 0 <= t -> 0 <= E t.
Proof. intros H. apply RInt_ge_0; [exact H|apply gs_int|]. intros. apply Rlt_le, exp_pos. Qed.
Lemma exp_neg_bound x : 0 < x -> exp (- x) < / x.
Proof.
  intros H. rewrite exp_Ropp. apply Rinv_lt_contravar; [apply Rmult_lt_0_compat; [exact H|apply exp_pos]|].
  pose proof (exp_ineq1 x). lra.
Qed.
Lemma sqrtPI_pos : 0 < sqrt PI.
Proof. apply sqrt_lt_R0, PI_RGT_0. Qed.
Lemma E_lim eps : 0 < eps -> exists N, 0 < N /\ forall t, N < t -> Rabs (E t - sqrt PI / 2) < eps.
Proof.
  intros He. pose proof sqrtPI_pos as SP. set (s := sqrt PI / 2). assert (Hs : 0 < s) by (unfold s; lra).
  assert (Ss : s * s = PI / 4).
  { unfold s. replace (sqrt PI / 2 * (sqrt PI / 2)) with (sqrt PI * sqrt PI / 4) by field. rewrite sqrt_sqrt; [reflexivity|]. pose proof PI_RGT_0; lra. }
  exists (Rmax 1 (/ (s * eps))). split.
  { pose proof (Rmax_l 1 (/ (s * eps))). lra. }
  intros t Ht. pose proof (Rmax_l 1 (/ (s * eps))). pose proof (Rmax_r 1 (/ (s * eps))).
  assert (T1 : 1 < t) by lra. assert (T2 : / (s * eps) < t) by lra.
  pose proof (EG_const t) as C. pose proof (G_bound t) as [B1 B2]. pose proof (E_nonneg t ltac:(lra)) as En.
  assert (Bd : exp (- (t * t)) < / t).
  { apply Rlt_trans with (/ (t * t)); [apply exp_neg_bound; nra|]. apply Rinv_lt_contravar; nra. }
  assert (Pe : 0 < s * eps) by (apply Rmult_lt_0_compat; assumption).
  assert (Bt : / t < s * eps).
  { rewrite <- (Rinv_inv (s * eps)). apply Rinv_lt_contravar; [|exact T2].
    apply Rmult_lt_0_compat; [apply Rinv_0_lt_compat; exact Pe|lra]. }
  assert (K : (s - E t) * (s + E t) = G t) by (rewrite <- Ss in C; nra).
  assert (E t <= s) by nra.
  rewrite Rabs_left1 by lra. assert ((s - E t) * s <= G t) by nra. nra.
Qed.
Lemma gs_odd t : @eq R (RInt gs t 0) (E (- t)).
Proof.
  unfold E.
  assert (H : RInt (fun y => -1 * gs (-1 * y + 0)) 0 t = RInt gs (-1 * 0 + 0) (-1 * t + 0)) by (apply I_lin, gs_int).
  replace (-1 * 0 + 0) with 0 in H by ring. replace (-1 * t + 0) with (- t) in H by ring. rewrite <- H.
  rewrite <- (I_swap gs 0 t) by apply gs_int.
  rewrite (I_ext (fun y => -1 * gs (-1 * y + 0)) (fun x => -1 * gs x)).
  - rewrite I_scal by apply gs_int. ring.
  - intros x _. unfold gs. replace ((-1 * x + 0) * (-1 * x + 0)) with (x * x) by ring. ring.
Qed.
Lemma gauss0 : improper gs (sqrt PI).
Proof.
  split; [apply gs_int|]. intros eps He.
  destruct (E_lim (eps / 2) ltac:(lra)) as (N & PN & H). exists N. split; [exact PN|].
  intros a b Ha Hb. rewrite <- (I_chasles gs a 0 b) by apply gs_int.
  rewrite gs_odd. fold (E b). pose proof (H (- a) ltac:(lra)) as A. pose proof (H b Hb) as B.
  replace (E (- a) + E b - sqrt PI) with ((E (- a) - sqrt PI / 2) + (E b - sqrt PI / 2)) by field.
  eapply Rle_lt_trans; [apply Rabs_triang|]. lra.
Qed.

(** * rules *)
Lemma improper_ext f g v : (forall x, f x = g x) -> improper f v -> improper g v.
Proof.
  intros H (A & B). split.
  - intros a b. apply (exI_ext f); [|apply A]. intros; apply H.
  - intros eps He. destruct (B eps He) as (N & PN & HN). exists N. split; [exact PN|].
    intros a b Ha Hb. rewrite <- (I_ext f); [apply HN; assumption|]. intros; apply H.
Qed.
Lemma improper_scal f v c : improper f v -> improper (fun x => c * f x) (c * v).
Proof.
  intros (A & B). split.
  - intros a b. apply exI_scal, A.
  - intros eps He. pose proof (Rabs_pos c).
    destruct (B (eps / (Rabs c + 1))) as (N & PN & HN). { apply Rdiv_lt_0_compat; lra. }
    exists N. split; [exact PN|]. intros a b Ha Hb.
    rewrite I_scal by apply A.
    rewrite <- Rmult_minus_distr_l, Rabs_mult. specialize (HN a b Ha Hb).
    pose proof (Rabs_pos (RInt f a b - v)).
    apply Rle_lt_trans with (Rabs c * (eps / (Rabs c + 1))); [apply Rmult_le_compat_l; lra|].
    apply (Rmult_lt_reg_r (Rabs c + 1)); [lra|].
    replace (Rabs c * (eps / (Rabs c + 1)) * (Rabs c + 1)) with (Rabs c * eps) by (field; lra). nra.
Qed.
Lemma improper_lin f v k c : 0 < k -> improper f v -> improper (fun x => f (k * x + c)) (v / k).
Proof.
  intros Hk (A & B).
  assert (I : forall a b, ex_RInt (fun x => k * f (k * x + c)) a b).
  { intros a b. apply exI_lin, A. }
  assert (J : forall a b, ex_RInt (fun x => f (k * x + c)) a b).
  { intros a b. apply (exI_ext (fun x => / k * (k * f (k * x + c)))).
    - intros x _. field. lra.
    - apply exI_scal, I. }
  split; [exact J|]. intros eps He. destruct (B (eps * k)) as (N & PN & HN). { apply Rmult_lt_0_compat; assumption. }
  exists ((N + Rabs c) / k + 1). pose proof (Rabs_pos c). split.
  { assert (0 < (N + Rabs c) / k) by (apply Rdiv_lt_0_compat; lra). lra. }
  intros a b Ha Hb.
  assert (Ka : k * a + c < - N).
  { apply (Rmult_lt_compat_l k) in Ha; [|exact Hk]. rewrite Ropp_plus_distr, Rmult_plus_distr_l in Ha.
    replace (k * - ((N + Rabs c) / k)) with (- N - Rabs c) in Ha by (field; lra).
    pose proof (Rle_abs c). lra. }
  assert (Kb : N < k * b + c).
  { apply (Rmult_lt_compat_l k) in Hb; [|exact Hk]. rewrite Rmult_plus_distr_l in Hb.
    replace (k * ((N + Rabs c) / k)) with (N + Rabs c) in Hb by (field; lra).
    pose proof (Rle_abs (- c)). rewrite Rabs_Ropp in *. lra. }
  specialize (HN _ _ Ka Kb).
  assert (Q : k * RInt (fun x => f (k * x + c)) a b = RInt f (k * a + c) (k * b + c)).
  { rewrite <- I_scal by apply J. apply I_lin, A. }
  rewrite <- Q in HN.
  replace (RInt (fun x => f (k * x + c)) a b - v / k) with ((k * RInt (fun x => f (k * x + c)) a b - v) * / k) by (field; lra).
  rewrite Rabs_mult, (Rabs_pos_eq (/ k)) by (apply Rlt_le, Rinv_0_lt_compat; exact Hk).
  apply (Rmult_lt_reg_r k); [exact Hk|]. rewrite Rmult_assoc, Rinv_l, Rmult_1_r by lra. exact HN.
Qed.
Lemma improper_unique f v w : improper f v -> improper f w -> v = w.
Proof.
  intros (_ & A) (_ & B). destruct (Req_dec v w) as [e|n]; [exact e|exfalso].
  assert (P : 0 < Rabs (v - w) / 2) by (pose proof (Rabs_pos_lt (v - w)); lra).
  destruct (A _ P) as (N & PN & HN). destruct (B _ P) as (M & PM & HM).
  specialize (HN (- (N + M + 1)) (N + M + 1) ltac:(lra) ltac:(lra)).
  specialize (HM (- (N + M + 1)) (N + M + 1) ltac:(lra) ltac:(lra)).
  set (r := RInt f (- (N + M + 1)) (N + M + 1)) in *.
  pose proof (Rabs_triang (v - r) (r - w)) as T. replace (v - r + (r - w)) with (v - w) in T by ring.
  rewrite (Rabs_minus_sym v r) in T. lra.
Qed.
(** Gaussian with linear term *)
Lemma gauss_quad alpha beta : 0 < alpha ->
  improper (fun x => exp (- (alpha * (x * x) - 2 * beta * x) / 2)) (sqrt (2 * PI / alpha) * exp (beta * beta / alpha / 2)).
Proof.
  intros Ha. set (k := sqrt (alpha / 2)).
  assert (Hk : 0 < k) by (apply sqrt_lt_R0; lra).
  assert (Kk : k * k = alpha / 2) by (apply sqrt_sqrt; lra).
  pose proof (improper_lin gs (sqrt PI) k (- beta / (2 * k)) Hk gauss0) as L.
  apply (improper_scal _ _ (exp (beta * beta / alpha / 2))) in L.
  replace (sqrt (2 * PI / alpha) * exp (beta * beta / alpha / 2)) with (exp (beta * beta / alpha / 2) * (sqrt PI / k)).
  - revert L. apply improper_ext. intros x. unfold gs. rewrite <- exp_plus. f_equal.
    assert (Kb : beta * beta / alpha / 2 = (beta / (2 * k)) * (beta / (2 * k))).
    { replace (beta / (2 * k) * (beta / (2 * k))) with (beta * beta / (4 * (k * k))) by (field; lra). rewrite Kk. field; lra. }
    rewrite Kb. replace alpha with (2 * (k * k)) by lra. field. lra.
  - rewrite Rmult_comm. f_equal. unfold k. rewrite <- sqrt_div_alt by lra. f_equal. field. lra.
Qed.
