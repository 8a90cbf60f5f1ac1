(** Proofs about the FFTLog kernels and the gamma function: conjugation, non-vanishing and unimodularity. *)
From Coq Require Import Reals List Bool Lra Lia.
From Coquelicot Require Import Complex.
From Verif Require Import Base_R Base_C M_Kernels.
Import ListNotations.
Local Open Scope R_scope.
Local Open Scope C_scope.

Lemma cexp_plus a b : cexp (a + b) = cexp a * cexp b.
Proof. unfold cexp. change (Re (a + b)) with (Re a + Re b)%R. change (Im (a + b)) with (Im a + Im b)%R. rewrite exp_plus, cexpi_add, RtoC_mult. ring. Qed.
Lemma cexp_conj z : cexp (Cconj z) = Cconj (cexp z).
Proof. unfold cexp. rewrite Cconj_mult, Cconj_RtoC, Cconj_cexpi. reflexivity. Qed.
Lemma cexp_mod z : Cmod (cexp z) = exp (Re z).
Proof. unfold cexp. rewrite Cmod_mult, Cmod_cexpi, Rmult_1_r, Cmod_R. apply Rabs_pos_eq. left. apply exp_pos. Qed.
Lemma cexp_neq0 z : cexp z <> 0.
Proof. apply Cmod_pos_neq. rewrite cexp_mod. apply exp_pos. Qed.
Lemma cexp_0 : cexp 0 = RtoC 1.
Proof. unfold cexp. simpl. rewrite exp_0, cexpi_0. ring. Qed.
Lemma cexp_opp z : cexp (- z) = / cexp z.
Proof.
  assert (H : cexp (- z) * cexp z = RtoC 1) by (rewrite <- cexp_plus; replace (- z + z) with (RtoC 0) by ring; apply cexp_0).
  pose proof (cexp_neq0 z). rewrite <- (Cmult_1_l (/ cexp z)), <- H. field. auto.
Qed.
Lemma Cmod_eq0 (z : C) : Cmod z = 0%R <-> z = 0.
Proof. split; [apply Cmod_eq_0|intros ->; apply Cmod_0]. Qed.
Lemma clog_some (z : C) : z <> 0 -> exists l, clog z = Some l /\ cexp l = z.
Proof.
  intros H. unfold clog. destruct (Reqb_spec (Cmod z) 0) as [E|E]; [apply Cmod_eq_0 in E; contradiction|]. eexists; split; [reflexivity|].
  assert (P : 0 < Cmod z) by (apply Cmod_gt_0; auto). unfold cexp. cbn [Re Im fst snd]. rewrite exp_ln by auto.
  destruct z as [x y]. unfold carg. cbn [Re Im fst snd].
  assert (Q : Cmod (x, y) = sqrt (x * x + y * y)) by (unfold Cmod; cbn [fst snd]; f_equal; ring). set (m := Cmod (x, y)) in *.
  assert (M2 : (m * m = x * x + y * y)%R) by (rewrite Q; apply sqrt_sqrt; nra).
  assert (K : forall w, (0 < w)%R -> (m = w * sqrt (1 + (y / x) * (y / x)))%R -> (w = x \/ w = - x)%R -> x <> 0%R -> (cos (atan (y / x)) = w / m /\ sin (atan (y / x)) = w / m * (y / x))%R).
  { intros w Hw Hm Hs Hx. assert (0 < sqrt (1 + (y / x) * (y / x)))%R by (apply sqrt_lt_R0; nra). rewrite cos_atan, sin_atan. 
    replace (1 + (y / x)²)%R with (1 + (y / x) * (y / x))%R by (unfold Rsqr; ring). rewrite Hm. split; field; split; auto; lra. }
  destruct (Rltb_spec 0 x) as [Hx|Hx].
  - destruct (K x) as [K1 K2]; auto; [|lra|].
    { apply Rsqr_inj; [lra|apply Rmult_le_pos; [lra|apply sqrt_pos]|]. unfold Rsqr. replace (x * sqrt (1 + y / x * (y / x)) * (x * sqrt (1 + y / x * (y / x))))%R with (x * x * (sqrt (1 + y / x * (y / x)) * sqrt (1 + y / x * (y / x))))%R by ring.
      rewrite sqrt_sqrt by nra. rewrite M2. field. lra. }
    unfold cexpi. rewrite K1, K2. apply Ceq; simpl; field; lra.
  - destruct (Rltb_spec x 0) as [Hx2|Hx2].
    + destruct (K (- x)%R) as [K1 K2]; auto; [lra| |lra|].
      { apply Rsqr_inj; [lra|apply Rmult_le_pos; [lra|apply sqrt_pos]|]. unfold Rsqr. replace (- x * sqrt (1 + y / x * (y / x)) * (- x * sqrt (1 + y / x * (y / x))))%R with (x * x * (sqrt (1 + y / x * (y / x)) * sqrt (1 + y / x * (y / x))))%R by ring.
        rewrite sqrt_sqrt by nra. rewrite M2. field. lra. }
      destruct (Rltb_spec y 0); unfold cexpi.
      * replace (atan (y / x) - PI)%R with (- (PI - atan (y / x)))%R by ring. rewrite cos_neg, sin_neg, Rtrigo_facts.cos_pi_minus, Rtrigo_facts.sin_pi_minus, K1, K2. apply Ceq; simpl; field; lra.
      * rewrite neg_cos, neg_sin, K1, K2. apply Ceq; simpl; field; lra.
    + assert (x = 0%R) by lra. subst x. assert (Ha : m = Rabs y) by (rewrite Q, <- (Rplus_0_l (y * y)), Rmult_0_r, Rplus_0_l, Rplus_0_l; apply sqrt_Rsqr_abs).
      destruct (Rltb_spec y 0); unfold cexpi; rewrite ?cos_neg, ?sin_neg, cos_PI2, sin_PI2, Ha.
      * rewrite Rabs_left by auto. apply Ceq; simpl; ring.
      * rewrite Rabs_pos_eq by lra. apply Ceq; simpl; ring.
Qed.
Lemma clog_conj z l : 0 < Re z -> clog z = Some l -> clog (Cconj z) = Some (Cconj l).
Proof.
  intros H. unfold clog. rewrite Cmod_conj. destruct (Reqb_spec (Cmod z) 0); [discriminate|]. intros E. injection E as <-. f_equal. apply Ceq; [reflexivity|].
  cbn [fst snd Cconj]. unfold carg. change (Re (Cconj z)) with (Re z). change (Im (Cconj z)) with (- Im z)%R. destruct (Rltb_spec 0 (Re z)); [|lra].
  replace (- Im z / Re z)%R with (- (Im z / Re z))%R by (field; lra). apply atan_opp.
Qed.
Lemma Re_pos_neq0 (z : C) : 0 < Re z -> z <> 0.
Proof. intros H E. subst z. simpl in H. lra. Qed.
Lemma cinv_some (z : C) : z <> 0 -> cinv z = Some (/ z).
Proof. intros H. unfold cinv. destruct (Reqb_spec (Cmod z) 0) as [E|]; [apply Cmod_eq_0 in E; contradiction|reflexivity]. Qed.

Lemma series_conj a t t2 : Forall (fun c => Cconj c = c) a -> gamma_series a (Cconj t) (Cconj t2) = Cconj (gamma_series a t t2).
Proof.
  revert t; induction a as [|c a IH]; intros t H; cbn [gamma_series]; [symmetry; apply Cconj_RtoC|]. inversion H as [|? ? H1 H2]; subst.
  rewrite Cconj_plus, Cconj_div, H1. rewrite <- IH by auto. rewrite Cconj_mult. reflexivity.
Qed.
Lemma prod_conj (z : C) l : prodC (map (fun i => Cconj z + RtoC (INR i)) l) = Cconj (prodC (map (fun i => z + RtoC (INR i)) l)).
Proof. induction l as [|a l IH]; cbn [map prodC]; [symmetry; apply Cconj_RtoC|]. rewrite IH, Cconj_mult, Cconj_plus, Cconj_RtoC. reflexivity. Qed.
Lemma prod_neq0 (z : C) l : 0 < Re z -> prodC (map (fun i => z + RtoC (INR i)) l) <> 0.
Proof.
  intros H. induction l as [|a l IH]; cbn [map prodC]; [apply C1_neq0|]. apply Cmult_neq_0; auto. apply Re_pos_neq0.
  change (Re (z + RtoC (INR a))) with (Re z + INR a)%R. pose proof (pos_INR a). lra.
Qed.
(** the shape of the approximation, free of the logarithm of the product *)
Definition gamma_top (z : C) (logt : C) : C :=
  let t := z + RtoC (INR 16) in RtoC (ln (2 * PI) / 2) - t + (t - RtoC 0.5) * logt + gamma_series gamma_a t (t * t).
Lemma gamma_case_val z : 0 < Re z -> exists logt, clog (z + RtoC (INR 16)) = Some logt /\
  gamma_case z = Some (cexp (gamma_top z logt) / prodC (map (fun i => z + RtoC (INR i)) (seq 0 16))).
Proof.
  intros H. assert (Ht : 0 < Re (z + RtoC (INR 16))) by (change (Re (z + RtoC (INR 16))) with (Re z + INR 16)%R; pose proof (pos_INR 16); lra).
  destruct (clog_some _ (Re_pos_neq0 _ Ht)) as (lt & E1 & _). destruct (clog_some _ (prod_neq0 z (seq 0 16) H)) as (lu & E2 & E3).
  exists lt. split; auto. unfold gamma_case. cbv zeta. rewrite E1. cbn [cbind]. rewrite E2. cbn [cbind]. f_equal. unfold Cdiv. rewrite <- E3, <- cexp_opp, <- cexp_plus. f_equal. unfold gamma_top. cbv zeta. ring.
Qed.
Lemma gamma_a_real : Forall (fun c => Cconj c = c) gamma_a.
Proof. repeat constructor; apply Cconj_RtoC. Qed.
Lemma gamma_conj (z : C) : 0 < Re z -> exists v, gamma_ z = Some v /\ gamma_ (Cconj z) = Some (Cconj v) /\ v <> 0.
Proof.
  intros H. unfold gamma_. change (Re (Cconj z)) with (Re z). destruct (Rleb_spec (Re z) 0); [lra|].
  destruct (gamma_case_val z H) as (lt & E1 & E2). destruct (gamma_case_val (Cconj z) H) as (lt' & E1' & E2').
  eexists; split; [exact E2|]. split.
  - rewrite E2'. f_equal. rewrite Cconj_div, prod_conj. f_equal. rewrite <- cexp_conj. f_equal. unfold gamma_top. cbv zeta.
    replace (Cconj z + RtoC (INR 16)) with (Cconj (z + RtoC (INR 16))) in * by (rewrite Cconj_plus, Cconj_RtoC; reflexivity).
    assert (Ht : 0 < Re (z + RtoC (INR 16))) by (change (Re (z + RtoC (INR 16))) with (Re z + INR 16)%R; pose proof (pos_INR 16); lra).
    rewrite (clog_conj _ _ Ht E1) in E1'. injection E1' as <-.
    rewrite <- Cconj_mult, series_conj by apply gamma_a_real. rewrite !Cconj_plus, !Cconj_minus, Cconj_mult, !Cconj_minus, !Cconj_RtoC, !Cconj_plus, !Cconj_RtoC. reflexivity.
  - apply Cmult_neq_0; [apply cexp_neq0|]. apply Cinv_neq_0 || idtac. intros E.
    pose proof (prod_neq0 z (seq 0 16) H) as Hp. assert (Q : prodC (map (fun i => z + RtoC (INR i)) (seq 0 16)) * / prodC (map (fun i => z + RtoC (INR i)) (seq 0 16)) = RtoC 1) by (field; auto).
    rewrite E in Q. apply C1_neq0. rewrite <- Q. ring.
Qed.

Lemma anti_conj_mod (e : C) : Cconj e = - e -> Cmod (cexp e) = 1%R.
Proof. intros H. rewrite cexp_mod. assert (E : Re e = (- Re e)%R) by exact (f_equal Re H). replace (Re e) with 0%R by lra. apply exp_0. Qed.
(** [Gamma (1/2 + i t) / Gamma (1/2 - i t)], in both branches *)
Lemma ratio_unit (gamma : C -> option C) t : (forall z : C, 0 < Re z -> exists v, gamma z = Some v /\ gamma (Cconj z) = Some (Cconj v) /\ v <> 0) ->
  exists v, g_m_vals gamma 0 (0%R, t) = Some v /\ Cmod v = 1%R /\ g_m_vals gamma 0 (0%R, (- t)%R) = Some (Cconj v).
Proof.
  intros HG. unfold g_m_vals. cbv zeta. cbn [Re Im fst snd]. destruct (Reqb_spec 0 (0 + 1)); [lra|]. cbn [andb]. rewrite Rabs_Ropp.
  set (a := (RtoC (0 + 1) + (0%R, t)) / RtoC 2).
  assert (Hm : (RtoC (0 + 1) - (0%R, t)) / RtoC 2 = Cconj a) by (unfold a; apply Ceq; simpl; field).
  assert (Hp' : (RtoC (0 + 1) + (0%R, (- t)%R)) / RtoC 2 = Cconj a) by (unfold a; apply Ceq; simpl; field).
  assert (Hm' : (RtoC (0 + 1) - (0%R, (- t)%R)) / RtoC 2 = a) by (unfold a; apply Ceq; simpl; field). rewrite Hm, Hp', Hm'.
  assert (Ha : 0 < Re a) by (unfold a; simpl; lra). assert (Ha' : 0 < Re (Cconj a)) by exact Ha.
  destruct (Rltb_spec 200 (Rabs t + Rabs 0)).
  - destruct (clog_some a (Re_pos_neq0 a Ha)) as (l & E & _). pose proof (clog_conj a l Ha E) as E'. unfold stirling_ratio. rewrite E, E'. cbn [cbind]. eexists; split; [reflexivity|].
    assert (Q : forall x y : R, Cconj ((0%R, x) : C) = (0%R, (- x)%R) /\ Cconj (coeff x y) = coeff x y) by (intros; split; [reflexivity|apply Cconj_RtoC]).
    assert (Qt : ((0%R, (- t)%R) : C) = - ((0%R, t) : C)) by (apply Ceq; simpl; ring).
    split.
    + apply anti_conj_mod. rewrite !Cconj_plus, !Cconj_minus, !Cconj_mult, !Cconj_minus, !Cconj_inv, !Cconj_pow, !Cconj_conj, !Cconj_RtoC.
      rewrite (proj1 (Q t 1)), !(proj2 (Q _ _)), Qt. ring.
    + f_equal. rewrite <- cexp_conj. f_equal. rewrite !Cconj_plus, !Cconj_minus, !Cconj_mult, !Cconj_minus, !Cconj_inv, !Cconj_pow, !Cconj_conj, !Cconj_RtoC.
      rewrite (proj1 (Q t 1)), !(proj2 (Q _ _)), Qt. ring.
  - destruct (HG a Ha) as (v & E & E' & Hv). rewrite E, E'. cbn [cbind]. rewrite !cinv_some by (auto; apply Cconj_neq0; auto). cbn [cbind]. eexists; split; [reflexivity|]. split.
    + rewrite Cmod_mult, Cmod_inv, Cmod_conj by (apply Cconj_neq0; auto). pose proof (proj1 (Cmod_gt_0 v) Hv). field. lra.
    + rewrite Cconj_mult, Cconj_inv, Cconj_conj. reflexivity.
Qed.
(** the kernel of the order-zero Hankel transform at bias 3/2 has constant modulus and the conjugation symmetry of a real transform *)
Lemma kernel_unit (gamma : C -> option C) t : (forall z : C, 0 < Re z -> exists v, gamma z = Some v /\ gamma (Cconj z) = Some (Cconj v) /\ v <> 0) ->
  exists v, g_l gamma (0 - 0.5) (1.5%R, t) = Some v /\ (Cmod v * Cmod v = 8)%R /\ g_l gamma (0 - 0.5) (1.5%R, (- t)%R) = Some (Cconj v).
Proof.
  intros HG. destruct (ratio_unit gamma t HG) as (v & E & M & E'). unfold g_l.
  replace (0 - 0.5 + 0.5)%R with 0%R by lra.
  assert (Q : forall x : R, ((1.5%R, x) : C) - RtoC 1.5 = (0%R, x)) by (intros; apply Ceq; simpl; lra). rewrite !Q, E, E'. cbn [cbind]. eexists; split; [reflexivity|]. split.
  - unfold cpow2. rewrite !Cmod_mult, M, Cmod_cexpi, Cmod_R. cbn [Re fst]. rewrite Rabs_pos_eq by (left; apply exp_pos).
    replace (Rpower 2 1.5 * 1 * 1 * (Rpower 2 1.5 * 1 * 1))%R with (Rpower 2 1.5 * Rpower 2 1.5)%R by ring. rewrite <- Rpower_plus.
    replace (1.5 + 1.5)%R with (INR 3) by (simpl; lra). rewrite Rpower_pow by lra. simpl. ring.
  - f_equal. rewrite Cconj_mult. f_equal. unfold cpow2. rewrite Cconj_mult, Cconj_RtoC, Cconj_cexpi. cbn [Re Im fst snd]. do 2 f_equal. ring.
Qed.

(** ** kernels of the derivatives *)
Lemma cpow2_m1 z : cpow2 (z - RtoC 1) = cpow2 z / RtoC 2.
Proof.
  unfold cpow2. change (Re (z - RtoC 1)) with (Re z - 1)%R. replace (Im (z - RtoC 1)) with (Im z) by (destruct z; simpl; ring).
  unfold Rminus. rewrite Rpower_plus, Rpower_Ropp, Rpower_1 by lra. apply Ceq; simpl; field.
Qed.
Lemma g_l_1_parts gamma l z : g_l_1 gamma l z = option_map (fun v => - (z - RtoC 1) * v) (g_l gamma l (z - RtoC 1)).
Proof.
  unfold g_l_1, g_l. replace (z - RtoC 1 - RtoC 1.5) with (z - RtoC 2.5) by (apply Ceq; simpl; lra). destruct (g_m_vals gamma (l + 0.5) (z - RtoC 2.5)); [|reflexivity].
  cbn [cbind option_map]. f_equal. ring.
Qed.
Lemma g_l_2_parts gamma l z : g_l_2 gamma l z = option_map (fun v => - (z - RtoC 1) * v) (g_l_1 gamma l (z - RtoC 1)).
Proof.
  unfold g_l_2, g_l_1. replace (z - RtoC 1 - RtoC 2.5) with (z - RtoC 3.5) by (apply Ceq; simpl; lra). destruct (g_m_vals gamma (l + 0.5) (z - RtoC 3.5)); [|reflexivity].
  cbn [cbind option_map]. f_equal. replace (z - RtoC 1 - RtoC 1) with (z - RtoC 2) by (apply Ceq; simpl; lra). ring.
Qed.
(** the mask for the poles catches whole vertical lines *)
Lemma gamma_lines n y : gamma_ (((- INR n)%R, y) : C) = None.
Proof.
  unfold gamma_. cbn [Re fst]. pose proof (pos_INR n). destruct (Rleb_spec (- INR n) 0); [|lra].
  destruct (Reqb_spec (- INR n) (IZR (Int_part (- INR n)))) as [|N]; [reflexivity|]. exfalso. apply N. rewrite INR_IZR_INZ, <- opp_IZR. f_equal. 
  destruct (base_Int_part (IZR (- Z.of_nat n))) as [A B]. apply Z.le_antisymm.
  - apply Z.lt_succ_r. apply lt_IZR. rewrite succ_IZR. lra.
  - apply le_IZR. lra.
Qed.
