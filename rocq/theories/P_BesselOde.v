(** Error of an asymptotic approximation of a Bessel function: residual in the differential equation, energy estimate. *)
From Coq Require Import Reals Lra.
From Coquelicot Require Import Coquelicot.
Local Open Scope R_scope.

(** ** energy estimate *)
Lemma weighted (D : R -> R) (t d c k : R) : 0 < t -> 0 < c -> is_derive D t d -> is_derive (fun x => (D x + k / c) * exp (c / x)) t (exp (c / t) * (d - (c * D t + k) / t ^ 2)).
Proof.
  intros Ht Hc Dt. auto_derive.
  - repeat split; [eexists; eassumption|lra].
  - replace (Derive (fun x => D x) t) with d by (symmetry; apply is_derive_unique; exact Dt). change (c * / t) with (c / t). field. repeat split; lra.
Qed.
Section Energy.
Variables (e e1 g : R -> R) (x0 c k : R).
Hypothesis Hx0 : 0 < x0. Hypothesis Hc : 0 < c. Hypothesis Hk : 0 <= k.
Hypothesis He : forall x, x0 <= x -> is_derive e x (e1 x).
Hypothesis He1 : forall x, x0 <= x -> is_derive e1 x (g x - e x).
Hypothesis Hg : forall x, x0 <= x -> Rabs (g x) <= (k + c * Rabs (e x)) / x ^ 2.
Variable eta : R. Hypothesis Heta : 0 < eta.
Let D x := sqrt (e1 x ^ 2 + e x ^ 2 + eta ^ 2).
Lemma D_pos x : 0 < e1 x ^ 2 + e x ^ 2 + eta ^ 2.
Proof. nra. Qed.
Lemma D_ge x : 0 < D x /\ Rabs (e x) <= D x /\ Rabs (e1 x) <= D x.
Proof.
  unfold D. pose proof (D_pos x). split; [apply sqrt_lt_R0; auto|]. split; rewrite <- sqrt_Rsqr_abs; apply sqrt_le_1; unfold Rsqr; nra.
Qed.
Lemma D_derive x : x0 <= x -> is_derive D x (e1 x * g x / D x).
Proof.
  intros Hx. unfold D. pose proof (D_pos x) as P. pose proof (He x Hx) as E0. pose proof (He1 x Hx) as E1.
  pose proof (sqrt_lt_R0 _ P) as SP. auto_derive.
  - repeat split; try (eexists; eassumption). simpl in P |- *. lra.
  - replace (Derive (fun x => e1 x) x) with (g x - e x) by (symmetry; apply is_derive_unique; exact E1).
    replace (Derive (fun x => e x) x) with (e1 x) by (symmetry; apply is_derive_unique; exact E0).
    simpl in *. field. lra.
Qed.
Lemma energy x : x0 <= x -> Rabs (e x) <= (D x0 + k / c) * exp (c / x0) - k / c.
Proof.
  intros Hx. set (H := fun x => (D x + k / c) * exp (c / x)).
  assert (HD : forall t, x0 <= t -> is_derive H t (exp (c / t) * (e1 t * g t / D t - (c * D t + k) / t ^ 2))).
  { intros t Ht. apply weighted; [lra|lra|apply D_derive; auto]. }
  assert (M : H x <= H x0).
  { destruct (Req_dec x x0) as [->|N]; [lra|]. destruct (MVT_gen H x0 x (fun t => exp (c / t) * (e1 t * g t / D t - (c * D t + k) / t ^ 2))) as (t & Ht & Et).
    - intros t Ht. rewrite Rmin_left in Ht by lra. apply HD; lra.
    - intros t Ht. rewrite Rmin_left in Ht by lra. apply continuity_pt_filterlim. apply (ex_derive_continuous (K := R_AbsRing) (V := R_NormedModule)). eexists. apply HD. lra.
    - rewrite Rmin_left, Rmax_right in Ht by lra. destruct (D_ge t) as (P & A & B). pose proof (Hg t ltac:(lra)) as Hgt. pose proof (exp_pos (c / t)).
      assert (T2 : 0 < t ^ 2) by nra.
      assert (Q : e1 t * g t / D t <= (c * D t + k) / t ^ 2).
      { apply Rle_trans with (Rabs (g t)). - apply (Rmult_le_reg_r (D t)); auto. unfold Rdiv. rewrite Rmult_assoc, Rinv_l by lra. rewrite Rmult_1_r. eapply Rle_trans; [apply Rle_abs|]. rewrite Rabs_mult, Rmult_comm. apply Rmult_le_compat_l; [apply Rabs_pos|auto].
        - eapply Rle_trans; [exact Hgt|]. unfold Rdiv. apply Rmult_le_compat_r; [left; apply Rinv_0_lt_compat; auto|]. pose proof (Rmult_le_compat_l c _ _ (Rlt_le _ _ Hc) A). lra. }
      assert (exp (c / t) * (e1 t * g t / D t - (c * D t + k) / t ^ 2) * (x - x0) <= 0); [|lra]. apply Rmult_le_0_r; [|lra]. apply Ropp_le_cancel. rewrite Ropp_0, <- Ropp_mult_distr_r_reverse. apply Rmult_le_pos; lra. }
  unfold H in M. destruct (D_ge x) as (P & A & _). assert (1 <= exp (c / x)). { rewrite <- exp_0. left; apply exp_increasing. apply Rdiv_lt_0_compat; lra. }
  assert (0 <= k / c) by (apply Rmult_le_pos; [auto|left; apply Rinv_0_lt_compat; auto]). pose proof (Rmult_le_compat_l (D x + k / c) 1 (exp (c / x)) ltac:(lra) ltac:(auto)). lra.
Qed.
End Energy.

(** ** the residual *)
Section Residual.
Variables (a a1 a2 b b1 b2 J J' : R -> R) (nu2 phi K : R).
Hypothesis Ha : forall q, 0 < q -> is_derive a q (a1 q).
Hypothesis Ha1 : forall q, 0 < q -> is_derive a1 q (a2 q).
Hypothesis Hb : forall q, 0 < q -> is_derive b q (b1 q).
Hypothesis Hb1 : forall q, 0 < q -> is_derive b1 q (b2 q).
Hypothesis HJ : forall x, 0 < x -> is_derive J x (J' x).
Hypothesis HJ' : forall x, 0 < x -> is_derive J' x (- J' x / x - (1 - nu2 / x ^ 2) * J x).
Let mu := 1 / 4 - nu2.
Definition err (x : R) : R := a (25 / x ^ 2) * cos (x - phi) - 5 / x * b (25 / x ^ 2) * sin (x - phi) - K * (sqrt x * J x).
Definition err1 (x : R) : R := let q := 25 / x ^ 2 in
  (- 2 * q / x * a1 q - 5 / x * b q) * cos (x - phi) - (a q - 5 / x ^ 2 * (b q + 2 * q * b1 q)) * sin (x - phi)
  - K * (J x / (2 * sqrt x) + sqrt x * J' x).
Definition res1 q := 4 * q ^ 2 * a2 q + 6 * q * a1 q + 10 * (b q + 2 * q * b1 q) + mu * a q.
Definition res2 q := (2 + mu) * b q + 10 * q * b1 q + 4 * q ^ 2 * b2 q - 20 * a1 q.
Definition force (x : R) : R := let q := 25 / x ^ 2 in
  (res1 q * cos (x - phi) - 5 / x * res2 q * sin (x - phi) - mu * err x) / x ^ 2.
Lemma q_derive (x : R) : 0 < x -> is_derive (fun x => 25 / x ^ 2) x (- 2 * (25 / x ^ 2) / x).
Proof. intros H. auto_derive. nra. field. lra. Qed.
Lemma err_derive (x : R) : 0 < x -> is_derive err x (err1 x).
Proof.
  intros H. assert (Q : 0 < 25 / x ^ 2) by (apply Rdiv_lt_0_compat; nra). pose proof (q_derive x H) as Dq.
  pose proof (is_derive_comp a _ x _ _ (Ha _ Q) Dq) as DA. pose proof (is_derive_comp b _ x _ _ (Hb _ Q) Dq) as DB.
  unfold scal in DA, DB; simpl in DA, DB; unfold mult in DA, DB; simpl in DA, DB. pose proof (HJ x H) as DJ. pose proof (sqrt_lt_R0 x H) as S. pose proof (sqrt_sqrt x ltac:(lra)) as SS.
  unfold err, err1. set (A := fun x => a (25 / x ^ 2)). set (B := fun x => b (25 / x ^ 2)).
  apply (is_derive_ext (fun x => A x * cos (x - phi) - 5 / x * B x * sin (x - phi) - K * (sqrt x * J x))); [reflexivity|].
  auto_derive.
  - repeat split; try lra; eexists; [exact DA|exact DB|exact DJ].
  - replace (Derive (fun x => A x) x) with (- 2 * (25 / (x * (x * 1))) / x * a1 (25 / (x * (x * 1)))) by (symmetry; apply is_derive_unique; exact DA).
    replace (Derive (fun x => B x) x) with (- 2 * (25 / (x * (x * 1))) / x * b1 (25 / (x * (x * 1)))) by (symmetry; apply is_derive_unique; exact DB).
    replace (Derive (fun x => J x) x) with (J' x) by (symmetry; apply is_derive_unique; exact DJ).
    unfold A, B. simpl. change (x + - phi) with (x - phi). set (q := 25 / (x * (x * 1))). field. split; lra.
Qed.
Lemma err1_derive (x : R) : 0 < x -> is_derive err1 x (force x - err x).
Proof.
  intros H. assert (Q : 0 < 25 / x ^ 2) by (apply Rdiv_lt_0_compat; nra). pose proof (q_derive x H) as Dq.
  pose proof (is_derive_comp a _ x _ _ (Ha _ Q) Dq) as DA. pose proof (is_derive_comp b _ x _ _ (Hb _ Q) Dq) as DB.
  pose proof (is_derive_comp a1 _ x _ _ (Ha1 _ Q) Dq) as DA1. pose proof (is_derive_comp b1 _ x _ _ (Hb1 _ Q) Dq) as DB1.
  unfold scal in DA, DB, DA1, DB1; simpl in DA, DB, DA1, DB1; unfold mult in DA, DB, DA1, DB1; simpl in DA, DB, DA1, DB1. pose proof (HJ x H) as DJ. pose proof (HJ' x H) as DJ'. pose proof (sqrt_lt_R0 x H) as S. pose proof (sqrt_sqrt x ltac:(lra)) as SS.
  unfold force, err, err1. cbv zeta. set (A := fun x => a (25 / x ^ 2)). set (B := fun x => b (25 / x ^ 2)). set (A1 := fun x => a1 (25 / x ^ 2)). set (B1 := fun x => b1 (25 / x ^ 2)).
  apply (is_derive_ext (fun x => (- 2 * (25 / x ^ 2) / x * A1 x - 5 / x * B x) * cos (x - phi) - (A x - 5 / x ^ 2 * (B x + 2 * (25 / x ^ 2) * B1 x)) * sin (x - phi) - K * (J x / (2 * sqrt x) + sqrt x * J' x))); [reflexivity|].
  auto_derive.
  - repeat split; try nra; eexists; first [exact DA|exact DB|exact DJ|exact DA1|exact DB1|exact DJ'].
  - replace (Derive (fun x => A x) x) with (- 2 * (25 / (x * (x * 1))) / x * a1 (25 / (x * (x * 1)))) by (symmetry; apply is_derive_unique; exact DA).
    replace (Derive (fun x => B x) x) with (- 2 * (25 / (x * (x * 1))) / x * b1 (25 / (x * (x * 1)))) by (symmetry; apply is_derive_unique; exact DB).
    replace (Derive (fun x => A1 x) x) with (- 2 * (25 / (x * (x * 1))) / x * a2 (25 / (x * (x * 1)))) by (symmetry; apply is_derive_unique; exact DA1).
    replace (Derive (fun x => B1 x) x) with (- 2 * (25 / (x * (x * 1))) / x * b2 (25 / (x * (x * 1)))) by (symmetry; apply is_derive_unique; exact DB1).
    replace (Derive (fun x => J x) x) with (J' x) by (symmetry; apply is_derive_unique; exact DJ).
    replace (Derive (fun x => J' x) x) with (- J' x / x - (1 - nu2 / x ^ 2) * J x) by (symmetry; apply is_derive_unique; exact DJ').
    unfold A, B, A1, B1, res1, res2, mu. simpl. change (x + - phi) with (x - phi). set (va := a _). set (vb := b _). set (va1 := a1 _). set (vb1 := b1 _). set (va2 := a2 _). set (vb2 := b2 _). clearbody va vb va1 vb1 va2 vb2. clear - H S SS.
    set (s := sqrt x) in *. rewrite <- SS. clearbody s. set (C := cos _). set (I := sin _). set (j := J _). set (j' := J' _). clearbody C I j j'. field. nra.
Qed.
End Residual.

(** ** the bound *)
Lemma exp_small : exp (3 / 4 / 5) <= 1.18.
Proof.
  assert (H : exp (3 / 4 / 5) * exp (- (3 / 4 / 5)) = 1) by (rewrite <- exp_plus, Rplus_opp_r; apply exp_0).
  pose proof (exp_ineq1_le (- (3 / 4 / 5))) as L. pose proof (exp_pos (3 / 4 / 5)). nra.
Qed.
Theorem err_bound (a a1 a2 b b1 b2 J J' : R -> R) (nu2 phi K k1 k2 : R) :
  (forall q, 0 < q -> is_derive a q (a1 q)) -> (forall q, 0 < q -> is_derive a1 q (a2 q)) ->
  (forall q, 0 < q -> is_derive b q (b1 q)) -> (forall q, 0 < q -> is_derive b1 q (b2 q)) ->
  (forall x, 0 < x -> is_derive J x (J' x)) -> (forall x, 0 < x -> is_derive J' x (- J' x / x - (1 - nu2 / x ^ 2) * J x)) ->
  Rabs (1 / 4 - nu2) <= 3 / 4 -> (forall q, 0 < q <= 1 -> Rabs (res1 a a1 a2 b b1 nu2 q) <= k1) -> (forall q, 0 < q <= 1 -> Rabs (res2 a1 b b1 b2 nu2 q) <= k2) ->
  forall x, 5 <= x -> Rabs (err a b J phi K x) <= 1.18 * (Rabs (err1 a a1 b b1 J J' phi K 5) + Rabs (err a b J phi K 5)) + 0.24 * (k1 + k2).
Proof.
  intros Ha Ha1 Hb Hb1 HJ HJ' Hmu H1 H2 x Hx. set (e := err a b J phi K). set (e1 := err1 a a1 b b1 J J' phi K). fold (e x). fold (e 5). fold (e1 5).
  assert (Hk1 : 0 <= k1) by (eapply Rle_trans; [apply Rabs_pos|apply (H1 1); lra]). assert (Hk2 : 0 <= k2) by (eapply Rle_trans; [apply Rabs_pos|apply (H2 1); lra]).
  assert (T : forall eta, 0 < eta -> Rabs (e x) <= 1.18 * (Rabs (e1 5) + Rabs (e 5) + eta) + 0.24 * (k1 + k2)).
  { intros eta Heta. eapply Rle_trans. { apply (energy e e1 (force a a1 a2 b b1 b2 J nu2 phi K) 5 (3 / 4) (k1 + k2)) with (eta := eta); try lra.
      - intros t Ht. apply err_derive; auto; lra. - intros t Ht. apply err1_derive with (nu2 := nu2); auto; lra.
      - intros t Ht. unfold force. cbv zeta. assert (T2 : 0 < t ^ 2) by nra. unfold Rdiv at 1. rewrite Rabs_mult, Rabs_inv, (Rabs_pos_eq (t ^ 2)) by lra. apply Rmult_le_compat_r; [left; apply Rinv_0_lt_compat; auto|].
        assert (Q : 0 < 25 / t ^ 2 <= 1). { split; [apply Rdiv_lt_0_compat; lra|]. apply (Rmult_le_reg_r (t ^ 2)); auto. unfold Rdiv. rewrite Rmult_assoc, Rinv_l by lra. nra. }
        specialize (H1 _ Q). specialize (H2 _ Q). fold e. set (v1 := res1 _ _ _ _ _ _ _) in *. set (v2 := res2 _ _ _ _ _ _) in *. 
        assert (C : Rabs (v1 * cos (t - phi)) <= k1). { rewrite Rabs_mult. pose proof (COS_bound (t - phi)). assert (Rabs (cos (t - phi)) <= 1) by (apply Rabs_le; lra). replace k1 with (k1 * 1) by ring. apply Rmult_le_compat; auto using Rabs_pos. }
        assert (S : Rabs (5 / t * v2 * sin (t - phi)) <= k2). { rewrite !Rabs_mult. pose proof (SIN_bound (t - phi)). assert (Rabs (sin (t - phi)) <= 1) by (apply Rabs_le; lra).
          assert (Rabs (5 / t) <= 1). { rewrite Rabs_pos_eq by (left; apply Rdiv_lt_0_compat; lra). apply (Rmult_le_reg_r t); [lra|]. unfold Rdiv. rewrite Rmult_assoc, Rinv_l; lra. }
          replace k2 with (1 * k2 * 1) by ring. apply Rmult_le_compat; auto using Rabs_pos. - apply Rmult_le_pos; apply Rabs_pos. - apply Rmult_le_compat; auto using Rabs_pos. }
        assert (M : Rabs ((1 / 4 - nu2) * e t) <= 3 / 4 * Rabs (e t)) by (rewrite Rabs_mult; apply Rmult_le_compat_r; auto using Rabs_pos).
        unfold Rminus at 1. eapply Rle_trans; [apply Rabs_triang|]. rewrite Rabs_Ropp. apply Rplus_le_compat; [|exact M]. unfold Rminus. eapply Rle_trans; [apply Rabs_triang|]. rewrite Rabs_Ropp. apply Rplus_le_compat; auto. }
    assert (D : sqrt (e1 5 ^ 2 + e 5 ^ 2 + eta ^ 2) <= Rabs (e1 5) + Rabs (e 5) + eta).
    { pose proof (Rabs_pos (e1 5)). pose proof (Rabs_pos (e 5)). rewrite <- (sqrt_pow2 (Rabs (e1 5) + Rabs (e 5) + eta)) by lra. apply sqrt_le_1; [apply Rlt_le; nra|apply pow2_ge_0|]. rewrite <- (pow2_abs (e1 5)), <- (pow2_abs (e 5)). nra. }
    apply Rle_trans with ((Rabs (e1 5) + Rabs (e 5) + eta + (k1 + k2) / (3 / 4)) * 1.18 - (k1 + k2) / (3 / 4)); [|lra]. apply Rplus_le_compat_r.
    apply Rmult_le_compat; [|left; apply exp_pos| |apply exp_small].
    - apply Rplus_le_le_0_compat; [apply sqrt_pos|]. lra. - lra. }
  apply le_epsilon. intros eps He. specialize (T (eps / 1.18) ltac:(lra)). lra.
Qed.
