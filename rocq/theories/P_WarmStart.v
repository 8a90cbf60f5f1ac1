(** A warm start close to the roots converges to them (C77). *)
From Coq Require Import Reals List Bool Arith ZArith Lia Lra.
From Coquelicot Require Import Complex.
From Verif Require Import Base_R Base_List Base_C M_Utils M_Assembly M_PolySolver S_Poly P_Utils P_Assembly P_Poly P_PolyRoots P_PolySolver.
Import ListNotations.
Local Open Scope R_scope.
Local Open Scope C_scope.

(** ** the derivative of a product of linear factors *)
Fixpoint dprod (rs : list C) (z : C) : C :=
  match rs with [] => RtoC 0 | r :: t => prodC (map (fun r => z - r) t) + (z - r) * dprod t z end.
Lemma cderiv_line (z : C) : cderiv (fun t => z + RtoC t) 0 1.
Proof.
  intros e He. exists 1%R. split; [lra|]. intros h _. replace (z + RtoC (0 + h)%R - (z + RtoC 0) - RtoC h * 1) with (RtoC 0) by (rewrite RtoC_plus; ring).
  rewrite Cmod_0. apply Rmult_le_pos; [lra|apply Rabs_pos].
Qed.
Lemma cderiv_prod rs (z : C) : cderiv (fun t => prodC (map (fun r => z + RtoC t - r) rs)) 0 (dprod rs z).
Proof.
  induction rs as [|r rs IH].
  - cbn. apply (cderiv_const 1).
  - cbn [map dprod]. pose proof (cderiv_plus _ _ _ _ _ (cderiv_line z) (cderiv_const (- r) 0)) as L. pose proof (cderiv_mult _ _ _ _ _ L IH) as K.
    eapply cderiv_ext in K; [|intros x; symmetry; cbn [prodC]; reflexivity].
    match type of K with cderiv _ _ ?v => replace (prodC (map (fun r => z - r) rs) + (z - r) * dprod rs z) with v end.
    + eapply cderiv_ext; [|exact K]. intros x. cbn. ring.
    + replace (map (fun r0 => z + RtoC 0 - r0) rs) with (map (fun r0 => z - r0) rs) by (apply map_ext; intros; ring). ring.
Qed.
Lemma splits_deriv cs rs z : splits cs rs -> peval (pderiv cs) z = hd (RtoC 0) cs * dprod rs z.
Proof.
  intros S. set (cf := map (fun c => (fun _ : R => c)) cs).
  assert (F : Forall2 (fun c l => cderiv c 0 l) cf (map (fun _ => RtoC 0) cs)).
  { unfold cf. clear S. induction cs; cbn; constructor; auto. apply cderiv_const. }
  pose proof (cderiv_peval _ _ _ _ _ F (cderiv_line z)) as K.
  assert (E : forall x : R, map (fun c : R -> C => c x) cf = cs) by (intros x; unfold cf; rewrite map_map; apply map_id).
  rewrite E in K. apply (cderiv_ext _ (fun t => hd (RtoC 0) cs * prodC (map (fun r => z + RtoC t - r) rs))) in K. 2: { intros x. rewrite E. apply S. }
  pose proof (cderiv_mult _ _ _ _ _ (cderiv_const (hd (RtoC 0) cs) 0) (cderiv_prod rs z)) as K2. pose proof (cderiv_unique _ _ _ _ K K2) as U.
  assert (P0 : peval (map (fun _ : C => RtoC 0) cs) (z + RtoC 0) = 0) by (apply peval_zeros; intros c Hc; apply in_map_iff in Hc; destruct Hc as (? & <- & _); auto).
  rewrite P0 in U. replace (z + RtoC 0) with z in U by ring. transitivity (0 + peval (pderiv cs) z * 1); [ring|]. rewrite U. ring.
Qed.
Definition isum (z : C) (rs : list C) : C := sumC (map (fun r => 1 / (z - r)) rs).
Lemma dprod_isum rs z : (forall r, In r rs -> z - r <> 0) -> dprod rs z = prodC (map (fun r => z - r) rs) * isum z rs.
Proof.
  unfold isum. induction rs as [|r rs IH]; intros H; [cbn; ring|]. cbn [dprod map prodC sumC]. rewrite IH by (intros x Hx; apply H; now right). field. apply H. now left.
Qed.
Lemma dprod_mid l1 l2 p z : dprod (l1 ++ p :: l2) z = prodC (map (fun r => z - r) (l1 ++ l2)) + (z - p) * dprod (l1 ++ l2) z.
Proof.
  induction l1 as [|r l1 IH]; [reflexivity|]. cbn [app dprod map prodC]. rewrite IH.
  assert (E : prodC (map (fun r => z - r) (l1 ++ p :: l2)) = (z - p) * prodC (map (fun r => z - r) (l1 ++ l2))).
  { clear IH. induction l1 as [|x l1 IH]; [reflexivity|]. cbn [app map prodC]. rewrite IH. ring. }
  rewrite E. ring.
Qed.
Lemma prod_mid l1 l2 p z : prodC (map (fun r => z - r) (l1 ++ p :: l2)) = (z - p) * prodC (map (fun r => z - r) (l1 ++ l2)).
Proof. induction l1 as [|x l1 IH]; [reflexivity|]. cbn [app map prodC]. rewrite IH. ring. Qed.
Lemma prod_neq0 rs z : (forall r, In r rs -> z - r <> 0) -> prodC (map (fun r => z - r) rs) <> 0.
Proof. induction rs as [|r rs IH]; intros H; cbn [map prodC]; [intros E; injection E; lra|]. apply Cmult_neq_0; [apply H; now left|apply IH; intros; apply H; now right]. Qed.

(** ** one update *)
Lemma recip_mid z z1 z2 : recip_sum z (z1 ++ z :: z2) = recip_sum z (z1 ++ z2).
Proof.
  unfold recip_sum. induction z1 as [|x z1 IH]; cbn [app map sumC]; [|now rewrite IH]. destruct (Ceq_dec (z - z) 0) as [|N]; [ring|]. exfalso. apply N. ring.
Qed.
Lemma recip_gap z rs zs E d1 d2 : (0 <= E)%R -> (0 < d1)%R -> (0 < d2)%R -> Forall2 (fun r x => (Cmod (x - r)%C <= E)%R /\ (d1 <= Cmod (z - r)%C)%R /\ (d2 <= Cmod (z - x)%C)%R) rs zs ->
  (Cmod (isum z rs - recip_sum z zs)%C <= INR (length rs) * (E / (d1 * d2)))%R.
Proof.
  intros HE H1 H2 F. unfold isum, recip_sum. induction F as [|r x rs zs (A & B & D) F IH].
  - cbn. replace (RtoC 0 - RtoC 0) with (RtoC 0) by ring. rewrite Cmod_0. lra.
  - cbn [map sumC]. assert (N1 : z - r <> 0) by (apply Cmod_pos_neq; lra). assert (N2 : z - x <> 0) by (apply Cmod_pos_neq; lra). destruct (Ceq_dec (z - x) 0) as [|_]; [contradiction|].
    match goal with |- (Cmod ?t <= _)%R => replace t with ((r - x) / ((z - r) * (z - x)) + (sumC (map (fun r0 => 1 / (z - r0)) rs) - sumC (map (fun r0 => if Ceq_dec (z - r0) 0 then RtoC 0 else 1 / (z - r0)) zs))) by (field; auto) end.
    eapply Rle_trans; [apply Cmod_triangle|]. cbn [length]. rewrite S_INR. rewrite Rmult_plus_distr_r, Rplus_comm. apply Rplus_le_compat; [exact IH|]. rewrite Rmult_1_l, Cmod_div by (apply Cmult_neq_0; auto). rewrite Cmod_mult.
    replace (r - x) with (- (x - r)) by ring. rewrite Cmod_opp. unfold Rdiv. assert (P : (0 < d1 * d2)%R) by (apply Rmult_lt_0_compat; auto). apply Rmult_le_compat; [apply Cmod_ge_0|left; apply Rinv_0_lt_compat, Rmult_lt_0_compat; lra|auto|].
    apply Rinv_le_contravar; auto. apply Rmult_le_compat; lra.
Qed.
Lemma isum_bound z rs d1 : (0 < d1)%R -> (forall r, In r rs -> (d1 <= Cmod (z - r)%C)%R) -> (Cmod (isum z rs)%C <= INR (length rs) * (1 / d1))%R.
Proof.
  intros H1. unfold isum. induction rs as [|r rs IH]; intros H.
  - cbn. rewrite Cmod_0. lra.
  - cbn [map sumC length]. rewrite S_INR. assert (B : (Cmod (sumC (map (fun r : C => 1 / (z - r))%C rs))%C <= INR (length rs) * (1 / d1))%R) by (apply IH; intros; apply H; now right).
    assert (D : (d1 <= Cmod (z - r)%C)%R) by (apply H; now left). assert (A : (Cmod (1 / (z - r))%C <= 1 / d1)%R). { rewrite Cmod_div by (apply Cmod_pos_neq; lra). rewrite Cmod_1. unfold Rdiv. rewrite !Rmult_1_l. apply Rinv_le_contravar; lra. }
    pose proof (Cmod_triangle (1 / (z - r)) (sumC (map (fun r : C => 1 / (z - r)) rs))). rewrite Rmult_plus_distr_r. lra.
Qed.
(** the value of the step: [e / (1 + e X)], with [X] the sum of reciprocals (Newton) or its difference to the code's sum *)
Lemma update_value cs r1 p r2 z1 z2 z eps : (2 <= length cs)%nat -> splits cs (r1 ++ p :: r2) -> hd (RtoC 0) cs <> 0 -> (forall r, In r (r1 ++ r2) -> z - r <> 0) ->
  1 + (z - p) * isum z (r1 ++ r2) <> 0 -> 1 + (z - p) * (isum z (r1 ++ r2) - recip_sum z (z1 ++ z2)) <> 0 ->
  exists X, (X = isum z (r1 ++ r2) \/ X = isum z (r1 ++ r2) - recip_sum z (z1 ++ z2)) /\
    ea_update cs (polyder_coeffs cs) eps (z1 ++ z :: z2) z = Some ((z - p) / (1 + (z - p) * X)) /\
    ((eps <= Cmod (peval (pderiv cs) z - peval cs z * recip_sum z (z1 ++ z2))%C)%R -> X = isum z (r1 ++ r2) - recip_sum z (z1 ++ z2)).
Proof.
  intros L S H0 Hr N1 N2. set (Q := hd (RtoC 0) cs * prodC (map (fun r => z - r) (r1 ++ r2))).
  assert (Q0 : Q <> 0) by (apply Cmult_neq_0; auto; now apply prod_neq0).
  assert (Ef : peval cs z = (z - p) * Q) by (rewrite S, prod_mid; unfold Q; ring).
  assert (Ep : peval (pderiv cs) z = Q * (1 + (z - p) * isum z (r1 ++ r2))) by (rewrite (splits_deriv cs _ z S), dprod_mid, dprod_isum by auto; unfold Q; ring).
  unfold ea_update. rewrite (polyder_pderiv _ L), !polyval_peval, recip_mid.
  set (s := recip_sum z (z1 ++ z2)) in *. set (M := isum z (r1 ++ r2)) in *.
  assert (Ed : peval (pderiv cs) z - peval cs z * s = Q * (1 + (z - p) * (M - s))) by (rewrite Ef, Ep; ring).
  destruct (Rltb_spec (Cmod (peval (pderiv cs) z - peval cs z * s)%C) eps) as [G|G].
  - exists M. split; auto. split; [|intros; lra]. destruct (Ceq_dec (peval (pderiv cs) z) 0) as [E|_]; [exfalso; rewrite Ep in E; revert E; now apply Cmult_neq_0|].
    f_equal. rewrite Ef, Ep. field. auto.
  - exists (M - s). split; auto. split; auto. destruct (Ceq_dec (peval (pderiv cs) z - peval cs z * s) 0) as [E|_]; [exfalso; rewrite Ed in E; revert E; now apply Cmult_neq_0|].
    f_equal. rewrite Ed, Ef. field. auto.
Qed.
(** the error after the step *)
Lemma step_error (e X : C) : (Cmod (e * X)%C <= 1 / 3)%R -> 1 + e * X <> 0 /\ (Cmod (e - e / (1 + e * X))%C <= 3 / 2 * (Cmod e * Cmod e * Cmod X))%R /\
  (Cmod (e - e / (1 + e * X))%C <= Cmod e / 2)%R /\ (Cmod (e / (1 + e * X))%C <= 3 / 2 * Cmod e)%R.
Proof.
  intros H. assert (G : (2 / 3 <= Cmod (1 + e * X)%C)%R). { pose proof (Cmod_triangle (1 + e * X) (- (e * X))) as T. replace (1 + e * X + - (e * X)) with (RtoC 1) in T by ring. rewrite Cmod_1, Cmod_opp in T. lra. }
  assert (N : 1 + e * X <> 0) by (apply Cmod_pos_neq; lra). split; auto. assert (I : (/ Cmod (1 + e * X)%C <= 3 / 2)%R) by (replace (3 / 2)%R with (/ (2 / 3))%R by lra; apply Rinv_le_contravar; lra).
  assert (E : e - e / (1 + e * X) = e * (e * X) / (1 + e * X)) by (field; auto). pose proof (Cmod_ge_0 e) as P1. pose proof (Cmod_ge_0 (e * X)) as P2. assert (I0 : (0 <= / Cmod (1 + e * X)%C)%R) by (left; apply Rinv_0_lt_compat; lra).
  rewrite E, !Cmod_div by auto. unfold Rdiv. rewrite (Cmod_mult e (e * X)). split; [|split].
  - replace (Cmod e * Cmod e * Cmod X)%R with (Cmod e * Cmod (e * X)%C)%R by (rewrite Cmod_mult; ring). rewrite Rmult_comm. apply Rmult_le_compat_r; [now apply Rmult_le_pos|lra].
  - assert (K : (Cmod e * Cmod (e * X)%C * / Cmod (1 + e * X)%C <= Cmod e * (1 / 3) * (3 / 2))%R). { apply Rmult_le_compat; auto; [now apply Rmult_le_pos|]. apply Rmult_le_compat_l; lra. } lra.
  - rewrite Rmult_comm. apply Rmult_le_compat_r; lra.
Qed.

(** ** all updates of a list of estimates close to the roots *)
Definition apart (d : R) (rs : list C) : Prop := forall i j, (i < length rs)%nat -> (j < length rs)%nat -> i <> j -> (d <= Cmod (nth i rs (RtoC 0) - nth j rs (RtoC 0))%C)%R.
Lemma apart_mid d r1 p r2 : apart d (r1 ++ p :: r2) -> forall r, In r (r1 ++ r2) -> (d <= Cmod (p - r)%C)%R.
Proof.
  intros H r Hr. assert (Ep : nth (length r1) (r1 ++ p :: r2) (RtoC 0) = p) by (rewrite app_nth2, Nat.sub_diag; auto; lia). apply in_app_or in Hr. destruct Hr as [Hr|Hr].
  - destruct (In_nth _ _ (RtoC 0) Hr) as (k & Hk & <-). rewrite <- (app_nth1 r1 (p :: r2) (RtoC 0) Hk). rewrite <- Ep at 1. apply H; rewrite ?app_length; cbn [length]; lia.
  - destruct (In_nth _ _ (RtoC 0) Hr) as (k & Hk & E). rewrite <- E. rewrite <- Ep at 1. replace (nth k r2 (RtoC 0)) with (nth (length r1 + S k) (r1 ++ p :: r2) (RtoC 0)).
    + apply H; rewrite ?app_length; cbn [length]; lia.
    + rewrite app_nth2 by lia. replace (length r1 + S k - length r1)%nat with (S k) by lia. reflexivity.
Qed.
Lemma contract cs r1 p r2 z1 z z2 d E eps : (2 <= length cs)%nat -> splits cs (r1 ++ p :: r2) -> hd (RtoC 0) cs <> 0 -> (0 < d)%R -> apart d (r1 ++ p :: r2) ->
  (0 <= E)%R -> (3 * INR (length (r1 ++ p :: r2)) * E <= d)%R -> (Cmod (z - p)%C <= E)%R -> Forall2 (fun r x => (Cmod (x - r)%C <= E)%R) (r1 ++ r2) (z1 ++ z2) ->
  exists u, ea_update cs (polyder_coeffs cs) eps (z1 ++ z :: z2) z = Some u /\ (Cmod (z - u - p)%C <= Cmod (z - p)%C / 2)%R /\ (Cmod u <= 3 / 2 * Cmod (z - p)%C)%R /\
   ((eps <= Cmod (peval (pderiv cs) z - peval cs z * recip_sum z (z1 ++ z2))%C)%R -> (Cmod (z - u - p)%C <= 3 * INR (length (r1 ++ p :: r2)) * (E * E * E) / (d * d))%R).
Proof.
  intros L S H0 Hd Ha HE Hn Hz F. set (R := r1 ++ r2) in *. set (Z := z1 ++ z2) in *. set (m := INR (length R)).
  assert (Em : INR (length (r1 ++ p :: r2)) = (m + 1)%R) by (unfold m, R; rewrite !app_length; cbn [length]; rewrite Nat.add_succ_r, S_INR; reflexivity). rewrite Em in *.
  assert (M0 : (0 <= m)%R) by apply pos_INR. assert (ME : (0 <= m * E)%R) by (apply Rmult_le_pos; lra).
  assert (Hr : forall r, In r R -> (d - E <= Cmod (z - r)%C)%R).
  { intros r Hr. pose proof (apart_mid d r1 p r2 Ha r Hr) as A. pose proof (Cmod_triangle (z - r)%C (- (z - p))%C) as T. rewrite Cmod_opp in T. replace (z - r + - (z - p))%C with (p - r)%C in T by ring. lra. }
  assert (F2 : Forall2 (fun r x => (Cmod (x - r)%C <= E)%R /\ (d - E <= Cmod (z - r)%C)%R /\ (d - 2 * E <= Cmod (z - x)%C)%R) R Z).
  { clearbody R Z. clear - F Hr. induction F as [|r x R Z A F IH]; constructor. 2: { apply IH. intros; apply Hr; now right. }
    assert (B : (d - E <= Cmod (z - r)%C)%R) by (apply Hr; now left). repeat split; auto. pose proof (Cmod_triangle (z - x)%C (x - r)%C) as T. replace (z - x + (x - r))%C with (z - r)%C in T by ring. lra. }
  assert (D1 : (0 < d - E)%R) by lra. assert (D2 : (0 < d - 2 * E)%R) by lra.
  pose proof (isum_bound z R (d - E) D1 Hr) as B1. pose proof (recip_gap z R Z E (d - E) (d - 2 * E) HE D1 D2 F2) as B2. fold m in B1, B2. set (e := (z - p)%C) in *.
  assert (Q1 : (m * E / (d - E) <= 1 / 3)%R) by (apply (Rmult_le_reg_r (d - E)); auto; unfold Rdiv; rewrite Rmult_assoc, Rinv_l by lra; lra).
  assert (Q2 : (E / (d - 2 * E) <= 1)%R) by (apply (Rmult_le_reg_r (d - 2 * E)); auto; unfold Rdiv; rewrite Rmult_assoc, Rinv_l by lra; lra).
  assert (Q0 : (0 <= E / (d - 2 * E))%R) by (apply Rmult_le_pos; [auto|left; now apply Rinv_0_lt_compat]). assert (Q3 : (0 <= m * E / (d - E))%R) by (apply Rmult_le_pos; [auto|left; now apply Rinv_0_lt_compat]).
  assert (X1 : (Cmod (e * isum z R)%C <= 1 / 3)%R). { rewrite Cmod_mult. apply Rle_trans with (E * (m * (1 / (d - E))))%R; [apply Rmult_le_compat; auto; apply Cmod_ge_0|]. replace (E * (m * (1 / (d - E))))%R with (m * E / (d - E))%R by (field; lra). auto. }
  assert (X2 : (Cmod (e * (isum z R - recip_sum z Z))%C <= 1 / 3)%R).
  { rewrite Cmod_mult. apply Rle_trans with (E * (m * (E / ((d - E) * (d - 2 * E)))))%R; [apply Rmult_le_compat; auto; apply Cmod_ge_0|]. replace (E * (m * (E / ((d - E) * (d - 2 * E)))))%R with (m * E / (d - E) * (E / (d - 2 * E)))%R by (field; lra).
    apply Rle_trans with (m * E / (d - E) * 1)%R; [apply Rmult_le_compat_l; auto|lra]. }
  destruct (step_error _ _ X1) as (N1 & _). destruct (step_error _ _ X2) as (N2 & _).
  destruct (update_value cs r1 p r2 z1 z2 z eps L S H0) as (X & HX & EU & HG); auto. { intros r Hr'. apply Cmod_pos_neq. specialize (Hr r Hr'). lra. }
  fold R Z e in HX, EU, HG. assert (X3 : (Cmod (e * X)%C <= 1 / 3)%R) by (destruct HX as [-> | ->]; auto). destruct (step_error _ _ X3) as (_ & K1 & K2 & K3).
  exists (e / (1 + e * X))%C. split; auto. replace (z - e / (1 + e * X) - p)%C with (e - e / (1 + e * X))%C by (unfold e; ring). repeat split; auto.
  intros G. apply HG in G. rewrite G in K1. eapply Rle_trans; [rewrite G; exact K1|]. apply Rle_trans with (3 / 2 * (E * E * (m * (E / ((d - E) * (d - 2 * E))))))%R.
  - apply Rmult_le_compat_l; [lra|]. pose proof (Cmod_ge_0 e). apply Rmult_le_compat; auto; [apply Rmult_le_pos; auto|apply Cmod_ge_0|]. apply Rmult_le_compat; auto.
  - destruct (Nat.eq_dec (length R) 0) as [Z0|NZ].
    + unfold m. rewrite Z0. cbn [INR]. rewrite Rmult_0_l, !Rmult_0_r. apply Rmult_le_pos; [|left; apply Rinv_0_lt_compat; nra]. repeat apply Rmult_le_pos; lra.
    + assert (M1 : (1 <= m)%R) by (unfold m; apply (le_INR 1); lia). assert (E6 : (6 * E <= d)%R) by nra.
      assert (W : (d * d * (5 / 9) <= (d - E) * (d - 2 * E))%R) by nra.
      assert (I : (/ ((d - E) * (d - 2 * E)) <= 9 / 5 * / (d * d))%R). { replace (9 / 5 * / (d * d))%R with (/ (d * d * (5 / 9)))%R by (field; lra). apply Rinv_le_contravar; [nra|auto]. }
      assert (E3 : (0 <= E * E * E)%R) by (repeat apply Rmult_le_pos; auto). assert (P : (0 < / (d * d))%R) by (apply Rinv_0_lt_compat; nra).
      replace (3 / 2 * (E * E * (m * (E / ((d - E) * (d - 2 * E))))))%R with (3 / 2 * m * (E * E * E) * / ((d - E) * (d - 2 * E)))%R by (field; lra).
      apply Rle_trans with (3 / 2 * m * (E * E * E) * (9 / 5 * / (d * d)))%R; [apply Rmult_le_compat_l; auto; repeat apply Rmult_le_pos; lra|].
      set (c := (E * E * E * / (d * d))%R). assert (C0 : (0 <= c)%R) by (apply Rmult_le_pos; lra).
      replace (3 / 2 * m * (E * E * E) * (9 / 5 * / (d * d)))%R with (27 / 10 * m * c)%R by (unfold c; field; lra). replace (3 * (m + 1) * (E * E * E) / (d * d))%R with (3 * (m + 1) * c)%R by (unfold c, Rdiv; ring). nra.
Qed.
Lemma contract_nth cs rs zs d E eps i : (2 <= length cs)%nat -> splits cs rs -> hd (RtoC 0) cs <> 0 -> (0 < d)%R -> apart d rs ->
  (0 <= E)%R -> (3 * INR (length rs) * E <= d)%R -> Forall2 (fun r x => (Cmod (x - r)%C <= E)%R) rs zs -> (i < length rs)%nat ->
  let p := nth i rs (RtoC 0) in let z := nth i zs (RtoC 0) in
  exists u, ea_update cs (polyder_coeffs cs) eps zs z = Some u /\ (Cmod (z - u - p)%C <= Cmod (z - p)%C / 2)%R /\ (Cmod u <= 3 / 2 * Cmod (z - p)%C)%R /\
   ((eps <= Cmod (peval (pderiv cs) z - peval cs z * recip_sum z zs)%C)%R -> (Cmod (z - u - p)%C <= 3 * INR (length rs) * (E * E * E) / (d * d))%R).
Proof.
  intros L S H0 Hd Ha HE Hn F Hi p z. pose proof (nth_split rs (RtoC 0) Hi) as (r1 & r2 & Er & Lr). fold p in Er. rewrite Er in F. apply Forall2_app_inv_l in F.
  destruct F as (z1 & zz & F1 & F2 & Ez). inversion F2 as [|x y l l' A F3]; subst x l zz. assert (Lz : length z1 = i) by (rewrite <- (Forall2_len _ _ _ F1); auto).
  assert (Ey : z = y) by (unfold z; rewrite Ez, app_nth2, Lz, Nat.sub_diag; auto; lia). rewrite <- Ey in Ez, A. rewrite Er in S, Ha, Hn |- *. rewrite Ez. rewrite recip_mid.
  apply (contract cs r1 p r2 z1 z l' d E eps); auto. now apply Forall2_app.
Qed.

Lemma Forall2_nth {A B} (P : A -> B -> Prop) l m a b : length l = length m -> (forall i, (i < length l)%nat -> P (nth i l a) (nth i m b)) -> Forall2 P l m.
Proof.
  revert m. induction l as [|x l IH]; intros [|y m] Hl H; try discriminate; constructor. { apply (H 0%nat). cbn; lia. } apply IH; [cbn in Hl; lia|]. intros i Hi. apply (H (S i)). cbn; lia.
Qed.
Lemma Forall2_nth_inv {A B} (P : A -> B -> Prop) l m a b : Forall2 P l m -> forall i, (i < length l)%nat -> P (nth i l a) (nth i m b).
Proof. induction 1; intros [|i] Hi; cbn in *; try lia; auto. apply IHForall2; lia. Qed.

(** ** the loop *)
Section Loop.
Variables (cs rs : list C) (d E tol : R).
Hypothesis L : (2 <= length cs)%nat. Hypothesis S0 : splits cs rs. Hypothesis H0 : hd (RtoC 0) cs <> 0.
Hypothesis Hd : (0 < d)%R. Hypothesis Ha : apart d rs. Hypothesis HE : (0 <= E)%R. Hypothesis Hn : (3 * INR (length rs) * E <= d)%R.
Let eps := (eps64 * 10)%R. Let body := ea_body cs (polyder_coeffs cs) eps tol.
Definition ok_state (k : nat) (p : C) (s : est * bool) : Prop :=
  exists z, fst s = Some z /\ (Cmod (z - p)%C <= E)%R /\ (Cmod (z - p)%C <= if snd s then tol else E / 2 ^ k)%R.
Lemma ok_lists k l st : Forall2 (ok_state k) l st -> exists zs, map fst st = map Some zs /\ Forall2 (fun r x => (Cmod (x - r)%C <= E)%R) l zs.
Proof.
  induction 1 as [|p s l st (z & Ez & B & _) F (zs & IH & G)]; [exists []; split; auto|]. exists (z :: zs). cbn. rewrite Ez, IH. split; auto.
Qed.
Lemma ok_step k st : Forall2 (ok_state k) rs st -> Forall2 (ok_state (S k)) rs (body st) /\ ((3 / 2 * (E / 2 ^ k) <= tol)%R -> forallb snd (body st) = true).
Proof.
  intros F. pose proof (Forall2_len _ _ _ F) as Ll. destruct (ok_lists _ _ _ F) as (zs & Em & Fz). pose proof (Forall2_len _ _ _ Fz) as Lz.
  assert (Hp : forall k, (0 < 2 ^ k)%R) by (intros; apply pow_lt; lra).
  assert (Q : forall i, (i < length rs)%nat -> ok_state (S k) (nth i rs (RtoC 0)) (nth i (body st) st_def) /\ ((3 / 2 * (E / 2 ^ k) <= tol)%R -> snd (nth i (body st) st_def) = true)).
  { intros i Hi. pose proof (Forall2_nth_inv _ _ _ (RtoC 0) st_def F i Hi) as (z & Ez & B1 & B2). unfold body. rewrite ea_body_nth by lia. unfold step1. rewrite Em.
    assert (Nz : nth i zs (RtoC 0) = z). { assert (X : Some (nth i zs (RtoC 0)) = Some z); [|now injection X]. rewrite <- Ez. rewrite <- (map_nth Some), <- Em. change (Some (RtoC 0)) with (Some (RtoC 0)). rewrite (nth_indep _ (Some (RtoC 0)) (fst st_def)) by (rewrite map_length; lia). apply map_nth. }
    destruct (contract_nth cs rs zs d E eps i L S0 H0 Hd Ha HE Hn Fz Hi) as (u & EU & K1 & K2 & _). rewrite Nz in *. set (p := nth i rs (RtoC 0)) in *.
    unfold upd_of. rewrite all_some_map, Ez, EU. cbn [est_minus est_small]. destruct (snd (nth i st st_def)) eqn:Ed; cbn [fst snd orb].
    - split; auto. exists z. cbn [fst snd]. auto.
    - assert (Ehalf : (E / 2 ^ k / 2 = E / 2 ^ S k)%R) by (cbn [pow]; field; apply Rgt_not_eq, Hp). pose proof (Cmod_ge_0 (z - p)%C). split.
      + exists (z - u)%C. cbn [fst snd]. split; auto. split; [lra|]. destruct (Rleb (Cmod u) tol) eqn:Eu; [|lra]. apply Rleb_true in Eu.
        pose proof (Cmod_triangle (z - u - p)%C u) as T. replace (z - u - p + u)%C with (z - p)%C in T by ring. lra.
      + intros T. apply Rleb_true. lra. }
  split.
  - apply (Forall2_nth _ _ _ (RtoC 0) st_def). { unfold body. rewrite ea_body_length. auto. } intros i Hi. now apply Q.
  - intros T. apply forallb_forall. intros s Hs. destruct (In_nth _ _ st_def Hs) as (i & Hi & <-). apply Q; auto. unfold body in Hi. rewrite ea_body_length in Hi. lia.
Qed.
Lemma ok_iter init : Forall2 (fun r x => (Cmod (x - r)%C <= E)%R) rs init -> forall k, Forall2 (ok_state k) rs (ea_iter cs (polyder_coeffs cs) eps tol k (st0 init)).
Proof.
  intros F k. induction k as [|k IH].
  - unfold ea_iter, st0. cbn [Nat.iter]. clear - F. induction F as [|r x l m A F IH2]; cbn [map]; constructor; auto. exists x. cbn [fst snd pow]. split; auto. split; auto. lra.
  - change (ea_iter cs (polyder_coeffs cs) eps tol (S k) (st0 init)) with (body (ea_iter cs (polyder_coeffs cs) eps tol k (st0 init))). now apply ok_step.
Qed.
Theorem warm_loop init m : Forall2 (fun r x => (Cmod (x - r)%C <= E)%R) rs init ->
  let '(it, st) := ea_loop cs (polyder_coeffs cs) eps tol m (st0 init) in
  Forall2 (fun p s => exists z, fst s = Some z /\ (Cmod (z - p)%C <= Rmax tol (E / 2 ^ m))%R) rs st /\
  (forall k, (3 / 2 * (E / 2 ^ k) <= tol)%R -> (it <= S k)%nat).
Proof.
  intros F. pose proof (ea_loop_spec cs (polyder_coeffs cs) eps tol m (st0 init)) as (A & B & D & G). destruct (ea_loop cs (polyder_coeffs cs) eps tol m (st0 init)) as (it & st). cbn [fst snd] in *. split.
  - pose proof (ok_iter init F it) as K. rewrite <- B in K. destruct (Nat.eq_dec it m) as [-> | Ni].
    + clear - K. induction K as [|p s l st (z & Ez & _ & Hz) K IH]; constructor; auto. exists z. split; auto. eapply Rle_trans; [exact Hz|]. destruct (snd s); [apply Rmax_l|apply Rmax_r].
    + rewrite <- B in G. specialize (G ltac:(lia)). clear - K G. induction K as [|p s l st (z & Ez & _ & Hz) K IH]; constructor; cbn [forallb] in G; apply andb_prop in G; destruct G as (G1 & G2); auto.
      exists z. split; auto. eapply Rle_trans; [exact Hz|]. rewrite G1. apply Rmax_l.
  - intros k Hk. destruct (le_lt_dec it (S k)) as [|Lt]; auto. exfalso. specialize (D (S k) Lt). change (ea_iter cs (polyder_coeffs cs) eps tol (S k) (st0 init)) with (body (ea_iter cs (polyder_coeffs cs) eps tol k (st0 init))) in D.
    destruct (ok_step k _ (ok_iter init F k)) as (_ & X). rewrite (X Hk) in D. discriminate.
Qed.
Theorem warm_result init m : (0 <= tol)%R -> Forall2 (fun r x => (Cmod (x - r)%C <= E)%R) rs init ->
  Forall2 (fun p o => exists z, o = Some z /\ (Cmod (z - p)%C <= Rmax tol (E / 2 ^ m) + 10 * tol)%R) rs (poly_roots_EA_from cs init tol m).
Proof.
  intros T F. pose proof (warm_loop init m F) as W. pose proof (ea_loop_spec cs (polyder_coeffs cs) eps tol m (st0 init)) as (_ & B & _).
  apply (Forall2_nth _ _ _ (RtoC 0) None). { rewrite from_length. apply (Forall2_len _ _ _ F). }
  intros i Hi. rewrite from_nth. unfold eps in *. destruct (ea_loop cs (polyder_coeffs cs) (eps64 * 10) tol m (st0 init)) as (it & st). cbn [snd]. destruct W as (W & _).
  pose proof (Forall2_nth_inv _ _ _ (RtoC 0) st_def W i Hi) as (z & Ez & Hz). assert (Ez2 : @fst est bool (@nth (est * bool) i st st_def) = Some z) by exact Ez. rewrite Ez2. cbn [option_map]. eexists. split; [reflexivity|].
  pose proof (clean1_close tol cs z T). pose proof (Cmod_triangle (clean1 tol cs z - z)%C (z - nth i rs (RtoC 0))%C) as Tr. replace (clean1 tol cs z - z + (z - nth i rs (RtoC 0)))%C with (clean1 tol cs z - nth i rs (RtoC 0))%C in Tr by ring. lra.
Qed.
End Loop.
