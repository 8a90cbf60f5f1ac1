(** Two lenses that become one: property C76. *)
From Coq Require Import Reals List Lra Lia ZArith.
From Coquelicot Require Import Complex.
From Verif Require Import Base_R Base_List Base_C M_Utils M_Coeffs M_PointSource M_MagFft S_PointSource S_Poly
  P_Lens P_Poly P_PolyRoots P_PointSource P_Images P_Single P_RootsCont P_MagCont P_MagLens P_OneLens Thm_PointSource Thm_MagCont.
Import ListNotations.
Local Open Scope R_scope.

(** the limit [A0] of the two-lens value when the mass ratio, or the separation, goes to zero *)
Definition companion_fades_to (poly_roots : list C -> option (list C) -> list C) (s : R) (w : C) (A0 : R) : Prop :=
  forall eps, 0 < eps -> exists d, 0 < d /\ forall q p, 0 < q < d -> p_s p = Some s -> p_q p = Some q -> solved2 poly_roots s q w ->
    exists A, mag_point_source poly_roots 2 p w = Ok A /\ Rabs (A - A0) < eps.
Definition pair_merges_to (poly_roots : list C -> option (list C) -> list C) (q : R) (w : C) (A0 : R) : Prop :=
  forall eps, 0 < eps -> exists d, 0 < d /\ forall s p, s <> 0 -> Rabs s < d -> p_s p = Some s -> p_q p = Some q -> solved2 poly_roots s q w ->
    exists A, mag_point_source poly_roots 2 p w = Ok A /\ Rabs (A - A0) < eps.

Lemma rho_form s (w : C) : s <> 0 -> w <> RtoC s -> Cmod (1 / (RtoC s - Cconj w) - RtoC s)%C * Cmod (w - RtoC s)%C = Rabs s * Cmod (w - RtoC (s - 1 / s))%C.
Proof.
  intros Hs Hw. assert (N : (RtoC s - Cconj w)%C <> RtoC 0). { intros E. apply Hw. apply Cconj_inj. rewrite Cconj_RtoC. symmetry. now apply Cminus_eq_0. }
  rewrite <- (Cmod_conj (w - RtoC s)%C), <- (Cmod_conj (w - RtoC (s - 1 / s))%C), <- Cmod_R, <- !Cmod_mult, !Cconj_minus, !Cconj_RtoC. assert (Ns : RtoC s <> RtoC 0) by (apply RtoC_neq0; auto).
  rewrite <- (Cmod_opp (RtoC s * _)%C). rewrite RtoC_minus, RtoC_div by auto. f_equal. field. auto.
Qed.
(** a companion without mass: what remains is the one-lens (Paczynski) magnification.  Partial: not within
    1e-6 of the place where the caustic of the companion shrinks to a point, see below *)
Theorem C76_companion_fades_partial : forall poly_roots s w, s <> 0 -> w <> RtoC 0 -> w <> RtoC s ->
  1e-6 < Cmod (w - RtoC (s - 1 / s))%C -> 1e-6 * Cmod (w - RtoC s)%C < Rabs s * Cmod (w - RtoC (s - 1 / s))%C ->
  companion_fades_to poly_roots s w (A_point (Cmod w)).
Proof.
  intros pr s w Hs Hw Hws G1 G2 eps He. assert (P : 0 < Cmod (w - RtoC s)%C) by (apply Cmod_gt_0; intros E; apply Hws; now apply Cminus_eq_0).
  assert (R1 : 1e-6 < Cmod (1 / (RtoC s - Cconj w) - RtoC s)%C) by (rewrite <- (rho_form s w Hs Hws) in G2; apply (Rmult_lt_reg_r (Cmod (w - RtoC s)%C)); auto).
  destruct (planet_tends s w Hs Hw Hws G1 pr) with (eps := eps) as (d & Hd & K); [lra|lra|auto|]. exists d. split; auto. intros q p Hq Es Eq Hsol. destruct (K q p Hq Es Eq Hsol) as (A & EA & HA). exists A. split; auto.
  unfold term in HA. destruct (Rltb (Cmod (1 / (RtoC s - Cconj w) - RtoC s)%C) 1e-6) eqn:E; [apply Rltb_true in E; lra|]. now rewrite Rmult_0_r, Rplus_0_r in HA.
Qed.
Print Assumptions C76_companion_fades_partial.
(** next to that place the limit is too large: a root that is no image is counted for every small mass ratio *)
Theorem C76_companion_fades_refuted : exists s w, s <> 0 /\ w <> RtoC 0 /\ w <> RtoC s /\ w <> RtoC (s - 1 / s) /\
  forall poly_roots, exists d, 0 < d /\ forall q p, 0 < q < d -> p_s p = Some s -> p_q p = Some q -> solved2 poly_roots s q w ->
  exists A, mag_point_source poly_roots 2 p w = Ok A /\ A_point (Cmod w) + 6 / 100 < A.
Proof.
  set (w := RtoC (- (3 / 2) + 2e-6)). assert (Hw : w <> RtoC 0) by (apply RtoC_neq0; lra). assert (Hws : w <> RtoC (1 / 2)) by (intros E; apply RtoC_inj in E; lra).
  assert (G : 1e-6 < Cmod (w - RtoC (1 / 2 - 1 / (1 / 2)))%C). { unfold w. rewrite <- RtoC_minus, Cmod_R. replace (- (3 / 2) + 2e-6 - (1 / 2 - 1 / (1 / 2))) with 2e-6 by field. rewrite Rabs_pos_eq; lra. }
  assert (X : Cmod (1 / (RtoC (1 / 2) - Cconj w) - RtoC (1 / 2))%C < 1e-6).
  { unfold w. rewrite Cconj_RtoC, <- RtoC_minus. replace (RtoC 1 / RtoC (1 / 2 - (- (3 / 2) + 2e-6)))%C with (RtoC (1 / (1 / 2 - (- (3 / 2) + 2e-6)))) by (rewrite RtoC_div; [reflexivity|lra]).
    rewrite <- RtoC_minus, Cmod_R. replace (1 / (1 / 2 - (- (3 / 2) + 2e-6)) - 1 / 2) with (1e-6 / (2 - 2e-6)) by (field; lra). rewrite Rabs_pos_eq; lra. }
  assert (Y : 1 - Cmod ((RtoC (1 / 2) - Cconj w) ^ 2)%C ^ 2 = 1 - (2 - 2e-6) ^ 4).
  { unfold w. rewrite Cconj_RtoC, <- RtoC_minus, <- RtoC_pow, Cmod_R, Rabs_pos_eq by (apply pow2_ge_0). replace (1 / 2 - (- (3 / 2) + 2e-6)) with (2 - 2e-6) by lra. ring. }
  assert (Y2 : - 15 <= 1 - (2 - 2e-6) ^ 4 < -14) by lra.
  exists (1 / 2), w. repeat (split; auto). { lra. } { intros E. rewrite E in G. replace (RtoC (1 / 2 - 1 / (1 / 2)) - RtoC (1 / 2 - 1 / (1 / 2)))%C with (RtoC 0) in G by ring. rewrite Cmod_0 in G. lra. }
  intros pr. destruct (planet_tends (1 / 2) w ltac:(lra) Hw Hws G pr) with (eps := 1 / 1000) as (d & Hd & K); [lra|intros _; rewrite Y; lra|lra|]. exists d. split; auto. intros q p Hq Es Eq Hsol.
  destruct (K q p Hq Es Eq Hsol) as (A & EA & HA). exists A. split; auto. rewrite Y in HA. unfold term in HA. apply Rltb_true in X. rewrite X in HA. apply Rabs_def2 in HA.
  assert (Z : 1 / 15 <= 1 / Rabs (1 - (2 - 2e-6) ^ 4)). { unfold Rdiv. rewrite !Rmult_1_l. apply Rinv_le_contravar; [apply Rabs_pos_lt; lra|rewrite Rabs_left; lra]. }
  lra.
Qed.
Print Assumptions C76_companion_fades_refuted.
(** two masses that meet act as one.  Partial: the source not further away than 10^6 *)
Theorem C76_pair_merges_partial : forall poly_roots q w, 0 < q -> w <> RtoC 0 -> Cmod w < 10 ^ 6 -> pair_merges_to poly_roots q w (A_point (Cmod w)).
Proof.
  intros pr q w Hq Hw Hb eps He. assert (P : 0 < Cmod w) by now apply Cmod_gt_0.
  assert (R1 : 1e-6 < / Cmod w). { replace 1e-6 with (/ 10 ^ 6) by lra. apply Rinv_lt_contravar; [apply Rmult_lt_0_compat; lra|auto]. }
  destruct (close_tends q w Hq Hw pr) with (eps := eps) as (d & Hd & K); [lra|auto|]. exists d. split; auto. intros s p Hs Hsd Es Eq Hsol. destruct (K s p Hs Hsd Es Eq Hsol) as (A & EA & HA). exists A. split; auto.
  unfold term in HA. destruct (Rltb (/ Cmod w) 1e-6) eqn:E; [apply Rltb_true in E; lra|]. now rewrite Rmult_0_r, Rplus_0_r in HA.
Qed.
Print Assumptions C76_pair_merges_partial.
(** beyond, the root near [- 1 / conj w], which is no image, is counted as well *)
Theorem C76_pair_merges_refuted : forall poly_roots q w, 0 < q -> 10 ^ 6 < Cmod w -> pair_merges_to poly_roots q w (A_point (Cmod w) + 1 / (Cmod w ^ 4 - 1)).
Proof.
  intros pr q w Hq Hb eps He. assert (P : 0 < Cmod w) by lra. assert (Hw : w <> RtoC 0) by (intros E; rewrite E, Cmod_0 in P; lra).
  assert (R1 : / Cmod w < 1e-6). { replace 1e-6 with (/ 10 ^ 6) by lra. apply Rinv_lt_contravar; [apply Rmult_lt_0_compat; lra|auto]. }
  destruct (close_tends q w Hq Hw pr) with (eps := eps) as (d & Hd & K); [lra|auto|]. exists d. split; auto. intros s p Hs Hsd Es Eq Hsol. destruct (K s p Hs Hsd Es Eq Hsol) as (A & EA & HA). exists A. split; auto.
  assert (F : 1 < Cmod w ^ 4) by (apply Rlt_pow_R1; [lra|lia]). unfold term in HA. apply Rltb_true in R1. rewrite R1, Rmult_1_r in HA. rewrite (Rabs_left (1 - Cmod w ^ 4)) in HA by lra. now replace (- (1 - Cmod w ^ 4)) with (Cmod w ^ 4 - 1) in HA by ring.
Qed.
Print Assumptions C76_pair_merges_refuted.
(** and the one-lens branch of the same function does not return that limit: it lies above by [2 / (u sqrt (u^2 + 4))] *)
Theorem C76_one_lens_call_refuted : forall poly_roots p w, w <> RtoC 0 ->
  exists A, mag_point_source poly_roots 1 p w = Ok A /\ A = A_point (Cmod w) + 2 / (Cmod w * sqrt (Cmod w ^ 2 + 4)).
Proof.
  intros pr p w Hw. assert (P : 0 < Cmod w) by now apply Cmod_gt_0. eexists. split; [now apply C10_single_magnification_value|]. assert (S2 : 0 < sqrt (Cmod w ^ 2 + 4)) by (apply sqrt_lt_R0; nra).
  assert (Q : sqrt (Cmod w ^ 2 + 4) * sqrt (Cmod w ^ 2 + 4) = Cmod w ^ 2 + 4) by (apply sqrt_sqrt; nra). unfold A_point. rewrite Rabs_pos_eq by lra. apply (Rmult_eq_reg_r (Cmod w * sqrt (Cmod w ^ 2 + 4))); [|nra].
  transitivity (Cmod w ^ 2 + 4); [field_simplify; [nra|lra]|field; lra].
Qed.
Print Assumptions C76_one_lens_call_refuted.

(** a source at distance one from the main lens, the companion at separation two: the limit is 3 / sqrt 5, and
    exact root lists exist for every mass ratio *)
Example C76_worked : (forall poly_roots, companion_fades_to poly_roots 2 (RtoC 1) (3 / sqrt 5)) /\
  (forall q, 0 < q < 1 -> exists rs, solved2 (fun _ _ => rs) 2 q (RtoC 1)).
Proof.
  split.
  - intros pr. replace (3 / sqrt 5) with (A_point (Cmod (RtoC 1))). 2: { unfold A_point. rewrite Cmod_1, Rabs_R1. replace (1 ^ 2 + 4) with 5 by ring. f_equal. field. }
    apply C76_companion_fades_partial; try lra. { apply RtoC_neq0; lra. } { intros E. apply RtoC_inj in E. lra. }
    + rewrite <- RtoC_minus, Cmod_R, Rabs_left; lra.
    + rewrite <- !RtoC_minus, !Cmod_R, (Rabs_left (1 - 2)), (Rabs_pos_eq 2) by lra. rewrite Rabs_left; lra.
  - intros q Hq. unfold solved2. cbv zeta. apply splits_exists. apply (p0_neq 2 q (RtoC 1)); try lra.
    intros m x [E|[E|[]]]; injection E as <- <-; intros E; apply RtoC_inj in E; apply (Rmult_eq_compat_r (1 + q)) in E; field_simplify in E; lra.
Qed.
