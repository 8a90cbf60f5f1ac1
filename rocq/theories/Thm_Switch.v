(** The point-source switch of the fast light curves: property C64. *)
From Coq Require Import Reals List Bool Arith ZArith Lia Lra.
From Coquelicot Require Import Coquelicot.
From Verif Require Import Base_R M_Fftlog M_MagFft M_MagCurve S_FiniteSource P_Switch P_Switch2.
Import ListNotations.
Local Open Scope R_scope.

Lemma A_point_sq u : u <> 0 -> A_point u = mag_sq (u ^ 2).
Proof.
  intros Hu. unfold A_point, mag_sq. pose proof (Rabs_pos_lt u Hu). assert (0 < u ^ 2) by nra. rewrite sqrt_mult by lra. assert (E : sqrt (u ^ 2) = Rabs u) by (rewrite <- pow2_abs; apply sqrt_pow2; lra). rewrite E.
  assert (0 < sqrt (u ^ 2 + 4)) by (apply sqrt_lt_R0; lra). field. lra.
Qed.
Lemma far_value interp trunc g sk A0 rs us st u rho : u <> 0 -> rho < rs -> us * rho <= Rabs u -> A_curve interp trunc g sk A0 rs us st u rho = Ok (Some (A_point u)).
Proof.
  intros Hu Hr Hf. unfold A_curve, A_small. cbv zeta. destruct (Rltb_spec rho rs); [|lra]. destruct (Rltb_spec (Rabs u) (us * rho)); [lra|]. unfold A_point_n. destruct (Reqb_spec (Rabs u) 0) as [E|_]; [exfalso; apply (Rabs_no_R0 u); auto|].
  do 2 f_equal. unfold A_point. rewrite Rabs_Rabsolu, pow2_abs. reflexivity.
Qed.

(** ** C64: replacing a small distant source by a point *)
(** the mean over the source exists and is within 0.3 percent of the returned value, for every brightness profile, in numpy and in jax *)
Theorem C64_switch : forall g sk A0 rs us st u rho S, 0 < rho -> rho < rs -> 10 <= us -> us * rho <= Rabs u ->
  (forall t, 0 <= t <= rho -> continuous S t) -> (forall t, 0 <= t <= rho -> 0 <= S t) -> 0 < RInt (fun t => S t * t) 0 rho ->
  exists a, A_np g sk A0 rs us st u rho = Ok (Some a) /\ A_jax g sk A0 rs us st u rho = Ok (Some a) /\
  ex_RInt (fun t => circle_mean magn u 0 t * (S t * t)) 0 rho /\ Rabs (source_mean magn S u 0 rho - a) <= 0.003 * a.
Proof.
  intros g sk A0 rs us st u rho S Hr Hrs Hus Hu HS HS0 Hw. assert (H10 : 10 * rho <= us * rho) by nra. assert (Hu0 : u <> 0) by (intros ->; rewrite Rabs_R0 in Hu; lra).
  exists (A_point u). split; [apply far_value; auto|]. split; [apply far_value; auto|]. rewrite (A_point_sq u Hu0). apply source_close; auto. lra.
Qed.
Print Assumptions C64_switch.
(** on every circle around the source centre already *)
Theorem C64_circle : forall u t, u <> 0 -> Rabs t <= Rabs u / 10 -> Rabs (circle_mean magn u 0 t - A_point u) <= 0.003 * A_point u.
Proof. intros u t Hu Ht. rewrite (A_point_sq u Hu). apply circle_close; auto. Qed.
Print Assumptions C64_circle.
(** a uniform source of radius 1e-5 at 2e-4 *)
Example C64_case : let S := fun _ : R => 1 in (forall t, 0 <= t <= 1e-5 -> continuous S t) /\ 0 < RInt (fun t => S t * t) 0 1e-5 /\ 10 * 1e-5 <= Rabs (-2e-4) /\
  A_np (fun z => z) (fun k _ => k) (fun _ => None) 1e-4 10 (mkcurve [] [] []) (-2e-4) 1e-5 = Ok (Some (A_point (-2e-4))).
Proof.
  intros S. split; [intros t _; apply continuous_const|]. assert (A : Rabs (-2e-4) = 2e-4) by (rewrite Rabs_left by lra; lra). split.
  - assert (E : RInt (fun t => S t * t) 0 1e-5 = 1e-5 ^ 2 / 2 - 0 ^ 2 / 2).
    { apply is_RInt_unique. apply (is_RInt_derive (fun t => t ^ 2 / 2) (fun t => S t * t)).
      - intros x _. unfold S. auto_derive; auto. field.
      - intros x _. apply (continuous_mult (fun _ => 1) (fun t : R => t)); [apply continuous_const|apply continuous_id]. }
    rewrite E. lra.
  - split; [rewrite A; lra|]. apply far_value; try rewrite A; lra.
Qed.
