(** Lens mapping of an arbitrary system of point masses: derivative, determinant, frames, symmetries. *)
From Coq Require Import Reals List Lra Lia.
From Coquelicot Require Import Complex.
From Verif Require Import Base_R Base_List Base_C S_PointSource.
Import ListNotations.
Local Open Scope R_scope.
Local Open Scope C_scope.

Definition jac_of (g : C) : mat2 := mk2 (1 + fst g) (snd g) (snd g) (1 - fst g).

Lemma shear_cons m p L z : shear ((m, p) :: L) z = RtoC m / (Cconj (z - p)) ^ 2 + shear L z.
Proof. reflexivity. Qed.
Lemma deflection_cons m p L z : deflection ((m, p) :: L) z = RtoC m / Cconj (z - p) + deflection L z.
Proof. reflexivity. Qed.
Lemma det_jac_of g : det2 (jac_of g) = (1 - Cmod g * Cmod g)%R.
Proof. unfold det2, jac_of; simpl. rewrite Cmod_sq. ring. Qed.
Lemma apply_jac_of g h : apply2 (jac_of g) h = h + g * Cconj h.
Proof. apply Ceq; simpl; ring. Qed.

Definition mat_sub (M N : mat2) : mat2 := mk2 (m11 M - m11 N) (m12 M - m12 N) (m21 M - m21 N) (m22 M - m22 N).

Lemma has_derivative_unique F z M N : has_derivative F z M -> has_derivative F z N -> M = N.
Proof.
  intros HM HN.
  assert (K : forall eps, (0 < eps)%R -> exists delta, (0 < delta)%R /\ forall h, (Cmod h < delta)%R ->
      (Cmod (apply2 M h - apply2 N h) <= eps * Cmod h)%R).
  { intros eps He. destruct (HM (eps/2)%R ltac:(lra)) as (d1 & D1 & H1).
    destruct (HN (eps/2)%R ltac:(lra)) as (d2 & D2 & H2).
    exists (Rmin d1 d2). split. now apply Rmin_pos.
    intros h Hh. specialize (H1 h (Rlt_le_trans _ _ _ Hh (Rmin_l _ _))).
    specialize (H2 h (Rlt_le_trans _ _ _ Hh (Rmin_r _ _))).
    replace (apply2 M h - apply2 N h) with ((F (z+h) - F z - apply2 N h) - (F (z+h) - F z - apply2 M h)) by ring.
    eapply Rle_trans. unfold Cminus at 1. apply Cmod_triangle. rewrite Cmod_opp. lra. }
  assert (E : forall h0, apply2 M h0 = apply2 N h0).
  { intros h0. apply Cminus_eq_0. apply Cmod_eq_0.
    destruct (Req_dec (Cmod h0) 0) as [Z|Z].
    { apply Cmod_eq_0 in Z. subst h0.
      replace (apply2 M 0 - apply2 N 0) with (RtoC 0) by (apply Ceq; unfold apply2; simpl; ring). apply Cmod_0. }
    assert (P : (0 < Cmod h0)%R) by (pose proof (Cmod_ge_0 h0); lra).
    set (D := Cmod (apply2 M h0 - apply2 N h0)).
    destruct (Rle_lt_dec D 0) as [|Dp]. { pose proof (Cmod_ge_0 (apply2 M h0 - apply2 N h0)). unfold D in *. lra. }
    exfalso.
    destruct (K (D / (2 * Cmod h0))%R) as (d & Dd & H). { apply Rdiv_lt_0_compat; lra. }
    set (t := (d / (2 * Cmod h0))%R). assert (Tp : (0 < t)%R) by (apply Rdiv_lt_0_compat; lra).
    specialize (H (RtoC t * h0)).
    rewrite Cmod_mult, Cmod_R, (Rabs_pos_eq t) in H by lra.
    assert (Et : (t * Cmod h0 = d / 2)%R) by (unfold t; field; lra).
    rewrite Et in H. specialize (H ltac:(lra)).
    replace (apply2 M (RtoC t * h0) - apply2 N (RtoC t * h0)) with (RtoC t * (apply2 M h0 - apply2 N h0)) in H
      by (apply Ceq; unfold apply2; simpl; ring).
    rewrite Cmod_mult, Cmod_R, (Rabs_pos_eq t) in H by lra. fold D in H.
    replace (d/2)%R with (t * Cmod h0)%R in H.
    replace (D / (2 * Cmod h0) * (t * Cmod h0))%R with (t * (D / 2))%R in H by (field; lra).
    nra. }
  pose proof (E (RtoC 1)) as E1. pose proof (E Ci) as E2. 
  unfold apply2, Ci in E1, E2; simpl in E1, E2. injection E1; injection E2; intros.
  destruct M, N; simpl in *. f_equal; lra.
Qed.

Lemma inv_expand (u h : C) : u <> 0 -> u + h <> 0 -> / (u + h) - / u + h / u ^ 2 = h * h / (u ^ 2 * (u + h)).
Proof. intros. field. auto. Qed.

Lemma Cmod_sub_ge (u h : C) : (Cmod u - Cmod h <= Cmod (u + h))%R.
Proof.
  pose proof (Cmod_triangle (u + h) (- h)) as T. rewrite Cmod_opp in T.
  replace (u + h + - h) with u in T by ring. lra.
Qed.

Lemma inv_remainder (u h : C) : u <> 0 -> (Cmod h <= Cmod u / 2)%R ->
  (Cmod (/ (u + h) - / u + h / u ^ 2)%C <= 2 / (Cmod u) ^ 3 * (Cmod h * Cmod h))%R.
Proof.
  intros Hu Hh. assert (P : (0 < Cmod u)%R) by now apply Cmod_gt_0.
  assert (G : (Cmod u / 2 <= Cmod (u + h))%R) by (pose proof (Cmod_sub_ge u h); lra).
  assert (N : u + h <> 0) by (apply Cmod_pos_neq; lra).
  rewrite inv_expand by auto.
  rewrite Cmod_div, !Cmod_mult, Cmod_pow. 2:{ apply Cmult_neq_0; auto. now apply Cpow_neq0. }
  replace (2 / Cmod u ^ 3 * (Cmod h * Cmod h))%R with (Cmod h * Cmod h * (2 / Cmod u ^ 3))%R by ring.
  unfold Rdiv at 1. apply Rmult_le_compat_l. { pose proof (Cmod_ge_0 h); nra. }
  assert (Hp : (0 < Cmod u ^ 2)%R) by now apply pow_lt.
  replace (2 / Cmod u ^ 3)%R with (/ (Cmod u ^ 2 * (Cmod u / 2)))%R by (field; lra).
  apply Rinv_le_contravar. { apply Rmult_lt_0_compat; lra. } apply Rmult_le_compat_l; lra.
Qed.

Lemma deflection_expand L z : off_masses L z ->
  exists K d, (0 < d)%R /\ (0 <= K)%R /\ forall h, (Cmod h < d)%R ->
    (Cmod (deflection L (z + h) - deflection L z + shear L z * Cconj h)%C <= K * (Cmod h * Cmod h))%R.
Proof.
  induction L as [|[m p] L IH]; intros Hoff.
  - exists 0%R, 1%R. repeat split; try lra. intros h _. simpl.
    replace (RtoC 0 - RtoC 0 + RtoC 0 * Cconj h) with (RtoC 0) by ring. rewrite Cmod_0. lra.
  - destruct IH as (K & d & Hd & HK & IH). { intros m' p' H. eapply Hoff. right; eauto. }
    assert (Hu : z - p <> 0). { intros E. apply (Hoff m p). left; auto. now apply Cminus_eq_0. }
    set (u := Cconj (z - p)). assert (Hu' : u <> 0) by now apply Cconj_neq0.
    assert (Up : (0 < Cmod u)%R) by now apply Cmod_gt_0.
    assert (U3 : (0 < Cmod u ^ 3)%R) by now apply pow_lt.
    exists (Rabs m * (2 / Cmod u ^ 3) + K)%R, (Rmin d (Cmod u / 2))%R. split; [|split].
    + apply Rmin_pos; lra.
    + assert (0 <= 2 / Cmod u ^ 3)%R by (left; apply Rdiv_lt_0_compat; lra). pose proof (Rabs_pos m). nra.
    + intros h Hh. pose proof (Rmin_l d (Cmod u / 2)). pose proof (Rmin_r d (Cmod u / 2)).
      specialize (IH h ltac:(lra)). 
      pose proof (inv_remainder u (Cconj h) Hu') as R1. rewrite Cmod_conj in R1. specialize (R1 ltac:(lra)).
      rewrite !deflection_cons, shear_cons. fold u.
      replace (Cconj (z + h - p)) with (u + Cconj h) by (unfold u; autorewrite with cconj; ring).
      replace (RtoC m / (u + Cconj h) + deflection L (z + h) - (RtoC m / u + deflection L z)
               + (RtoC m / u ^ 2 + shear L z) * Cconj h)
        with (RtoC m * (/ (u + Cconj h) - / u + Cconj h / u ^ 2) +
              (deflection L (z + h) - deflection L z + shear L z * Cconj h))
        by (unfold Cdiv; ring).
      eapply Rle_trans. apply Cmod_triangle. rewrite Cmod_mult, Cmod_R.
      pose proof (Rabs_pos m). nra.
Qed.

Theorem lens_map_derivative L z : off_masses L z -> has_derivative (lens_map L) z (jac_of (shear L z)).
Proof.
  intros Hoff eps He. destruct (deflection_expand L z Hoff) as (K & d & Hd & HK & H).
  exists (Rmin d (eps / (K + 1)))%R. split.
  { apply Rmin_pos; auto. apply Rdiv_lt_0_compat; lra. }
  intros h Hh. pose proof (Rmin_l d (eps / (K + 1))%R). pose proof (Rmin_r d (eps / (K + 1))%R).
  specialize (H h ltac:(lra)). rewrite apply_jac_of. unfold lens_map.
  replace (z + h - deflection L (z + h) - (z - deflection L z) - (h + shear L z * Cconj h))
    with (- (deflection L (z + h) - deflection L z + shear L z * Cconj h)) by ring.
  rewrite Cmod_opp. eapply Rle_trans; [exact H|].
  assert (Cmod h <= eps / (K + 1))%R by lra. pose proof (Cmod_ge_0 h).
  assert (K * Cmod h <= eps)%R.
  { apply Rle_trans with (K * (eps / (K + 1)))%R. now apply Rmult_le_compat_l.
    apply Rle_trans with ((K + 1) * (eps / (K + 1)))%R. apply Rmult_le_compat_r; [|lra].
    left; apply Rdiv_lt_0_compat; lra. right; field; lra. }
  nra.
Qed.

(** ** change of frame *)
Definition shift_lens (c : C) (L : lens_system) : lens_system := map (fun mp => (fst mp, snd mp + c)) L.
Lemma shift_off c L z : off_masses (shift_lens c L) (z + c) <-> off_masses L z.
Proof.
  unfold off_masses, shift_lens. split; intros H m p Hin.
  - intros ->. apply (H m (p + c)); auto. apply in_map_iff. now exists (m, p).
  - apply in_map_iff in Hin. destruct Hin as ([m' p'] & E & Hin). injection E; intros; subst.
    simpl. intros E'. apply (H _ _ Hin). replace z with (z + c - c) by ring. rewrite E'. simpl. ring.
Qed.
Lemma shift_deflection c L z : deflection (shift_lens c L) (z + c) = deflection L z.
Proof.
  induction L as [|[m p] L IH]; simpl; auto. rewrite IH. f_equal. f_equal. f_equal. ring.
Qed.
Lemma shift_shear c L z : shear (shift_lens c L) (z + c) = shear L z.
Proof.
  induction L as [|[m p] L IH]; simpl; auto. rewrite IH. do 2 f_equal.
  replace (z + c - (p + c)) with (z - p) by ring. reflexivity.
Qed.
Lemma shift_lens_map c L z : lens_map (shift_lens c L) (z + c) = lens_map L z + c.
Proof. unfold lens_map. rewrite shift_deflection. ring. Qed.
Lemma shift_image c L w z : is_image (shift_lens c L) (w + c) (z + c) <-> is_image L w z.
Proof.
  unfold is_image. rewrite shift_off, shift_lens_map. split; intros (A & B); split; auto.
  - replace (lens_map L z) with (lens_map L z + c - c) by ring. rewrite B. ring.
  - now rewrite B.
Qed.

(** ** order of the masses is irrelevant *)
From Coq Require Import Permutation.
Lemma perm_deflection L L' z : Permutation L L' -> deflection L z = deflection L' z.
Proof. induction 1 as [|[m p]|[m p] [m' p']|]; simpl; try congruence. ring. Qed.
Lemma perm_shear L L' z : Permutation L L' -> shear L z = shear L' z.
Proof. induction 1 as [|[m p]|[m p] [m' p']|]; simpl; try congruence. ring. Qed.
Lemma perm_off L L' z : Permutation L L' -> off_masses L z -> off_masses L' z.
Proof. intros P H m p Hin. eapply H. eapply Permutation_in; [apply Permutation_sym|]; eauto. Qed.
Lemma perm_image L L' w z : Permutation L L' -> is_image L w z -> is_image L' w z.
Proof.
  intros P (A & B). split. eapply perm_off; eauto. unfold lens_map in *.
  now rewrite <- (perm_deflection L L').
Qed.

(** ** reflection and half-turn *)
Definition conj_lens (L : lens_system) : lens_system := map (fun mp => (fst mp, Cconj (snd mp))) L.
Definition neg_lens (L : lens_system) : lens_system := map (fun mp => (fst mp, - snd mp)) L.
Lemma conj_deflection L z : deflection (conj_lens L) (Cconj z) = Cconj (deflection L z).
Proof.
  induction L as [|[m p] L IH]; simpl. now rewrite Cconj_RtoC.
  rewrite IH. autorewrite with cconj. reflexivity.
Qed.
Lemma conj_shear L z : shear (conj_lens L) (Cconj z) = Cconj (shear L z).
Proof.
  induction L as [|[m p] L IH]; simpl. now rewrite Cconj_RtoC.
  rewrite IH. autorewrite with cconj. reflexivity.
Qed.
Lemma conj_off L z : off_masses (conj_lens L) (Cconj z) <-> off_masses L z.
Proof.
  unfold off_masses, conj_lens. split; intros H m p Hin.
  - intros ->. apply (H m (Cconj p)); auto. apply in_map_iff. now exists (m, p).
  - apply in_map_iff in Hin. destruct Hin as ([m' p'] & E & Hin). injection E; intros; subst. simpl.
    intros E'. apply Cconj_inj in E'. now apply (H _ _ Hin).
Qed.
Lemma conj_lens_map L z : lens_map (conj_lens L) (Cconj z) = Cconj (lens_map L z).
Proof. unfold lens_map. rewrite conj_deflection. now autorewrite with cconj. Qed.
Lemma conj_image L w z : is_image (conj_lens L) (Cconj w) (Cconj z) <-> is_image L w z.
Proof.
  unfold is_image. rewrite conj_off, conj_lens_map. split; intros (A & B); split; auto.
  now apply Cconj_inj. now rewrite B.
Qed.
Lemma Copp_neq0 (y : C) : y <> 0 -> - y <> 0.
Proof. intros H E. apply H. replace y with (- - y) by ring. rewrite E. ring. Qed.
Lemma Cdiv_opp (x y : C) : x / - y = - (x / y).
Proof.
  destruct (Ceq_dec y 0) as [->|N].
  - replace (- RtoC 0) with (RtoC 0) by ring. unfold Cdiv. rewrite Cinv_0. ring.
  - field. split; auto. now apply Copp_neq0.
Qed.
Lemma neg_deflection L z : deflection (neg_lens L) (- z) = - deflection L z.
Proof.
  induction L as [|[m p] L IH]; simpl. ring. rewrite IH.
  replace (- z - - p) with (- (z - p)) by ring. rewrite Cconj_opp, Cdiv_opp. ring.
Qed.
Lemma neg_shear L z : shear (neg_lens L) (- z) = shear L z.
Proof.
  induction L as [|[m p] L IH]; simpl. auto. rewrite IH.
  replace (- z - - p) with (- (z - p)) by ring. rewrite Cconj_opp.
  do 2 f_equal. ring.
Qed.
Lemma neg_lens_map L z : lens_map (neg_lens L) (- z) = - lens_map L z.
Proof. unfold lens_map. rewrite neg_deflection. ring. Qed.
