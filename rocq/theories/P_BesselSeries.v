(** The power series of the Bessel functions: derivatives, recurrences, truncation. *)
From Coq Require Import Reals List ZArith Lia Lra Bool.
From Coquelicot Require Import Coquelicot.
From Verif Require Import S_Bessel P_PolyZ.
Import ListNotations.
Local Open Scope R_scope.

Definition bc (n k : nat) : R := (-1) ^ k / (4 ^ k * INR (fact k) * INR (fact (k + n))).
Definition G (n : nat) (z : R) : R := PSeries (bc n) z.
Lemma bc_pos n k : 0 < 4 ^ k * INR (fact k) * INR (fact (k + n)).
Proof. repeat apply Rmult_lt_0_compat; try apply INR_fact_lt_0. apply pow_lt; lra. Qed.
Lemma bc_nz n k : bc n k <> 0.
Proof. unfold bc. apply Rmult_integral_contrapositive_currified; [apply pow_nonzero; lra|]. apply Rinv_neq_0_compat. pose proof (bc_pos n k); lra. Qed.
Lemma bc_next n k : bc n (S k) = - bc n k / (4 * INR (S k) * INR (S k + n)).
Proof.
  unfold bc. change (S k + n)%nat with (S (k + n)). rewrite (fact_simpl k), (fact_simpl (k + n)), !mult_INR. cbn [pow]. field.
  pose proof (INR_fact_lt_0 k). pose proof (INR_fact_lt_0 (k + n)). pose proof (pow_lt 4 k ltac:(lra)). rewrite !S_INR. pose proof (pos_INR k). pose proof (pos_INR (k + n)). repeat split; lra.
Qed.
Lemma bc_order n k : bc n k = INR (k + n + 1) * bc (S n) k.
Proof.
  unfold bc. replace (k + S n)%nat with (S (k + n)) by lia. rewrite (fact_simpl (k + n)), mult_INR. replace (k + n + 1)%nat with (S (k + n)) by lia. field.
  pose proof (INR_fact_lt_0 k). pose proof (INR_fact_lt_0 (k + n)). pose proof (pow_lt 4 k ltac:(lra)). rewrite !S_INR. pose proof (pos_INR (k + n)). repeat split; lra.
Qed.
Lemma bc_ratio n : is_lim_seq (fun k => Rabs (bc n (S k) / bc n k)) 0.
Proof.
  apply (is_lim_seq_le_le (fun _ => 0) _ (fun k => / INR (S k))).
  - intros k. split; [apply Rabs_pos|]. rewrite bc_next. pose proof (bc_nz n k). assert (H1 : 0 < INR (S k)) by (apply lt_0_INR; lia). assert (H2 : 1 <= INR (S k + n)) by (apply (le_INR 1); lia).
    replace (- bc n k / (4 * INR (S k) * INR (S k + n)) / bc n k) with (- (/ INR (S k) * / (4 * INR (S k + n)))) by (field; repeat split; lra). rewrite Rabs_Ropp, Rabs_mult. rewrite !Rabs_pos_eq by (left; apply Rinv_0_lt_compat; lra).
    rewrite <- (Rmult_1_r (/ INR (S k))) at 2. apply Rmult_le_compat_l; [left; apply Rinv_0_lt_compat; lra|]. rewrite <- Rinv_1. apply Rinv_le_contravar; lra.
  - apply is_lim_seq_const.
  - apply (is_lim_seq_incr_1 (fun k => / INR k)). replace (Finite 0) with (Rbar_inv p_infty) by reflexivity. apply is_lim_seq_inv; [apply is_lim_seq_INR|discriminate].
Qed.
Lemma bc_radius n : CV_radius (bc n) = p_infty.
Proof. apply CV_radius_infinite_DAlembert; [apply bc_nz|apply bc_ratio]. Qed.
Lemma bc_inside n (z : R) : Rbar_lt (Rabs z) (CV_radius (bc n)).
Proof. rewrite bc_radius. exact I. Qed.
Lemma bc_ex n (z : R) : ex_pseries (bc n) z.
Proof. apply CV_disk_correct. apply CV_disk_inside, bc_inside. Qed.
Lemma G_derive n (z : R) : is_derive (G n) z (- G (S n) z / 4).
Proof.
  unfold G. evar_last. { apply is_derive_PSeries. apply bc_inside. }
  rewrite (PSeries_ext _ (PS_scal (-1/4) (bc (S n)))). 2: { intros k. unfold PS_derive, PS_scal. rewrite bc_next. rewrite (bc_order n k). replace (k + n + 1)%nat with (S k + n)%nat by lia. change (scal (-1/4) (bc (S n) k)) with (-1/4 * bc (S n) k). field. split; apply not_0_INR; lia. }
  rewrite PSeries_scal. field.
Qed.
Lemma G_recurrence n (z : R) : G n z = INR (S n) * G (S n) z - z / 4 * G (S (S n)) z.
Proof.
  pose proof (G_derive (S n) z) as D. pose proof (is_derive_unique _ _ _ D) as U. change (Derive (PSeries (bc (S n))) z = - G (S (S n)) z / 4) in U. rewrite (Derive_PSeries (bc (S n)) z (bc_inside (S n) z)) in U.
  assert (E : G n z = INR (S n) * G (S n) z + z * PSeries (PS_derive (bc (S n))) z).
  { unfold G. rewrite <- PSeries_scal, <- PSeries_incr_1, <- PSeries_plus.
    - apply PSeries_ext. intros [|k]. + unfold PS_plus, PS_scal, PS_incr_1. rewrite bc_order. simpl (0 + n + 1)%nat. replace (n + 1)%nat with (S n) by lia. change (INR (S n) * bc (S n) 0 = INR (S n) * bc (S n) 0 + 0). ring.
      + unfold PS_plus, PS_scal, PS_incr_1, PS_derive. rewrite bc_order. change (INR (S k + n + 1) * bc (S n) (S k) = INR (S n) * bc (S n) (S k) + INR (S k) * bc (S n) (S k)). replace (S k + n + 1)%nat with (S n + S k)%nat by lia. rewrite plus_INR. ring.
    - apply (ex_pseries_scal (V := R_NormedModule)); [apply Rmult_comm|apply bc_ex].
    - apply ex_pseries_incr_1, ex_pseries_derive. apply bc_inside. }
  rewrite E, U. unfold G. field.
Qed.

Lemma besselJ_G n x : besselJ n x = (x / 2) ^ n * G n (x ^ 2).
Proof.
  unfold besselJ, G, PSeries. rewrite <- Series_scal_l. apply Series_ext. intros k. unfold bc. rewrite pow_add, pow_mult.
  replace ((x / 2) ^ 2) with (x ^ 2 / 4) by (unfold Rdiv; rewrite Rpow_mult_distr, pow_inv; replace (2 ^ 2) with 4 by ring; reflexivity).
  unfold Rdiv. rewrite (Rpow_mult_distr (x ^ 2)). rewrite pow_inv. pose proof (pow_lt 4 k ltac:(lra)). field. pose proof (INR_fact_lt_0 k). pose proof (INR_fact_lt_0 (k + n)). repeat split; lra.
Qed.
Lemma J0_derive (x : R) : is_derive (besselJ 0) x (- besselJ 1 x).
Proof.
  apply (is_derive_ext (fun x => G 0 (x ^ 2))). { intros t. rewrite besselJ_G. simpl. ring. }
  evar_last. { apply (is_derive_comp (G 0) (fun x => x ^ 2)). apply G_derive. auto_derive; [exact I|reflexivity]. }
  rewrite besselJ_G. change (2 * (x * 1) * (- G 1 (x ^ 2) / 4) = - ((x / 2) ^ 1 * G 1 (x ^ 2)))%R || (unfold scal; simpl; unfold mult; simpl; field).
Qed.
Lemma J1_derive (x : R) : x <> 0 -> is_derive (besselJ 1) x (besselJ 0 x - besselJ 1 x / x).
Proof.
  intros Hx. apply (is_derive_ext (fun x => x / 2 * G 1 (x ^ 2))). { intros t. rewrite besselJ_G. simpl. ring. }
  evar_last. { apply (is_derive_mult (fun x => x / 2) (fun x => G 1 (x ^ 2))). auto_derive; [exact I|reflexivity]. apply (is_derive_comp (G 1) (fun x => x ^ 2)). apply G_derive. auto_derive; [exact I|reflexivity]. apply Rmult_comm. }
  rewrite !besselJ_G. rewrite (G_recurrence 0 (x ^ 2)). unfold plus, mult, scal; simpl; unfold mult; simpl. field. exact Hx.
Qed.

(** truncation *)
Fixpoint psum (n k m : nat) (z : R) : R := match m with O => 0 | S m => bc n k + z * psum n (S k) m z end.
Definition Gk (n k : nat) (z : R) : R := PSeries (fun i => bc n (k + i)) z.
Lemma Gk_ex n k (z : R) : ex_pseries (fun i => bc n (k + i)) z.
Proof.
  apply CV_disk_correct, CV_disk_inside. rewrite CV_radius_infinite_DAlembert; [exact I|intros; apply bc_nz|].
  apply (is_lim_seq_ext (fun i => Rabs (bc n (S (i + k)) / bc n (i + k)))). { intros i. f_equal. f_equal; f_equal; lia. }
  apply (is_lim_seq_incr_n (fun i => Rabs (bc n (S i) / bc n i))). apply bc_ratio.
Qed.
Lemma Gk_step n k z : Gk n k z = bc n k + z * Gk n (S k) z.
Proof.
  unfold Gk. rewrite PSeries_decr_1 by apply Gk_ex. rewrite Nat.add_0_r. f_equal. f_equal. apply PSeries_ext. intros i. unfold PS_decr_1. f_equal. lia.
Qed.
Lemma Gk_psum n m : forall k z, Gk n k z = psum n k m z + z ^ m * Gk n (k + m) z.
Proof.
  induction m as [|m IH]; intros k z; cbn [psum pow]; [rewrite Nat.add_0_r; ring|]. rewrite Gk_step, IH. replace (S k + m)%nat with (k + S m)%nat by lia. ring.
Qed.
Lemma bc_decay n K z i : 0 <= z <= 2 * INR (S K) * INR (S K + n) -> Rabs (bc n (K + i) * z ^ i) <= Rabs (bc n K) * (/ 2) ^ i.
Proof.
  intros Hz. induction i as [|i IH]. { rewrite Nat.add_0_r. simpl. rewrite !Rmult_1_r. lra. }
  replace (K + S i)%nat with (S (K + i)) by lia. rewrite bc_next. set (d := 4 * INR (S (K + i)) * INR (S (K + i) + n)).
  assert (H1 : INR (S K) <= INR (S (K + i))) by (apply le_INR; lia). assert (H2 : INR (S K + n) <= INR (S (K + i) + n)) by (apply le_INR; lia). assert (H3 : 0 < INR (S K)) by (apply lt_0_INR; lia). assert (H4 : 0 < INR (S K + n)) by (apply lt_0_INR; lia).
  assert (Hd : 2 * z <= d). { unfold d. pose proof (Rmult_le_compat _ _ _ _ (Rlt_le _ _ H3) (Rlt_le _ _ H4) H1 H2). nra. }
  assert (Hd0 : 0 < d) by (unfold d; apply Rmult_lt_0_compat; lra).
  replace (- bc n (K + i) / d * z ^ S i) with (- (bc n (K + i) * z ^ i * (z / d))) by (simpl; field; lra). rewrite Rabs_Ropp, Rabs_mult. simpl pow. rewrite (Rabs_pos_eq (z / d)) by (apply Rmult_le_pos; [lra|left; apply Rinv_0_lt_compat; auto]).
  replace (Rabs (bc n K) * (/ 2 * (/ 2) ^ i)) with (Rabs (bc n K) * (/ 2) ^ i * / 2) by ring. apply Rmult_le_compat; auto using Rabs_pos. apply Rmult_le_pos; [lra|left; apply Rinv_0_lt_compat; auto].
  apply (Rmult_le_reg_r d); auto. unfold Rdiv. rewrite Rmult_assoc, Rinv_l by lra. lra.
Qed.
Lemma Gk_small n K z : 0 <= z <= 2 * INR (S K) * INR (S K + n) -> Rabs (Gk n K z) <= 2 * Rabs (bc n K).
Proof.
  intros Hz. unfold Gk, PSeries. assert (Hg : is_series (fun i => Rabs (bc n K) * (/ 2) ^ i) (2 * Rabs (bc n K))).
  { replace (2 * Rabs (bc n K)) with (Rabs (bc n K) * / (1 - / 2)) by field. apply (is_series_scal_l (V := R_NormedModule)). apply is_series_geom. rewrite Rabs_pos_eq; lra. }
  assert (He : ex_series (fun i => Rabs (bc n (K + i) * z ^ i))). { apply (ex_series_le (V := R_CompleteNormedModule) _ (fun i => Rabs (bc n K) * (/ 2) ^ i)); [|eexists; exact Hg]. intros i. change (Rabs (Rabs (bc n (K + i) * z ^ i)) <= Rabs (bc n K) * (/ 2) ^ i). rewrite Rabs_Rabsolu. apply bc_decay; auto. }
  eapply Rle_trans; [apply Series_Rabs; exact He|]. rewrite <- (is_series_unique _ _ Hg). apply Series_le; [|eexists; exact Hg]. intros i. split; [apply Rabs_pos|apply bc_decay; auto].
Qed.
Lemma G_truncated n K z : 0 <= z <= 2 * INR (S K) * INR (S K + n) -> Rabs (G n z - psum n 0 K z) <= 2 * Rabs (bc n K) * z ^ K.
Proof.
  intros Hz. change (G n z) with (Gk n 0 z). rewrite (Gk_psum n K 0 z). replace (psum n 0 K z + z ^ K * Gk n (0 + K) z - psum n 0 K z) with (z ^ K * Gk n K z) by (simpl; ring).
  rewrite Rabs_mult, Rabs_pos_eq by (apply pow_le; lra). rewrite Rmult_comm. apply Rmult_le_compat_r; [apply pow_le; lra|]. apply Gk_small; auto.
Qed.
(** the truncated series as an integer polynomial over a common denominator *)
Fixpoint chain (n k : Z) (l : list Z) : bool := match l with c :: ((c' :: _) as t) => Z.eqb (c' * (4 * (k + 1) * (k + 1 + n))) (- c) && chain n (k + 1) t | _ => true end.
Lemma chain_sum n D z : forall l k, chain (Z.of_nat n) (Z.of_nat k) l = true -> (forall c t, l = c :: t -> IZR c = D * bc n k) -> ev l z = D * psum n k (length l) z.
Proof.
  induction l as [|c t IH]; intros k H Hc; cbn [ev length psum]; [ring|]. rewrite (Hc c t eq_refl).
  rewrite (IH (S k)); [ring| |].
  - destruct t; [reflexivity|]. cbn [chain] in H. apply andb_prop in H as [_ H]. rewrite Nat2Z.inj_succ. exact H.
  - intros c' t' ->. cbn [chain] in H. apply andb_prop in H as [H _]. apply Z.eqb_eq in H. apply (f_equal IZR) in H. rewrite mult_IZR, opp_IZR, (Hc c (c' :: t') eq_refl) in H. rewrite bc_next.
    replace (IZR (4 * (Z.of_nat k + 1) * (Z.of_nat k + 1 + Z.of_nat n))) with (4 * INR (S k) * INR (S k + n)) in H. 2: { rewrite !mult_IZR, !plus_IZR, <- !INR_IZR_INZ, plus_INR, S_INR. reflexivity. }
    assert (H1 : 0 < INR (S k)) by (apply lt_0_INR; lia). assert (H2 : 0 < INR (S k + n)) by (apply lt_0_INR; lia). apply (Rmult_eq_reg_r (4 * INR (S k) * INR (S k + n))); [|apply Rgt_not_eq, Rmult_lt_0_compat; lra]. rewrite H. field. lra.
Qed.
