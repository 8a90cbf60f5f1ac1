(** The digamma function in the right half plane: the truncated series and Gauss's limit. *)
From Coq Require Import Reals List Bool Lra Lia Arith.
From Coquelicot Require Import Coquelicot.
From Verif Require Import Base_R Base_C M_Fftlog M_Kernels P_Kernels S_Gamma P_Stirling P_Gamma P_Sine P_GammaKer S_Digamma M_Digamma.
Import ListNotations.
Local Open Scope R_scope.
Local Open Scope C_scope.

(** ** the truncated series and its failure to satisfy the functional equation *)
Definition ds_5 (t : C) : C := - RtoC 1 / RtoC 2 / t - RtoC 1 / RtoC 12 / t ^ 2 + RtoC 1 / RtoC 120 / t ^ 4 - RtoC 1 / RtoC 252 / t ^ 6 + RtoC 1 / RtoC 240 / t ^ 8 - RtoC 1 / RtoC 132 / t ^ 10.
Definition dig (t : C) : C := clogp t + ds_5 t.
Definition dstep (t : C) : C := dig (t + 1) - dig t - / t.
Arguments ds_5 t%C. Arguments dig t%C. Arguments dstep t%C.
Lemma dresidue (t : C) : t <> 0 -> t + 1 <> 0 ->
  Tlog 12 (/ t) - / t + ds_5 (t + 1) - ds_5 t = ((RtoC 37 / RtoC 210) * t ^ 9 + (RtoC 79 / RtoC 420) * t ^ 8 + (- RtoC 86 / RtoC 63) * t ^ 7 + (- RtoC 5255 / RtoC 1008) * t ^ 6 + (- RtoC 1537 / RtoC 168) * t ^ 5 + (- RtoC 7033 / RtoC 720) * t ^ 4 + (- RtoC 121 / RtoC 18) * t ^ 3 + (- RtoC 44 / RtoC 15) * t ^ 2 + (- RtoC 49 / RtoC 66) * t ^ 1 + (- RtoC 1 / RtoC 12) * t ^ 0) / (t ^ 12 * (t + 1) ^ 10).
Proof. intros H H1. rewrite Tlog_12. unfold ds_5. field. repeat split; auto; apply RtoC_neq0; lra. Qed.
Lemma num8 (n d : positive) (t : C) k m : (8 <= Cmod t)%R -> (Cmod ((RtoC (IZR (Zpos n)) / RtoC (IZR (Zpos d))) * t ^ k)%C <= IZR (Zpos n) / IZR (Zpos d) / 8 ^ m * Cmod t ^ (k + m))%R.
Proof.
  intros H. rewrite Cmod_mult, Cmod_c, Cmod_pow. assert (P : (0 < 8 ^ m)%R) by (apply pow_lt; lra). assert (Q : (8 ^ m <= Cmod t ^ m)%R) by (apply pow_incr; lra).
  assert (P2 : (0 <= Cmod t ^ k)%R) by (apply pow_le; lra). assert (P3 : (0 <= IZR (Zpos n) / IZR (Zpos d))%R) by (apply Rdiv_le_0_compat; [apply IZR_le|apply IZR_lt]; lia).
  rewrite pow_add. replace (IZR (Zpos n) / IZR (Zpos d) / 8 ^ m * (Cmod t ^ k * Cmod t ^ m))%R with (IZR (Zpos n) / IZR (Zpos d) * Cmod t ^ k * (Cmod t ^ m / 8 ^ m))%R by (unfold Rdiv; ring).
  assert (1 <= Cmod t ^ m / 8 ^ m)%R by (apply Rmult_le_reg_r with (8 ^ m)%R; auto; unfold Rdiv; rewrite Rmult_assoc, Rinv_l by lra; lra).
  assert (0 <= IZR (Zpos n) / IZR (Zpos d) * Cmod t ^ k)%R by (apply Rmult_le_pos; auto). nra.
Qed.
Lemma num8n (n d : positive) (t : C) k m : (8 <= Cmod t)%R -> (Cmod ((- RtoC (IZR (Zpos n)) / RtoC (IZR (Zpos d))) * t ^ k)%C <= IZR (Zpos n) / IZR (Zpos d) / 8 ^ m * Cmod t ^ (k + m))%R.
Proof.
  intros H. replace ((- RtoC (IZR (Zpos n)) / RtoC (IZR (Zpos d))) * t ^ k) with (- ((RtoC (IZR (Zpos n)) / RtoC (IZR (Zpos d))) * t ^ k)) by (unfold Cdiv; ring). rewrite Cmod_opp. apply num8; auto.
Qed.
Lemma dstep_bound (t : C) : 0 < Re t -> (8 <= Cmod t)%R -> (Cmod (dstep t) <= 2.25 * / Cmod t ^ 13)%R.
Proof.
  intros H H1. assert (Nz : t <> 0) by (apply Re_pos_neq0; auto). assert (N1 : t + 1 <> 0) by (apply Re_pos_neq0; change (Re (t + 1)) with (Re t + 1)%R; lra).
  replace (dstep t) with (clogp (t + 1) - clogp t - Tlog 12 (/ t) + (Tlog 12 (/ t) - / t + ds_5 (t + 1) - ds_5 t)) by (unfold dstep, dig; ring).
  replace (2.25 * / Cmod t ^ 13)%R with (2 * / Cmod t ^ 13 + 0.25 * / Cmod t ^ 13)%R by lra. apply Cmod_add_le.
  - pose proof (log_taylor 12 t H) as L. rewrite pow_inv in L by lra. exact L.
  - rewrite dresidue by auto. apply Rle_trans with (0.25 / Cmod t * / Cmod t ^ 12)%R; [|right; simpl; field; lra]. apply residue_bound; [auto|lra|].
    replace (0.25 / Cmod t * Cmod t ^ 10)%R with (0.25 * Cmod t ^ 9)%R by (simpl; field; lra).
    eapply Rle_trans; [repeat (apply Cmod_add_le);
      [apply (num8 _ _ t 9 0 H1)|apply (num8 _ _ t 8 1 H1)|apply (num8n _ _ t 7 2 H1)|apply (num8n _ _ t 6 3 H1)|apply (num8n _ _ t 5 4 H1)|apply (num8n _ _ t 4 5 H1)|apply (num8n _ _ t 3 6 H1)|apply (num8n _ _ t 2 7 H1)|apply (num8n _ _ t 1 8 H1)|apply (num8n _ _ t 0 9 H1)]|].
    cbn [Nat.add]. assert (P : (0 < Cmod t ^ 9)%R) by (apply pow_lt; lra). set (m := (Cmod t ^ 9)%R) in *. clearbody m. lra.
Qed.

(** ** Gauss's limit *)
Lemma csum_ext d d' M : (forall n, d n = d' n) -> csum d M = csum d' M.
Proof. intros H. induction M; cbn [csum]; [reflexivity|]. rewrite IHM, H. reflexivity. Qed.
Lemma csum_app d N M : csum d (N + M) = csum d N + csum (fun n => d (N + n)%nat) M.
Proof. induction M; [rewrite Nat.add_0_r; cbn [csum]; ring|]. rewrite Nat.add_succ_r. cbn [csum]. rewrite IHM. ring. Qed.
Lemma harmonic_csum n z : harmonic n z = csum (fun k => / (z + RtoC (INR k))) (S n).
Proof. induction n; cbn [harmonic]; [cbn [csum]; simpl INR; rewrite Cplus_0_l, Cplus_0_r; reflexivity|]. rewrite IHn. reflexivity. Qed.
Lemma dig_tele (t : C) M : csum (fun n => / (t + RtoC (INR n))) M = dig (t + RtoC (INR M)) - dig t - csum (fun n => dstep (t + RtoC (INR n))) M.
Proof.
  induction M as [|M IH]; cbn [csum]; [simpl INR; rewrite Cplus_0_r; ring|]. rewrite IH. unfold dstep at 3. replace (t + RtoC (INR (S M))) with (t + RtoC (INR M) + 1) by (rewrite S_INR, RtoC_plus; ring). ring.
Qed.
Lemma ds_small (t : C) : (1 <= Cmod t)%R -> (Cmod (ds_5 t) <= / Cmod t)%R.
Proof.
  intros H. unfold ds_5. assert (0 < / Cmod t)%R by (apply Rinv_0_lt_compat; lra).
  eapply Rle_trans; [apply Cmod_sub_le; [apply Cmod_add_le; [apply Cmod_sub_le; [apply Cmod_add_le; [apply Cmod_sub_le; [|apply gs_term]|apply gs_term]|apply gs_term]|apply gs_term]|apply gs_term]; auto|].
  - replace (- RtoC 1 / RtoC 2 / t) with (- (RtoC 1 / RtoC 2 / t)) by (unfold Cdiv; ring). rewrite Cmod_opp. apply gs_term1. auto.
  - lra.
Qed.
Lemma dig_far (z : C) : 0 <= Re z -> clim (fun n => RtoC (ln (INR n)) - dig (z + RtoC (INR (S n)))) 0.
Proof.
  intros Hz. set (w := z + 1). assert (Hw : 0 < Re w) by (change (Re w) with (Re z + 1)%R; lra). pose proof (Cmod_ge_0 w) as Mw.
  apply (clim_le0 _ (fun n => (2 * Cmod w ^ 2 + Cmod w + 1) * / INR n)%R 1).
  - intros n Hn. assert (P : (1 <= INR n)%R) by (apply (le_INR 1) in Hn; exact Hn). replace (z + RtoC (INR (S n))) with (RtoC (INR n) + w) by (unfold w; rewrite S_INR, RtoC_plus; ring).
    assert (Nn : RtoC (INR n) <> 0) by (apply RtoC_neq0; lra). assert (Hr : (0 < / INR n)%R) by (apply Rinv_0_lt_compat; lra).
    replace (RtoC (ln (INR n)) - dig (RtoC (INR n) + w)) with (- (clogp (RtoC (INR n) + w) - RtoC (ln (INR n)) - w / RtoC (INR n)) - w / RtoC (INR n) - ds_5 (RtoC (INR n) + w)) by (unfold dig; ring).
    eapply Rle_trans; [apply Cmod_sub_le; [apply Cmod_sub_le|]|].
    + rewrite Cmod_opp. apply log_first; [lra|auto].
    + unfold Cdiv. rewrite Cmod_mult, Cmod_inv, Cmod_R, (Rabs_pos_eq (INR n)) by (auto; lra). apply Rle_refl.
    + pose proof (Cmod_ge_Re (RtoC (INR n) + w)) as R1. change (Re (RtoC (INR n) + w)) with (INR n + Re w)%R in R1. assert (R2 : (INR n <= Cmod (RtoC (INR n) + w)%C)%R) by lra. apply Rle_trans with (/ INR n)%R; [|apply Rle_refl]. eapply Rle_trans; [apply ds_small; lra|]. apply Rinv_le_contravar; [lra|exact R2].
    + assert (Cmod w ^ 2 / INR n ^ 2 <= Cmod w ^ 2 * / INR n)%R.
      { unfold Rdiv. apply Rmult_le_compat_l; [apply pow_le; auto|]. apply Rinv_le_contravar; [lra|]. simpl. nra. }
      lra.
  - replace (Finite 0) with (Rbar_mult (2 * Cmod w ^ 2 + Cmod w + 1)%R 0) by (simpl; f_equal; ring). apply (is_lim_seq_scal_l _ _ 0), inv_INR_lim.
Qed.
Lemma clim_val u l l' : l = l' -> clim u l -> clim u l'.
Proof. intros ->. auto. Qed.
Lemma dig_shift (t : C) n : (8 <= Re t)%R -> (Cmod (dstep (t + RtoC (INR n))) <= 2.25 / 8 ^ 11 / (8 + INR n) ^ 2)%R.
Proof.
  intros H. pose proof (pos_INR n) as P. pose proof (Cmod_ge_Re (t + RtoC (INR n))) as R1. change (Re (t + RtoC (INR n))) with (Re t + INR n)%R in R1.
  eapply Rle_trans; [apply dstep_bound; [change (0 < Re t + INR n)%R; lra|lra]|]. set (m := Cmod (t + RtoC (INR n))) in *.
  assert (A : (8 ^ 11 * (8 + INR n) ^ 2 <= m ^ 13)%R). { change 13%nat with (11 + 2)%nat. rewrite (pow_add m). apply Rmult_le_compat; [apply pow_le; lra|apply pow_le; lra|apply pow_incr; lra|apply pow_incr; lra]. }
  assert (0 < (8 + INR n) ^ 2)%R by (apply pow_lt; lra). assert (0 < 8 ^ 11)%R by (apply pow_lt; lra).
  unfold Rdiv. rewrite !Rmult_assoc, <- Rinv_mult by lra. apply Rmult_le_compat_l; [lra|]. apply Rinv_le_contravar; auto. apply Rmult_lt_0_compat; auto.
Qed.
Lemma digamma_lim (z : C) N : 0 <= Re z -> (8 <= Re z + INR N)%R -> exists delta, (Cmod delta <= 3.75e-11)%R /\
  is_Digamma z (dig (z + RtoC (INR N)) + delta - csum (fun k => / (z + RtoC (INR k))) N).
Proof.
  intros Hz HN. set (t := z + RtoC (INR N)). assert (Ht : (8 <= Re t)%R) by exact HN.
  destruct (csum_conv (fun n => dstep (t + RtoC (INR n))) (fun n => 2.25 / 8 ^ 11 / (8 + INR n) ^ 2)%R (2.25 / 8 ^ 11 / (8 - 1))%R) as (delta & L & Q).
  { intros n. apply dig_shift; auto. }
  { intros M. apply (inv_sq_sum 8 (2.25 / 8 ^ 11)%R); lra. }
  exists delta. split; [eapply Rle_trans; [exact Q|lra]|]. unfold is_Digamma. apply (clim_unshift _ _ N).
  apply (clim_ext (fun M => (RtoC (ln (INR (M + N))) - dig (z + RtoC (INR (S (M + N))))) + ((dig t - csum (fun k => / (z + RtoC (INR k))) N) + csum (fun n => dstep (t + RtoC (INR n))) (M + 1)))).
  - intros M. rewrite harmonic_csum. replace (S (M + N)) with (N + (M + 1))%nat by lia. rewrite (csum_app _ N (M + 1)).
    rewrite (csum_ext (fun n => / (z + RtoC (INR (N + n)))) (fun n => / (t + RtoC (INR n)))) by (intros k; unfold t; rewrite plus_INR, RtoC_plus; f_equal; ring).
    rewrite (dig_tele t). replace (z + RtoC (INR (N + (M + 1)))) with (t + RtoC (INR (M + 1))) by (unfold t; rewrite (plus_INR N (M + 1)), RtoC_plus, Cplus_assoc; reflexivity). ring.
  - refine (clim_val _ _ _ _ (clim_plus _ _ _ _ (clim_shift _ _ N (dig_far z Hz)) (clim_plus _ _ _ _ (clim_const _) (clim_shift _ _ 1 L)))). ring.
Qed.

(** ** the value computed in the right half plane *)
Lemma pow_small (u : C) k : (Cmod u <= 1 / 64)%R -> (Cmod (u ^ k) <= (1 / 64) ^ k)%R.
Proof. intros H. rewrite Cmod_pow. apply pow_incr. split; [apply Cmod_ge_0|exact H]. Qed.
Lemma coef_small (c d : R) (u : C) k : (Cmod u <= 1 / 64)%R -> (Rabs c <= d)%R -> (Cmod (RtoC c * u ^ k)%C <= d * (1 / 64) ^ k)%R.
Proof.
  intros H Hd. rewrite Cmod_mult, Cmod_R. pose proof (pow_small u k H). pose proof (Rabs_pos c). apply Rmult_le_compat; auto. apply Cmod_ge_0.
Qed.
Lemma series_val (t : C) : (8 <= Cmod t)%R -> exists err, (Cmod err <= 4e-13)%R /\
  clogp t - RtoC 0.5 * / t - / t * / t * polyval (rev digamma_coeffs) (/ t * / t) = dig t + err.
Proof.
  intros H. assert (Nz : t <> 0) by (apply Cmod_pos_neq; lra). set (u := / t * / t).
  assert (Hu : (Cmod u <= 1 / 64)%R).
  { unfold u. rewrite Cmod_mult, Cmod_inv by auto. assert (A : (0 < / Cmod t)%R) by (apply Rinv_0_lt_compat; lra). assert (B : (/ Cmod t <= / 8)%R) by (apply Rinv_le_contravar; lra). nra. }
  exists (RtoC (1 / 12 - 0.08333333333333333) * u ^ 1 + RtoC (- 1 / 120 + 0.008333333333333333) * u ^ 2 + RtoC (1 / 252 - 0.003968253968253968) * u ^ 3
    + RtoC (- 1 / 240 + 0.004166666666666667) * u ^ 4 + RtoC (1 / 132 - 0.007575757575757576) * u ^ 5 + RtoC 0.021092796092796094 * u ^ 6 + RtoC (- 0.08333333333333333) * u ^ 7 + RtoC 0.4432598039215686 * u ^ 8).
  split.
  - eapply Rle_trans; [repeat (apply Cmod_add_le);
     [apply (coef_small _ 1e-16)|apply (coef_small _ 1e-16)|apply (coef_small _ 1e-16)|apply (coef_small _ 1e-16)|apply (coef_small _ 1e-16)|apply (coef_small _ 0.0211)|apply (coef_small _ 0.0834)|apply (coef_small _ 0.4433)]; auto; apply Rabs_le; lra|]. lra.
  - unfold dig, ds_5, digamma_coeffs. cbn [rev map app]. rewrite polyval_peval. cbn [peval length].
    replace (RtoC 1 / RtoC 12 / t ^ 2) with (RtoC (1 / 12) * u ^ 1) by (rewrite RtoC_div by lra; unfold u; field; repeat split; auto; apply RtoC_neq0; lra).
    replace (RtoC 1 / RtoC 120 / t ^ 4) with (RtoC (1 / 120) * u ^ 2) by (rewrite RtoC_div by lra; unfold u; field; repeat split; auto; apply RtoC_neq0; lra).
    replace (RtoC 1 / RtoC 252 / t ^ 6) with (RtoC (1 / 252) * u ^ 3) by (rewrite RtoC_div by lra; unfold u; field; repeat split; auto; apply RtoC_neq0; lra).
    replace (RtoC 1 / RtoC 240 / t ^ 8) with (RtoC (1 / 240) * u ^ 4) by (rewrite RtoC_div by lra; unfold u; field; repeat split; auto; apply RtoC_neq0; lra).
    replace (RtoC 1 / RtoC 132 / t ^ 10) with (RtoC (1 / 132) * u ^ 5) by (rewrite RtoC_div by lra; unfold u; field; repeat split; auto; apply RtoC_neq0; lra).
    replace (- RtoC 1 / RtoC 2 / t) with (- (RtoC 0.5 * / t)) by (rewrite half; field; repeat split; auto; apply RtoC_neq0; lra).
    fold u. replace (- 1 / 120 + 0.008333333333333333)%R with (- (1 / 120) + 0.008333333333333333)%R by lra. replace (- 1 / 240 + 0.004166666666666667)%R with (- (1 / 240) + 0.004166666666666667)%R by lra.
    replace (RtoC (-0.008333333333333333)) with (- RtoC 0.008333333333333333) by (rewrite <- RtoC_opp; f_equal; lra).
    replace (RtoC (-0.004166666666666667)) with (- RtoC 0.004166666666666667) by (rewrite <- RtoC_opp; f_equal; lra).
    replace (RtoC (-0.021092796092796094)) with (- RtoC 0.021092796092796094) by (rewrite <- RtoC_opp; f_equal; lra).
    replace (RtoC (-0.08333333333333333)) with (- RtoC 0.08333333333333333) by (rewrite <- RtoC_opp; f_equal; lra).
    replace (RtoC (-0.4432598039215686)) with (- RtoC 0.4432598039215686) by (rewrite <- RtoC_opp; f_equal; lra).
    rewrite ?RtoC_plus, ?RtoC_minus, ?RtoC_opp.
    generalize (RtoC (1 / 12)) (RtoC (1 / 120)) (RtoC (1 / 252)) (RtoC (1 / 240)) (RtoC (1 / 132)) (RtoC 0.08333333333333333) (RtoC 0.008333333333333333) (RtoC 0.003968253968253968) (RtoC 0.004166666666666667) (RtoC 0.007575757575757576) (RtoC 0.021092796092796094) (RtoC 0.4432598039215686) (clogp t) (RtoC 0.5 * / t).
    intros. ring.
Qed.
Lemma inv_sum_val (z : C) : (forall i, z + RtoC (INR i) <> 0) -> inv_sum z (seq 0 8) = Some (csum (fun k => / (z + RtoC (INR k))) 8).
Proof.
  intros H. cbn [seq inv_sum]. rewrite !cinv_some by apply H. cbn [cbind csum]. f_equal. ring.
Qed.
Lemma shift_neq0 (z : C) n : 0 <= Re z -> z <> 0 -> z + RtoC (INR n) <> 0.
Proof.
  intros H H0 E. apply H0. pose proof (pos_INR n). assert (E1 : (Re z + INR n = 0)%R) by (apply (f_equal Re) in E; exact E). assert (E2 : (Im z + 0 = 0)%R) by (apply (f_equal Im) in E; exact E).
  destruct z as [x y]. cbn [Re Im fst snd] in *. apply Ceq; simpl; lra.
Qed.
Lemma body_accuracy (z psi : C) : 0 <= Re z -> z <> 0 -> exists v p, digamma_body z psi = Some (psi + v) /\ is_Digamma z p /\ (Cmod (v - p)%C <= 3.8e-11)%R.
Proof.
  intros H H0. unfold digamma_body.
  assert (K : forall (t : C) N (s : C), (8 <= Re z + INR N)%R -> t = z + RtoC (INR N) -> s = csum (fun k => / (z + RtoC (INR k))) N ->
    exists v p, cbind (cinv t) (fun i => cbind (clog t) (fun l => Some (psi - s + (l - RtoC 0.5 * i) - i * i * polyval (rev digamma_coeffs) (i * i)))) = Some (psi + v) /\ is_Digamma z p /\ (Cmod (v - p)%C <= 3.8e-11)%R).
  { intros t N s HN -> ->. destruct (digamma_lim z N H HN) as (delta & D1 & D2). assert (Ht : (8 <= Re (z + RtoC (INR N))%C)%R) by exact HN. pose proof (Cmod_ge_Re (z + RtoC (INR N))) as R1.
    destruct (series_val (z + RtoC (INR N)) ltac:(lra)) as (err & E1 & E2). rewrite cinv_some by (apply Re_pos_neq0; lra). rewrite clog_clogp by lra. cbn [cbind].
    exists (dig (z + RtoC (INR N)) + err - csum (fun k => / (z + RtoC (INR k))) N). eexists. split; [|split; [exact D2|]].
    - f_equal. rewrite <- E2. ring.
    - match goal with |- (Cmod ?x <= _)%R => replace x with (err - delta) by ring end. eapply Rle_trans; [apply Cmod_sub_le; [exact E1|exact D1]|]. lra. }
  destruct (Rltb_spec (Re z) 8) as [L|L].
  - rewrite inv_sum_val by (intros i; apply shift_neq0; auto). cbn [cbind]. apply (K _ 8%nat).
    + replace (INR 8) with 8%R by (simpl; lra). lra.
    + replace (INR 8) with 8%R by (simpl; lra). reflexivity.
    + reflexivity.
  - cbn [cbind]. apply (K _ 0%nat); [simpl; lra|simpl INR; rewrite Cplus_0_r; reflexivity|reflexivity].
Qed.
