(** Images for an arbitrary source position, including one exactly behind a mass. *)
From Coq Require Import Reals List Lra Lia Bool Arith ZArith Permutation.
From Coquelicot Require Import Complex.
From Verif Require Import Base_R Base_List Base_C M_Utils M_Coeffs M_PointSource S_PointSource S_Poly
  P_Lens P_Poly P_PolyRoots P_PointSource P_Images P_Count.
Import ListNotations.
Local Open Scope R_scope.
Local Open Scope C_scope.

Lemma splits_lists cs rs : hd (RtoC 0) cs <> 0 -> splits cs rs -> lists_roots cs rs.
Proof. intros H S z Z. now apply (splits_root cs rs). Qed.
Lemma lists_exists cs : (exists z, peval cs z <> 0) -> exists rs, lists_roots cs rs /\ (length rs <= length cs - 1)%nat.
Proof.
  induction cs as [|c t IH]; intros (z & Hz).
  - exfalso. apply Hz. reflexivity.
  - destruct (Ceq_dec c 0) as [->|N].
    + destruct IH as (rs & L & Hn). { exists z. intros E. apply Hz. rewrite peval_cons, E. ring. }
      exists rs. split. intros x X. apply L. rewrite peval_cons in X. rewrite <- X. ring. simpl. lia.
    + destruct (splits_exists (c :: t) N) as (rs & S). exists rs. split. now apply splits_lists.
      rewrite (splits_length (c :: t)); auto.
Qed.
Lemma images_few cs L w : (exists z, peval cs z <> 0) -> (forall z, is_image L w z -> peval cs z = 0) ->
  exists imgs, all_images L w imgs /\ (length imgs <= length cs - 1)%nat.
Proof.
  intros Hd H. destruct (lists_exists cs Hd) as (rs & S & Hn).
  destruct (finite_subset (is_image L w) rs) as (l & Hl & Hi). { intros z Hz. apply S. auto. }
  exists l. split. split; auto. apply Nat.le_trans with (length rs); auto.
  apply NoDup_incl_length; auto. intros z Hz. apply S, H. now apply Hi.
Qed.

(** the sum over masked roots is not below the sum over any images *)
Lemma listed_ge L w tol rs (lens : C -> C) (det : C -> R) l : (0 < tol)%R -> (forall z, lens z = lens_map L z) ->
  (forall z, is_image L w z -> In z rs) -> NoDup l -> (forall z, In z l -> is_image L w z) ->
  (sumR (map (fun z => 1 / Rabs (det z))%R l) <= sum_inv_det det (rs, map (fun z => Rltb (Cmod (lens z - w)) tol) rs))%R.
Proof.
  intros Ht HL Ha Hn Hi. unfold sum_inv_det; simpl. rewrite (sum_masked (fun z => 1 / Rabs (det z))%R).
  apply sum_incl; auto; [|intros; apply inv_abs_nonneg].
  intros z Hz. apply filter_In. split; auto. apply (image_mask L); auto.
Qed.
Lemma NoDup_shift (c : C) l : NoDup l -> NoDup (map (fun z => z - c) l).
Proof. intros H. apply FinFun.Injective_map_NoDup; auto. intros x y E. replace x with (x - c + c) by ring. rewrite E. ring. Qed.

Section Two.
Variables (poly_roots : list C -> option (list C) -> list C) (s q : R) (w : C).
Hypothesis Hq : (0 < q)%R.
Let a := (0.5 * s)%R. Let e1 := (q / (1 + q))%R. Let c := RtoC (x_cm a q).
Let cs := poly_coeffs_binary (w - c) a e1.
Let P : Permutation (binary_lens s q) (shift_lens c (binary_mid a e1)).
Proof. apply binary_frame. lra. Qed.
Lemma two_listed z : lists_roots cs (poly_roots cs None) -> is_image (binary_lens s q) w z ->
  exists k, (k < length (fst (images2 poly_roots a e1 (w - c)%C None)))%nat /\
    nth k (fst (images2 poly_roots a e1 (w - c)%C None)) (RtoC 0) + c = z /\
    nth k (snd (images2 poly_roots a e1 (w - c)%C None)) false = true.
Proof.
  intros S H. apply (frame_image _ _ c w z P) in H.
  assert (Hin : In (z - c) (poly_roots cs None)) by (apply S; now apply binary_image_is_root).
  destruct (In_nth _ _ (RtoC 0) Hin) as (k & Hk & E).
  exists k. simpl. fold cs. split; auto. split. { rewrite E. ring. }
  rewrite (nth_map_lt _ _ _ (RtoC 0)) by auto. rewrite E.
  apply (image_mask (binary_mid a e1)); auto. lra. apply lens_eq2_map.
Qed.
Lemma two_nonzero : s <> 0%R -> exists z, peval cs z <> 0.
Proof.
  intros Hs. assert (Ha : a <> 0%R) by (unfold a; lra). pose proof (e1_range q Hq) as He.
  destruct (Ceq_dec (a - (w - c)) 0) as [E|N].
  - exists (- RtoC a). unfold cs. rewrite binary_poly_at_ma.
    replace (w - c) with (RtoC a) by (symmetry; replace (w - c) with (a - (a - (w - c))) by ring; rewrite E; ring).
    repeat apply Cmult_neq_0; try apply Cpow_neq0; try apply RtoC_neq0; try lra.
    + rewrite <- RtoC_minus. apply RtoC_neq0. fold e1 in He. lra.
    + rewrite <- RtoC_minus. apply RtoC_neq0. fold e1 in He. lra.
    + rewrite <- RtoC_plus. apply RtoC_neq0. lra.
  - exists (RtoC a). unfold cs. rewrite binary_poly_at_a.
    repeat apply Cmult_neq_0; try apply Cpow_neq0; try apply RtoC_neq0; fold e1 in He; auto; lra.
Qed.
Lemma two_few : s <> 0%R \/ off_lens_positions (binary_lens s q) w ->
  exists imgs, all_images (binary_lens s q) w imgs /\ (length imgs <= 5)%nat.
Proof.
  intros [Hs|Hw]; [|now apply binary_images_finite].
  destruct (images_few cs (binary_mid a e1) (w - c) (two_nonzero Hs)) as (l & Hl & Hn).
  { intros z. apply binary_image_is_root. }
  exists (map (fun z => z + c) l). split; [|now rewrite map_length].
  now apply (frame_all_images_back _ (binary_mid a e1)).
Qed.
Lemma two_roots_exist : s <> 0%R -> exists rs, lists_roots cs rs /\ (length rs <= 5)%nat.
Proof. intros Hs. exact (lists_exists cs (two_nonzero Hs)). Qed.
Theorem two_ge p l D : lists_roots cs (poly_roots cs None) -> p_s p = Some s -> p_q p = Some q -> NoDup l ->
  (forall z, In z l -> is_image (binary_lens s q) w z /\ jacobian_det (binary_lens s q) z (D z)) ->
  exists A, mag_point_source poly_roots 2 p w = Ok A /\ (sumR (map (fun z => 1 / Rabs (D z))%R l) <= A)%R.
Proof.
  intros S Es Eq Hn Hl. unfold mag_point_source; simpl. rewrite Es, Eq; simpl. eexists. split; [reflexivity|]. fold a e1 c. unfold images2. fold cs.
  apply Rle_trans with (sumR (map (fun z => 1 / Rabs (det_jac2 a e1 z))%R (map (fun z => z - c) l))).
  - right. rewrite map_map. f_equal. apply map_ext_in. intros z Hz. destruct (Hl z Hz) as (I & J). pose proof (binary_D s q w Hq z (D z) I J) as E. fold a e1 c in E. now rewrite E.
  - apply (listed_ge (binary_mid a e1)); [lra|apply lens_eq2_map| |now apply NoDup_shift|].
    + intros z Hz. apply S. now apply binary_image_is_root.
    + intros z Hz. apply in_map_iff in Hz as (y & <- & Hy). apply (frame_image _ _ c w y P). now apply Hl.
Qed.
End Two.

Section Three.
Variables (poly_roots : list C -> option (list C) -> list C) (s q q3 r3 psi : R) (w : C).
Let p3u := from_midpoint s q r3 psi.
Let L := triple_lens s q q3 p3u.
Hypothesis Hq : (0 < q)%R. Hypothesis Hq3 : (0 < q3)%R.
Let a := (0.5 * s)%R. Let e1 := (q / (1 + q + q3))%R. Let e2 := (1 / (1 + q + q3))%R.
Let c := RtoC (x_cm a q).
Let p3 := third_lens r3 psi.
Let cs := fst (poly_coeffs_triple_CM (w - c) a p3 e1 e2).
Let sh := snd (poly_coeffs_triple_CM (w - c) a p3 e1 e2).
Let Lm := triple_mid a e1 e2 p3.
Let P : Permutation L (shift_lens c Lm).
Proof. apply tP; auto. Qed.
Lemma three_listed z : lists_roots cs (poly_roots cs None) -> is_image L w z ->
  exists k, (k < length (fst (images3 poly_roots a r3 psi e1 e2 (w - c)%C)))%nat /\
    nth k (fst (images3 poly_roots a r3 psi e1 e2 (w - c)%C)) (RtoC 0) + c = z /\
    nth k (snd (images3 poly_roots a r3 psi e1 e2 (w - c)%C)) false = true.
Proof.
  intros S H. apply (frame_image _ _ c w z P) in H.
  set (rs := map (fun r => r + sh) (poly_roots cs None)).
  change (images3 poly_roots a r3 psi e1 e2 (w - c)) with
    (rs, map (fun zi => Rltb (Cmod (lens_eq3 a r3 psi e1 e2 zi - (w - c))) 1e-3) rs). cbn [fst snd].
  assert (Hin : In (z - c) rs).
  { apply in_map_iff. exists (z - c - sh). split. ring. apply S. now apply triple_image_root_body. }
  destruct (In_nth _ _ (RtoC 0) Hin) as (k & Hk & E).
  exists k. split; auto. split. { rewrite E. ring. }
  rewrite (nth_map_lt _ _ _ (RtoC 0)) by auto. rewrite E.
  apply (image_mask Lm); auto. lra. apply lens_eq3_map.
Qed.
Definition distinct_masses : Prop :=
  s <> 0%R /\ p3u <> RtoC (- s * q / (1 + q)) /\ p3u <> RtoC (s / (1 + q)).
Lemma three_nonzero : distinct_masses -> exists z, peval cs z <> 0.
Proof.
  intros (Hs & N1 & N2). destruct (te q q3 Hq Hq3) as (H1 & H2 & H3).
  destruct (tp3 s q r3 psi Hq N1 N2) as (Q1 & Q2). fold a p3 in Q1, Q2. fold e1 e2 in H1, H2, H3.
  assert (Ha : a <> 0%R) by (unfold a; lra).
  assert (H2a : RtoC a + a <> 0) by (rewrite <- RtoC_plus; apply RtoC_neq0; lra).
  assert (Hp3s : a - p3 <> 0) by now apply neq_sym.
  pose proof (triple_Hm e1 e2) as Hm. pose proof (triple_Hcm a e1 e2 r3 psi) as Hc. fold p3 in Hc.
  change (triple_shift_cm a p3 e1 e2) with sh in Hc.
  change cs with (triple_cm_body (w - c - sh) (- RtoC a - sh) (RtoC a - sh) (p3 - sh) e2 e1 (1 - e1 - e2)%R).
  destruct (Ceq_dec (a - (w - c)) 0) as [E|N].
  - exists (p3 - sh). rewrite (triple_at_c3 _ _ _ _ _ _ _ Hm Hc).
    replace (p3 - sh - (w - c - sh)) with (p3 - a + (a - (w - c))) by ring. rewrite E.
    replace (p3 - sh - (- RtoC a - sh)) with (p3 + a) by ring.
    replace (p3 - sh - (RtoC a - sh)) with (p3 - a) by ring.
    apply Cmult_neq_0. { intros X. apply Q1. rewrite <- X. ring. }
    apply Cpow_neq0. repeat apply Cmult_neq_0; auto. apply RtoC_neq0. lra.
  - exists (RtoC a - sh). rewrite (triple_at_c2 _ _ _ _ _ _ _ Hm Hc).
    replace (RtoC a - sh - (w - c - sh)) with (a - (w - c)) by ring.
    replace (RtoC a - sh - (- RtoC a - sh)) with (RtoC a + a) by ring.
    replace (RtoC a - sh - (p3 - sh)) with (a - p3) by ring.
    apply Cmult_neq_0; auto. apply Cpow_neq0. repeat apply Cmult_neq_0; auto. apply RtoC_neq0. lra.
Qed.
Lemma three_few : distinct_masses \/ off_lens_positions L w ->
  exists imgs, all_images L w imgs /\ (length imgs <= 10)%nat.
Proof.
  intros [Hd|Hw]; [|now apply triple_images_finite].
  destruct (images_few cs (shift_lens (- sh) Lm) (w - c + - sh) (three_nonzero Hd)) as (l & Hl & Hn).
  { intros z Hz. replace z with (z + sh + - sh) in Hz by ring. apply shift_image in Hz.
    pose proof (triple_image_root_body a e1 e2 r3 psi (w - c) (z + sh) Hz) as T.
    replace z with (z + sh - sh) by ring. exact T. }
  apply (frame_all_images_back Lm (shift_lens (- sh) Lm) sh (w - c)) in Hl.
  apply (frame_all_images_back L Lm c w) in Hl; auto.
  - eexists. split; [exact Hl|]. now rewrite !map_length.
  - unfold shift_lens. rewrite map_map. rewrite (map_ext _ (fun x => x)). now rewrite map_id.
    intros (m, pp); simpl. f_equal. ring.
Qed.
Lemma three_roots_exist : distinct_masses -> exists rs, lists_roots cs rs /\ (length rs <= 10)%nat.
Proof. intros Hd. exact (lists_exists cs (three_nonzero Hd)). Qed.
Theorem three_ge p l D : lists_roots cs (poly_roots cs None) ->
  p_s p = Some s -> p_q p = Some q -> p_q3 p = Some q3 -> p_r3 p = Some r3 -> p_psi p = Some psi -> NoDup l ->
  (forall z, In z l -> is_image L w z /\ jacobian_det L z (D z)) ->
  exists A, mag_point_source poly_roots 3 p w = Ok A /\ (sumR (map (fun z => 1 / Rabs (D z))%R l) <= A)%R.
Proof.
  intros S Es Eq E3 Er Ep Hn Hl. unfold mag_point_source; simpl. rewrite Es, Eq, E3, Er, Ep; simpl. eexists. split; [reflexivity|].
  set (rs := map (fun r => r + sh) (poly_roots cs None)).
  change (images3 poly_roots _ _ _ _ _ _) with (rs, map (fun zi => Rltb (Cmod (lens_eq3 a r3 psi e1 e2 zi - (w - c))) 1e-3) rs).
  apply Rle_trans with (sumR (map (fun z => 1 / Rabs (det_jac3 a r3 psi e1 e2 z))%R (map (fun z => z - c) l))).
  - right. rewrite map_map. f_equal. apply map_ext_in. intros z Hz. destruct (Hl z Hz) as (I & J). pose proof (t_D s q q3 r3 psi w Hq Hq3 z (D z) I J) as E. fold a e1 e2 c in E. now rewrite E.
  - apply (listed_ge Lm); [lra|apply lens_eq3_map| |now apply NoDup_shift|].
    + intros z Hz. apply in_map_iff. exists (z - sh). split; [ring|]. apply S. now apply triple_image_root_body.
    + intros z Hz. apply in_map_iff in Hz as (y & <- & Hy). apply (frame_image _ _ c w y P). now apply Hl.
Qed.
End Three.
