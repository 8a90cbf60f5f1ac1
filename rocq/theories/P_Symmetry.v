(** Symmetries of the lens mapping and of the point-source magnification (C12). *)
From Coq Require Import Reals List Lra Lia Bool Arith ZArith Permutation.
From Coquelicot Require Import Complex.
From Verif Require Import Base_R Base_List Base_C M_Utils M_Coeffs M_PointSource S_PointSource S_Poly
  P_Lens P_Poly P_PolyRoots P_PointSource P_Images.
Import ListNotations.
Local Open Scope R_scope.
Local Open Scope C_scope.

Lemma filter_map_comm {A B} (f : A -> B) (m : B -> bool) (m' : A -> bool) l : (forall x, m (f x) = m' x) ->
  filter m (map f l) = map f (filter m' l).
Proof. intros H. induction l as [|x l IH]; simpl; auto. rewrite H, IH. now destruct (m' x). Qed.
Lemma filter_perm {A} (m : A -> bool) l l' : Permutation l l' -> Permutation (filter m l) (filter m l').
Proof.
  induction 1; simpl; auto.
  - destruct (m x); auto.
  - destruct (m x), (m y); auto. constructor.
  - etransitivity; eauto.
Qed.
Lemma sum_sym (f : C -> C) det det' mask mask' rs rs' : Permutation rs' (map f rs) ->
  (forall z, det' (f z) = det z) -> (forall z, mask' (f z) = mask z) ->
  sum_inv_det det' (rs', map mask' rs') = sum_inv_det det (rs, map mask rs).
Proof.
  intros P Hd Hm. unfold sum_inv_det. cbn [fst snd].
  rewrite (sum_masked (fun z => 1 / Rabs (det' z))%R), (sum_masked (fun z => 1 / Rabs (det z))%R).
  rewrite (sumR_perm _ _ (Permutation_map (fun z => 1 / Rabs (det' z))%R (filter_perm mask' _ _ P))).
  rewrite (filter_map_comm f mask' mask) by auto. rewrite map_map. f_equal. apply map_ext. intros z. now rewrite Hd.
Qed.

(** ** conjugation *)
Lemma peval_conj cs z : peval (map Cconj cs) (Cconj z) = Cconj (peval cs z).
Proof. induction cs as [|c t IH]; simpl. now rewrite Cconj_RtoC. rewrite map_length, IH. now autorewrite with cconj. Qed.
Lemma prodC_conj l : prodC (map Cconj l) = Cconj (prodC l).
Proof. induction l as [|x l IH]; simpl. now rewrite Cconj_RtoC. rewrite IH. now autorewrite with cconj. Qed.
Lemma splits_conj cs rs : splits cs rs -> splits (map Cconj cs) (map Cconj rs).
Proof.
  intros S z. rewrite <- (Cconj_conj z), peval_conj, S. autorewrite with cconj. f_equal.
  - destruct cs; simpl; auto. now rewrite Cconj_RtoC.
  - rewrite <- prodC_conj, !map_map. f_equal. apply map_ext. intros r. now autorewrite with cconj.
Qed.
Lemma lens_eq2_conj (a e1 : R) (z : C) : lens_eq2 a e1 (Cconj z) = Cconj (lens_eq2 a e1 z).
Proof. unfold lens_eq2. now autorewrite with cconj. Qed.
Lemma det_jac2_conj (a e1 : R) (z : C) : det_jac2 a e1 (Cconj z) = det_jac2 a e1 z.
Proof. unfold det_jac2. f_equal. f_equal. rewrite <- Cmod_conj. f_equal. now autorewrite with cconj. Qed.
Lemma third_lens_conj r psi : third_lens r (- psi) = Cconj (third_lens r psi).
Proof. unfold third_lens. autorewrite with cconj. now rewrite Cconj_cexpi. Qed.
Lemma lens_eq3_conj (a r3 psi e1 e2 : R) (z : C) : lens_eq3 a r3 (- psi) e1 e2 (Cconj z) = Cconj (lens_eq3 a r3 psi e1 e2 z).
Proof. unfold lens_eq3. rewrite third_lens_conj. now autorewrite with cconj. Qed.
Lemma det_jac3_conj (a r3 psi e1 e2 : R) (z : C) : det_jac3 a r3 (- psi) e1 e2 (Cconj z) = det_jac3 a r3 psi e1 e2 z.
Proof. unfold det_jac3. f_equal. f_equal. rewrite <- Cmod_conj. f_equal. rewrite third_lens_conj. now autorewrite with cconj. Qed.
Lemma coeffs2_conj (w : C) (a e1 : R) : poly_coeffs_binary (Cconj w) a e1 = map Cconj (poly_coeffs_binary w a e1).
Proof.
  unfold poly_coeffs_binary. cbn [map]. autorewrite with cconj. reflexivity.
Qed.
Lemma shift_conj (a : R) p3 (e1 e2 : R) : triple_shift_cm a (Cconj p3) e1 e2 = Cconj (triple_shift_cm a p3 e1 e2).
Proof. unfold triple_shift_cm. apply Ceq; simpl; unfold Re, Im; simpl; ring. Qed.
Lemma body_conj (w c1 c2 c3 : C) (m1 m2 m3 : R) :
  triple_cm_body (Cconj w) (Cconj c1) (Cconj c2) (Cconj c3) m1 m2 m3 = map Cconj (triple_cm_body w c1 c2 c3 m1 m2 m3).
Proof. unfold triple_cm_body. cbn [map]. autorewrite with cconj. reflexivity. Qed.
Lemma coeffs3_conj (w : C) (a : R) p3 (e1 e2 : R) :
  poly_coeffs_triple_CM (Cconj w) a (Cconj p3) e1 e2
  = (map Cconj (fst (poly_coeffs_triple_CM w a p3 e1 e2)), Cconj (snd (poly_coeffs_triple_CM w a p3 e1 e2))).
Proof.
  unfold poly_coeffs_triple_CM. cbn [fst snd]. rewrite shift_conj, <- body_conj. f_equal.
  autorewrite with cconj. reflexivity.
Qed.
Lemma mask_conj lens lens' (w z : C) (f : C -> C) tol : (forall x, Cmod (f x) = Cmod x) ->
  lens' (f z) - f w = f (lens z - w) -> Rltb (Cmod (lens' (f z) - f w)) tol = Rltb (Cmod (lens z - w)) tol.
Proof. intros H E. rewrite E, H. reflexivity. Qed.
Lemma hd_map_neq (f : C -> C) cs : (forall x : C, x <> 0 -> f x <> 0) -> f (RtoC 0) = 0 -> hd (RtoC 0) cs <> 0 -> hd (RtoC 0) (map f cs) <> 0.
Proof. intros H H0 Hh. destruct cs; simpl in *; auto. Qed.

Section BinarySym.
Variables (poly_roots : list C -> option (list C) -> list C) (s q : R) (w : C) (p p' : params).
Hypothesis Hs : s <> 0%R. Hypothesis Hq : (0 < q)%R.
Hypothesis Hw : off_lens_positions (binary_lens s q) w.
Hypothesis Es : p_s p = Some s. Hypothesis Eq : p_q p = Some q.
Hypothesis Hsol : forall cs i, hd (RtoC 0) cs <> 0 -> splits cs (poly_roots cs i).
Let a := (0.5 * s)%R. Let e1 := (q / (1 + q))%R. Let c := RtoC (x_cm a q).
Let cs := poly_coeffs_binary (w - c) a e1.
Lemma mag2_eq : mag_point_source poly_roots 2 p w = Ok (sum_inv_det (det_jac2 a e1) (images2 poly_roots a e1 (w - c) None)).
Proof. unfold mag_point_source. simpl. rewrite Es, Eq. reflexivity. Qed.
Lemma cs_hd : hd (RtoC 0) cs <> 0.
Proof. apply (p0_neq s q w Hq Hw). Qed.
Lemma mag2_conj : mag_point_source poly_roots 2 p (Cconj w) = mag_point_source poly_roots 2 p w.
Proof.
  rewrite mag2_eq. unfold mag_point_source. simpl. rewrite Es, Eq. simpl. f_equal. fold a e1 c. unfold images2.
  replace (Cconj w - c) with (Cconj (w - c)) by (unfold c; now autorewrite with cconj).
  rewrite coeffs2_conj. fold cs.
  apply (sum_sym Cconj).
  - apply (splits_unique (map Cconj cs)).
    + apply hd_map_neq; [apply Cconj_neq0|now rewrite Cconj_RtoC|apply cs_hd].
    + apply Hsol. apply hd_map_neq; [apply Cconj_neq0|now rewrite Cconj_RtoC|apply cs_hd].
    + apply splits_conj, Hsol, cs_hd.
  - apply det_jac2_conj.
  - intros z. apply (mask_conj (lens_eq2 a e1)). apply Cmod_conj. rewrite lens_eq2_conj. now autorewrite with cconj.
Qed.

(** ** half-turn with exchange of the masses *)
Lemma lens_eq2_neg (b e : R) (z : C) : lens_eq2 b (1 - e) (- z) = - lens_eq2 b e z.
Proof.
  unfold lens_eq2. replace (1 - (1 - e))%R with e by ring. autorewrite with cconj.
  replace (- Cconj z - b) with (- (Cconj z + b)) by ring. replace (- Cconj z + b) with (- (Cconj z - b)) by ring.
  rewrite !Cdiv_opp. ring.
Qed.
Lemma det_jac2_neg (b e : R) (z : C) : det_jac2 b (1 - e) (- z) = det_jac2 b e z.
Proof.
  unfold det_jac2. replace (1 - (1 - e))%R with e by ring. f_equal. f_equal. f_equal. autorewrite with cconj.
  replace (- Cconj z - b) with (- (Cconj z + b)) by ring. replace (- Cconj z + b) with (- (Cconj z - b)) by ring.
  replace ((- (Cconj z + b)) ^ 2) with ((Cconj z + b) ^ 2) by ring. replace ((- (Cconj z - b)) ^ 2) with ((Cconj z - b) ^ 2) by ring. ring.
Qed.
Lemma coeffs2_neg (v : C) (b e : R) (z : C) : peval (poly_coeffs_binary (- v) b (1 - e)) (- z) = - peval (poly_coeffs_binary v b e) z.
Proof. unfold poly_coeffs_binary. cbn [peval length]. rewrite RtoC_minus. autorewrite with cconj. ring. Qed.
Lemma coeffs2_neg_hd (v : C) (b e : R) : hd (RtoC 0) (poly_coeffs_binary (- v) b (1 - e)) = hd (RtoC 0) (poly_coeffs_binary v b e).
Proof. unfold poly_coeffs_binary; cbn [hd]. autorewrite with cconj. ring. Qed.
Lemma prodC_neg (l : list C) z : prodC (map (fun r => - z - r) l) = (- (1)) ^ length l * prodC (map (fun r => z - r) (map Copp l)).
Proof. induction l as [|x l IH]; simpl. ring. rewrite IH. ring. Qed.
Lemma mag2_swap : p_s p' = Some s -> p_q p' = Some (1 / q)%R ->
  mag_point_source poly_roots 2 p' (- w) = mag_point_source poly_roots 2 p w.
Proof.
  intros Es' Eq'. rewrite mag2_eq. unfold mag_point_source. simpl. rewrite Es', Eq'. simpl. f_equal. fold a.
  replace (1 / q / (1 + 1 / q))%R with (1 - e1)%R by (unfold e1; field; lra).
  replace (x_cm a (1 / q)) with (- x_cm a q)%R by (unfold x_cm; field; lra). rewrite RtoC_opp. fold c.
  replace (- w - - c) with (- (w - c)) by ring. unfold images2.
  set (cs' := poly_coeffs_binary (- (w - c)) a (1 - e1)).
  assert (H' : hd (RtoC 0) cs' <> 0) by (unfold cs'; rewrite coeffs2_neg_hd; apply cs_hd).
  fold cs. pose proof (Hsol cs None cs_hd) as S.
  apply (sum_sym Copp).
  - apply (splits_unique cs'); auto. intros z. replace z with (- - z) at 1 by ring. unfold cs' at 1. rewrite coeffs2_neg. fold cs. rewrite S.
    unfold cs' at 1. rewrite coeffs2_neg_hd. fold cs. rewrite prodC_neg. rewrite (splits_length _ _ cs_hd S). change (length cs - 1)%nat with 5%nat. ring.
  - intros z. apply det_jac2_neg.
  - intros z. apply (mask_conj (lens_eq2 a e1) (lens_eq2 a (1 - e1)) (w - c) z Copp). apply Cmod_opp. rewrite lens_eq2_neg. ring.
Qed.
End BinarySym.

Section TripleSym.
Variables (poly_roots : list C -> option (list C) -> list C) (s q q3 r3 psi : R) (w : C) (p p' : params).
Let p3u := from_midpoint s q r3 psi.
Hypothesis Hs : s <> 0%R. Hypothesis Hq : (0 < q)%R. Hypothesis Hq3 : (0 < q3)%R.
Hypothesis Hw : off_lens_positions (triple_lens s q q3 p3u) w.
Hypothesis Es : p_s p = Some s. Hypothesis Eq : p_q p = Some q. Hypothesis Eq3 : p_q3 p = Some q3.
Hypothesis Er : p_r3 p = Some r3. Hypothesis Ep : p_psi p = Some psi.
Hypothesis Hsol : forall cs i, hd (RtoC 0) cs <> 0 -> splits cs (poly_roots cs i).
Let a := (0.5 * s)%R. Let e1 := (q / (1 + q + q3))%R. Let e2 := (1 / (1 + q + q3))%R. Let c := RtoC (x_cm a q).
Let cs := fst (poly_coeffs_triple_CM (w - c) a (third_lens r3 psi) e1 e2).
Let sh := snd (poly_coeffs_triple_CM (w - c) a (third_lens r3 psi) e1 e2).
Lemma cs3_hd : hd (RtoC 0) cs <> 0.
Proof. apply (tp0 s q q3 r3 psi w Hq Hq3 Hw). Qed.
Lemma mag3_conj : p_s p' = Some s -> p_q p' = Some q -> p_q3 p' = Some q3 -> p_r3 p' = Some r3 -> p_psi p' = Some (- psi)%R ->
  mag_point_source poly_roots 3 p' (Cconj w) = mag_point_source poly_roots 3 p w.
Proof.
  intros A1 A2 A3 A4 A5. unfold mag_point_source. simpl. rewrite Es, Eq, Eq3, Er, Ep, A1, A2, A3, A4, A5. simpl. f_equal. fold a e1 e2 c.
  replace (Cconj w - c) with (Cconj (w - c)) by (unfold c; now autorewrite with cconj). unfold images3.
  rewrite third_lens_conj, coeffs3_conj. rewrite (surjective_pairing (poly_coeffs_triple_CM (w - c) a (third_lens r3 psi) e1 e2)).
  fold cs sh.
  assert (H' : hd (RtoC 0) (map Cconj cs) <> 0) by (apply hd_map_neq; [apply Cconj_neq0|now rewrite Cconj_RtoC|apply cs3_hd]).
  apply (sum_sym Cconj).
  - rewrite map_map.
    transitivity (map (fun r => r + Cconj sh) (map Cconj (poly_roots cs None))).
    + apply Permutation_map. apply (splits_unique (map Cconj cs)); auto. apply splits_conj, Hsol, cs3_hd.
    + rewrite map_map. rewrite (map_ext (fun r => Cconj r + Cconj sh) (fun r => Cconj (r + sh))). reflexivity. intros r. now autorewrite with cconj.
  - intros z. apply det_jac3_conj.
  - intros z. apply (mask_conj (lens_eq3 a r3 psi e1 e2)). apply Cmod_conj. rewrite lens_eq3_conj. now autorewrite with cconj.
Qed.
End TripleSym.
