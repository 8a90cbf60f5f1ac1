(** Proofs about point_source.py and coeffs.py. *)
From Coq Require Import Reals List Lra Lia Bool Arith ZArith Permutation.
From Coquelicot Require Import Complex.
From Verif Require Import Base_R Base_List Base_C M_Utils M_Coeffs M_PolySolver M_PointSource S_PointSource S_Poly P_Lens P_Poly.
Import ListNotations.
Local Open Scope R_scope.
Local Open Scope C_scope.

(** ** the model's functions are the lens mapping and its determinant *)
Lemma lens_eq1_map z : lens_eq1 z = lens_map single_lens z.
Proof.
  unfold lens_eq1, lens_map, single_lens; simpl. replace (z - 0) with z by ring. ring.
Qed.
Lemma conj_sub_R z (a : R) : Cconj (z - a) = Cconj z - a.
Proof. now autorewrite with cconj. Qed.
Lemma lens_eq2_map (a e1 : R) (z : C) : lens_eq2 a e1 z = lens_map (binary_mid a e1) z.
Proof.
  unfold lens_eq2, lens_map, binary_mid; simpl. rewrite !conj_sub_R, RtoC_opp.
  replace (Cconj z - - a) with (Cconj z + a) by ring. ring.
Qed.
Lemma lens_eq3_map a r3 psi e1 e2 z :
  lens_eq3 a r3 psi e1 e2 z = lens_map (triple_mid a e1 e2 (third_lens r3 psi)) z.
Proof.
  unfold lens_eq3, lens_map, triple_mid; simpl. rewrite !conj_sub_R, RtoC_opp, Cconj_minus.
  replace (Cconj z - - a) with (Cconj z + a) by ring. ring.
Qed.

Lemma RtoC_mult' x y : RtoC (x * y) = RtoC x * RtoC y.
Proof. apply RtoC_mult. Qed.

(** The one-lens branch returns 1 - 1/|z|^2; the Jacobian determinant is 1 - 1/|z|^4. *)
Lemma det_jac1_value (z : C) : z <> 0 -> det_jac1 z = (1 - 1 / (Cmod z * Cmod z))%R.
Proof.
  intros Hz. unfold det_jac1. rewrite Cmod_pow, Cmod_conj. simpl. rewrite Rmult_1_r. reflexivity.
Qed.
Lemma single_det (z : C) : z <> 0 -> det2 (jac_of (shear single_lens z)) = (1 - 1 / (Cmod z * Cmod z) ^ 2)%R.
Proof.
  intros Hz. rewrite det_jac_of. unfold single_lens; rewrite shear_cons. simpl shear.
  assert (Hc : Cconj z <> 0) by now apply Cconj_neq0.
  assert (P : (0 < Cmod z)%R) by now apply Cmod_gt_0.
  replace (RtoC 1 / Cconj (z - 0) ^ 2 + 0) with (/ (Cconj z ^ 2)).
  2:{ replace (z - 0) with z by ring. field. auto. }
  rewrite Cmod_inv, Cmod_pow, Cmod_conj by now apply Cpow_neq0. simpl. field. lra.
Qed.
Lemma det_jac2_shear (a e1 : R) (z : C) : det_jac2 a e1 z = det2 (jac_of (shear (binary_mid a e1) z)).
Proof.
  rewrite det_jac_of. unfold det_jac2, binary_mid. rewrite !shear_cons. simpl shear.
  rewrite !conj_sub_R, RtoC_opp. 
  replace (Cconj z - - a) with (Cconj z + a) by ring.
  replace (RtoC e1 / (Cconj z - a) ^ 2 + (RtoC (1 - e1) / (Cconj z + a) ^ 2 + 0))
    with (RtoC e1 / (Cconj z - a) ^ 2 + RtoC (1 - e1) / (Cconj z + a) ^ 2) by ring.
  ring.
Qed.
Lemma det_jac3_shear a r3 psi e1 e2 z :
  det_jac3 a r3 psi e1 e2 z = det2 (jac_of (shear (triple_mid a e1 e2 (third_lens r3 psi)) z)).
Proof.
  rewrite det_jac_of. unfold det_jac3, triple_mid. rewrite !shear_cons. simpl shear.
  rewrite !conj_sub_R, RtoC_opp, Cconj_minus. 
  replace (Cconj z - - a) with (Cconj z + a) by ring.
  set (x := _ / (Cconj z - a) ^ 2). set (y := _ / (Cconj z + a) ^ 2). set (u := _ / (_ - Cconj (third_lens r3 psi)) ^ 2).
  replace (x + (y + (u + 0))) with (x + y + u) by ring. ring.
Qed.

Lemma has_derivative_ext F G z M : (forall x, F x = G x) -> has_derivative F z M -> has_derivative G z M.
Proof.
  intros E H eps He. destruct (H eps He) as (d & D & K). exists d. split; auto.
  intros h Hh. rewrite <- !E. auto.
Qed.

Theorem lens_eq2_jacobian (a e1 : R) (z : C) : off_masses (binary_mid a e1) z ->
  exists M, has_derivative (lens_eq2 a e1) z M /\ det2 M = det_jac2 a e1 z.
Proof.
  intros H. exists (jac_of (shear (binary_mid a e1) z)). split; [|now rewrite det_jac2_shear].
  eapply has_derivative_ext; [|apply lens_map_derivative; eauto]. intros; symmetry; apply lens_eq2_map.
Qed.
Theorem lens_eq3_jacobian a r3 psi e1 e2 z : off_masses (triple_mid a e1 e2 (third_lens r3 psi)) z ->
  exists M, has_derivative (lens_eq3 a r3 psi e1 e2) z M /\ det2 M = det_jac3 a r3 psi e1 e2 z.
Proof.
  intros H. eexists. split; [|symmetry; apply det_jac3_shear].
  eapply has_derivative_ext; [|apply lens_map_derivative; eauto]. intros; symmetry; apply lens_eq3_map.
Qed.
Lemma off_single (z : C) : off_masses single_lens z <-> z <> 0.
Proof.
  unfold off_masses, single_lens. split.
  - intros H. apply (H 1%R). now left.
  - intros H m p [E|[]]. injection E; intros; subst; auto.
Qed.
Theorem lens_eq1_jacobian (z : C) : z <> 0 ->
  exists M, has_derivative lens_eq1 z M /\ det2 M = (1 - 1 / (Cmod z * Cmod z) ^ 2)%R.
Proof.
  intros H. eexists. split; [|apply (single_det z H)].
  eapply has_derivative_ext; [|apply lens_map_derivative; now apply off_single].
  intros; symmetry; apply lens_eq1_map.
Qed.
(** the determinant reported for one lens is wrong off the critical curve *)
Theorem lens_eq1_jacobian_wrong (z : C) : z <> 0 -> Cmod z <> 1%R ->
  forall M, has_derivative lens_eq1 z M -> det_jac1 z <> det2 M.
Proof.
  intros Hz H1 M HM. destruct (lens_eq1_jacobian z Hz) as (M' & HM' & E).
  rewrite (has_derivative_unique _ _ _ _ HM HM'), E, det_jac1_value by auto.
  assert (P : (0 < Cmod z)%R) by now apply Cmod_gt_0.
  set (r := (Cmod z * Cmod z)%R). assert (Rp : (0 < r)%R) by (unfold r; nra).
  intros EQ. assert (E2 : (/ r = / r ^ 2)%R) by (unfold Rdiv in EQ; lra).
  assert (r = 1)%R. { apply (f_equal (fun x => (x * r ^ 2)%R)) in E2. simpl in E2. field_simplify in E2; lra. }
  apply H1. unfold r in *. nra.
Qed.

(** ** binary polynomial *)
Definition zeta2 (w : C) (a e1 : R) (z : C) : C := Cconj w + e1 / (z - a) + (1 - e1)%R / (z + a).
Lemma off_binary (a e1 : R) (z : C) : off_masses (binary_mid a e1) z <-> z - a <> 0 /\ z + a <> 0.
Proof.
  unfold off_masses, binary_mid. split.
  - intros H. split; intros E.
    + apply (H e1 a). now left. now apply Cminus_eq_0.
    + apply (H (1 - e1)%R (- a)%R). right; now left. rewrite RtoC_opp. apply Cminus_eq_0. rewrite <- E. ring.
  - intros (H1 & H2) m p [E|[E|[]]]; injection E; intros; subst; intros ->.
    + apply H1. ring. + apply H2. rewrite RtoC_opp. ring.
Qed.

Lemma binary_poly_id (w : C) (a e1 : R) (z : C) : z - a <> 0 -> z + a <> 0 ->
  peval (poly_coeffs_binary w a e1) z =
  (z ^ 2 - a ^ 2) ^ 2 * ((z - w) * (zeta2 w a e1 z ^ 2 - a ^ 2)
                         - e1 * (zeta2 w a e1 z + a) - (1 - e1)%R * (zeta2 w a e1 z - a)).
Proof.
  intros H1 H2. unfold zeta2, poly_coeffs_binary, peval, length. rewrite RtoC_minus.
  generalize (Cconj w) as wb. intros wb. field. auto.
Qed.
Lemma binary_poly_at_a (w : C) (a e1 : R) : peval (poly_coeffs_binary w a e1) a = 4 * a ^ 2 * e1 ^ 2 * (a - w).
Proof. unfold poly_coeffs_binary, peval, length. generalize (Cconj w) as wb. intros wb. ring. Qed.
Lemma binary_poly_at_ma (w : C) (a e1 : R) : peval (poly_coeffs_binary w a e1) (- a) = - 4 * a ^ 2 * (1 - e1) ^ 2 * (a + w).
Proof. unfold poly_coeffs_binary, peval, length. generalize (Cconj w) as wb. intros wb. ring. Qed.

Lemma image2_conj (a e1 : R) (w z : C) : off_masses (binary_mid a e1) z -> lens_eq2 a e1 z = w -> zeta2 w a e1 z = Cconj z.
Proof.
  intros H <-. unfold zeta2, lens_eq2. autorewrite with cconj. ring.
Qed.
Lemma conj_pm (z : C) (a : R) : z - a <> 0 -> z + a <> 0 -> Cconj z - a <> 0 /\ Cconj z + a <> 0.
Proof.
  intros H1 H2. split.
  - rewrite <- conj_sub_R. now apply Cconj_neq0.
  - replace (Cconj z + a) with (Cconj (z + a)) by (now autorewrite with cconj). now apply Cconj_neq0.
Qed.
Theorem binary_image_is_root (w : C) (a e1 : R) (z : C) : is_image (binary_mid a e1) w z -> peval (poly_coeffs_binary w a e1) z = 0.
Proof.
  intros (Ho & E). rewrite <- lens_eq2_map in E. pose proof (image2_conj _ _ _ _ Ho E) as Z.
  apply off_binary in Ho. destruct Ho as (H1 & H2). destruct (conj_pm _ _ H1 H2) as (H3 & H4).
  rewrite binary_poly_id, Z by auto. rewrite <- E. unfold lens_eq2. rewrite RtoC_minus. field. auto.
Qed.
(** a root is an image exactly when its partner point is its conjugate *)
Theorem binary_root_image_iff (w : C) (a e1 : R) (z : C) : off_masses (binary_mid a e1) z -> peval (poly_coeffs_binary w a e1) z = 0 ->
  (is_image (binary_mid a e1) w z <-> zeta2 w a e1 z = Cconj z).
Proof.
  intros Ho HR. split.
  - intros (_ & E). apply image2_conj; auto. now rewrite lens_eq2_map.
  - intros Z. split; auto. rewrite <- lens_eq2_map. pose proof Ho as Ho'.
    apply off_binary in Ho. destruct Ho as (H1 & H2). destruct (conj_pm _ _ H1 H2) as (H3 & H4).
    rewrite binary_poly_id, Z in HR by auto.
    apply Cmult_integral in HR. destruct HR as [HR|HR].
    { exfalso. revert HR. apply Cpow_neq0. replace (z ^ 2 - a ^ 2) with ((z - a) * (z + a)) by ring. now apply Cmult_neq_0. }
    unfold lens_eq2. rewrite RtoC_minus in *.
    assert (E : z - w = e1 / (Cconj z - a) + (1 - e1) / (Cconj z + a)).
    { replace (z - w) with ((z - w) * (Cconj z ^ 2 - a ^ 2) / ((Cconj z - a) * (Cconj z + a))) by (field; auto).
      replace ((z - w) * (Cconj z ^ 2 - a ^ 2)) with (e1 * (Cconj z + a) + (1 - e1) * (Cconj z - a)).
      field; auto. symmetry. apply Cminus_eq_0. rewrite <- HR. ring. }
    replace z with (z - w + w) at 1 by ring. rewrite E. ring.
Qed.

(** derivative of the binary polynomial at an image *)
Lemma binary_deriv_at_image (w : C) (a e1 : R) (z : C) : is_image (binary_mid a e1) w z ->
  peval (pderiv (poly_coeffs_binary w a e1)) z =
  (z ^ 2 - a ^ 2) ^ 2 * (Cconj z ^ 2 - a ^ 2) * RtoC (det_jac2 a e1 z).
Proof.
  intros (Ho & E). rewrite <- lens_eq2_map in E.
  apply off_binary in Ho. destruct Ho as (H1 & H2). destruct (conj_pm _ _ H1 H2) as (H3 & H4).
  assert (Ed : RtoC (det_jac2 a e1 z) =
     1 - (e1 / (z - a) ^ 2 + (1 - e1) / (z + a) ^ 2) * (e1 / (Cconj z - a) ^ 2 + (1 - e1) / (Cconj z + a) ^ 2)).
  { unfold det_jac2. rewrite RtoC_minus. f_equal. simpl pow. rewrite Rmult_1_r, <- Cmult_conj.
    autorewrite with cconj. rewrite !RtoC_minus. apply Cmult_comm. }
  assert (Ew : Cconj w = Cconj z - e1 / (z - a) - (1 - e1) / (z + a)).
  { rewrite <- E. unfold lens_eq2. rewrite RtoC_minus. autorewrite with cconj. reflexivity. }
  assert (Ew' : w = z - e1 / (Cconj z - a) - (1 - e1) / (Cconj z + a)).
  { rewrite <- E. unfold lens_eq2. rewrite RtoC_minus. reflexivity. }
  rewrite Ed. unfold poly_coeffs_binary, pderiv, peval, length. rewrite Ew. rewrite Ew'. clear Ed Ew Ew' E.
  revert H1 H2 H3 H4. generalize (Cconj z) as zb. intros. simpl INR.
  rewrite !RtoC_plus. field. auto.
Qed.

(** ** triple polynomial *)
Section Triple.
Variables (ww c1 c2 c3 : C) (m1 m2 m3 : R).
Hypothesis Hm : (m1 + m2 + m3 = 1)%R.
Hypothesis Hcm : m1 * c1 + m2 * c2 + m3 * c3 = 0.
Let aa := - (c1 + c2 + c3).
Let bb := c1 * c2 + c1 * c3 + c2 * c3.
Let cc := - c1 * c2 * c3.
Let dd := m1 * c2 * c3 + m2 * c1 * c3 + m3 * c1 * c2.
Let wb := Cconj ww.
Let w1 := Cconj (ww - c1). Let w2 := Cconj (ww - c2). Let w3 := Cconj (ww - c3).
Let waa := w1 + w2 + w3.
Let wbb := w1 * w2 + w2 * w3 + w1 * w3.
Let wcc := w1 * w2 * w3.
Let wdd := m1 * w2 * w3 + m2 * w1 * w3 + m3 * w1 * w2.
Definition polyH (aa bb cc Z : C) := Z ^ 3 + aa * Z ^ 2 + bb * Z + cc.
Definition polyG (aa dd Z : C) := Z ^ 2 + aa * Z + dd.

Lemma triple_body_id Z :
  peval (triple_cm_body ww c1 c2 c3 m1 m2 m3) Z =
  let H := polyH aa bb cc Z in let G := polyG aa dd Z in
  (Z - ww) * (wcc * H ^ 3 + wbb * H ^ 2 * G + waa * H * G ^ 2 + G ^ 3)
  - (wdd * H ^ 3 + (waa - wb) * H ^ 2 * G + H * G ^ 2).
Proof.
  unfold triple_cm_body, peval, length, polyH, polyG.
  fold aa bb cc dd wb w1 w2 w3 waa wbb wcc wdd.
  clearbody aa bb cc dd waa wbb wcc wdd wb. clear.
  cbv zeta. ring.
Qed.
Lemma triple_body_deriv Z :
  peval (pderiv (triple_cm_body ww c1 c2 c3 m1 m2 m3)) Z =
  let H := polyH aa bb cc Z in let G := polyG aa dd Z in
  let H' := 3 * Z ^ 2 + 2 * aa * Z + bb in let G' := 2 * Z + aa in
  (wcc * H ^ 3 + wbb * H ^ 2 * G + waa * H * G ^ 2 + G ^ 3)
  + (Z - ww) * (wcc * 3 * H ^ 2 * H' + wbb * (2 * H * H' * G + H ^ 2 * G') + waa * (H' * G ^ 2 + 2 * H * G * G') + 3 * G ^ 2 * G')
  - (wdd * 3 * H ^ 2 * H' + (waa - wb) * (2 * H * H' * G + H ^ 2 * G') + (H' * G ^ 2 + 2 * H * G * G')).
Proof.
  unfold triple_cm_body, pderiv, peval, length, polyH, polyG.
  fold aa bb cc dd wb w1 w2 w3 waa wbb wcc wdd.
  clearbody aa bb cc dd waa wbb wcc wdd wb. clear.
  cbv zeta. simpl INR. rewrite !RtoC_plus. ring.
Qed.
Lemma HmC : RtoC m1 + m2 + m3 = 1.
Proof. rewrite <- !RtoC_plus, Hm. reflexivity. Qed.
Lemma polyH_fact Z : polyH aa bb cc Z = (Z - c1) * (Z - c2) * (Z - c3).
Proof. unfold polyH, aa, bb, cc. ring. Qed.
Lemma polyG_fact Z : polyG aa dd Z = m1 * (Z - c2) * (Z - c3) + m2 * (Z - c1) * (Z - c3) + m3 * (Z - c1) * (Z - c2).
Proof.
  unfold polyG, aa, dd. 
  transitivity ((RtoC m1 + m2 + m3) * Z ^ 2 - (RtoC m1 + m2 + m3) * (c1 + c2 + c3) * Z + (m1 * c1 + m2 * c2 + m3 * c3) * Z
     + (m1 * c2 * c3 + m2 * c1 * c3 + m3 * c1 * c2)).
  rewrite Hcm, HmC. ring. ring.
Qed.
Lemma Hcm_conj : m1 * Cconj c1 + m2 * Cconj c2 + m3 * Cconj c3 = 0.
Proof.
  apply (f_equal Cconj) in Hcm. autorewrite with cconj in Hcm. exact Hcm.
Qed.
Lemma wbar_comb : m1 * w1 + m2 * w2 + m3 * w3 = wb.
Proof.
  unfold w1, w2, w3. autorewrite with cconj. fold wb.
  transitivity ((RtoC m1 + m2 + m3) * wb - (m1 * Cconj c1 + m2 * Cconj c2 + m3 * Cconj c3)).
  ring. rewrite Hcm_conj, HmC. ring.
Qed.

(** roots at the masses *)
Lemma triple_at_c1 : peval (triple_cm_body ww c1 c2 c3 m1 m2 m3) c1 = (c1 - ww) * (m1 * (c1 - c2) * (c1 - c3)) ^ 3.
Proof. rewrite triple_body_id. cbv zeta. rewrite polyH_fact, polyG_fact. ring. Qed.
Lemma triple_at_c2 : peval (triple_cm_body ww c1 c2 c3 m1 m2 m3) c2 = (c2 - ww) * (m2 * (c2 - c1) * (c2 - c3)) ^ 3.
Proof. rewrite triple_body_id. cbv zeta. rewrite polyH_fact, polyG_fact. ring. Qed.
Lemma triple_at_c3 : peval (triple_cm_body ww c1 c2 c3 m1 m2 m3) c3 = (c3 - ww) * (m3 * (c3 - c1) * (c3 - c2)) ^ 3.
Proof. rewrite triple_body_id. cbv zeta. rewrite polyH_fact, polyG_fact. ring. Qed.

Section AtPoint.
Variable Z : C.
Hypothesis H1 : Z - c1 <> 0. Hypothesis H2 : Z - c2 <> 0. Hypothesis H3 : Z - c3 <> 0.
Let t := m1 / (Z - c1) + m2 / (Z - c2) + m3 / (Z - c3).
Lemma G_tH : polyG aa dd Z = t * polyH aa bb cc Z.
Proof. rewrite polyG_fact, polyH_fact. unfold t. field. auto. Qed.
Lemma H_neq : polyH aa bb cc Z <> 0.
Proof. rewrite polyH_fact. repeat apply Cmult_neq_0; auto. Qed.
(** the polynomial is the cleared-denominator form of the lens equation *)
Lemma triple_poly_zeta :
  peval (triple_cm_body ww c1 c2 c3 m1 m2 m3) Z =
  polyH aa bb cc Z ^ 3 * ((Z - ww) * ((w1 + t) * (w2 + t) * (w3 + t))
     - (m1 * (w2 + t) * (w3 + t) + m2 * (w1 + t) * (w3 + t) + m3 * (w1 + t) * (w2 + t))).
Proof.
  rewrite triple_body_id. cbv zeta. rewrite G_tH. 
  replace (waa - wb) with (waa - (m1 * w1 + m2 * w2 + m3 * w3)) by now rewrite wbar_comb.
  transitivity (polyH aa bb cc Z ^ 3 * ((Z - ww) * ((w1 + t) * (w2 + t) * (w3 + t))
     - (wdd + (waa * (RtoC m1 + m2 + m3) - (m1 * w1 + m2 * w2 + m3 * w3)) * t + (RtoC m1 + m2 + m3) * t ^ 2))).
  rewrite HmC. unfold waa, wbb, wcc. ring.
  unfold wdd, waa. ring.
Qed.
(** derivative at an image *)
Lemma triple_deriv_zeta : w1 + t <> 0 -> w2 + t <> 0 -> w3 + t <> 0 ->
  Z - ww = m1 / (w1 + t) + m2 / (w2 + t) + m3 / (w3 + t) ->
  peval (pderiv (triple_cm_body ww c1 c2 c3 m1 m2 m3)) Z =
  polyH aa bb cc Z ^ 3 * ((w1 + t) * (w2 + t) * (w3 + t))
   * (1 - (m1 / (Z - c1) ^ 2 + m2 / (Z - c2) ^ 2 + m3 / (Z - c3) ^ 2)
        * (m1 / (w1 + t) ^ 2 + m2 / (w2 + t) ^ 2 + m3 / (w3 + t) ^ 2)).
Proof.
  intros N1 N2 N3 E. rewrite triple_body_deriv. cbv zeta. rewrite G_tH.
  set (H := polyH aa bb cc Z). set (H' := 3 * Z ^ 2 + 2 * aa * Z + bb). set (G' := 2 * Z + aa).
  assert (EH : (m1 / (Z - c1) ^ 2 + m2 / (Z - c2) ^ 2 + m3 / (Z - c3) ^ 2) * H = t * H' - G').
  { assert (K : G' = m1 * (2 * Z - c2 - c3) + m2 * (2 * Z - c1 - c3) + m3 * (2 * Z - c1 - c2)).
    { unfold G', aa. transitivity ((RtoC m1 + m2 + m3) * (2 * Z - (c1 + c2 + c3)) + (m1 * c1 + m2 * c2 + m3 * c3)).
      rewrite HmC, Hcm. ring. ring. }
    rewrite K. unfold H, H', t, aa, bb. rewrite polyH_fact. field. auto. }
  replace (waa - wb) with (waa * (RtoC m1 + m2 + m3) - (m1 * w1 + m2 * w2 + m3 * w3)) by (rewrite wbar_comb, HmC; ring).
  set (z1 := w1 + t) in *. set (z2 := w2 + t) in *. set (z3 := w3 + t) in *.
  set (Phi := z1 * z2 * z3). set (Psi := m1 * z2 * z3 + m2 * z1 * z3 + m3 * z1 * z2).
  set (Phi' := z1 * z2 + z2 * z3 + z1 * z3). set (Psi' := m1 * (z2 + z3) + m2 * (z1 + z3) + m3 * (z1 + z2)).
  transitivity (H ^ 3 * Phi + (Z - ww) * (3 * H ^ 2 * H' * Phi + H ^ 2 * (G' - t * H') * Phi')
                - (3 * H ^ 2 * H' * Psi + H ^ 2 * (G' - t * H') * Psi')).
  { unfold Phi, Psi, Phi', Psi', z1, z2, z3, wdd, wbb, wcc, waa.
    set (s := RtoC m1 + m2 + m3).
    assert (S : s = 1) by apply HmC.
    transitivity (((w1 * w2 * w3 + t * (w1 * w2 + w2 * w3 + w1 * w3) + t^2 * (w1 + w2 + w3) + t^3) * H ^ 3) +
      (Z - ww) * (w1 * w2 * w3 * 3 * H ^ 2 * H' + (w1 * w2 + w2 * w3 + w1 * w3) * (2 * H * H' * (t * H) + H ^ 2 * G')
        + (w1 + w2 + w3) * (H' * (t * H) ^ 2 + 2 * H * (t * H) * G') + 3 * (t * H) ^ 2 * G')
      - ((m1 * w2 * w3 + m2 * w1 * w3 + m3 * w1 * w2) * 3 * H ^ 2 * H'
         + ((w1 + w2 + w3) * s - (m1 * w1 + m2 * w2 + m3 * w3)) * (2 * H * H' * (t * H) + H ^ 2 * G')
         + s * (H' * (t * H) ^ 2 + 2 * H * (t * H) * G'))).
    rewrite S. ring. unfold s. ring. }
  assert (E1 : (Z - ww) * Phi = Psi). { rewrite E. unfold Phi, Psi. field. auto. }
  replace (H ^ 3 * Phi * (1 - (m1 / (Z - c1) ^ 2 + m2 / (Z - c2) ^ 2 + m3 / (Z - c3) ^ 2) * (m1 / z1 ^ 2 + m2 / z2 ^ 2 + m3 / z3 ^ 2)))
    with (H ^ 3 * Phi - H ^ 2 * (t * H' - G') * (Phi * (m1 / z1 ^ 2 + m2 / z2 ^ 2 + m3 / z3 ^ 2))) by (rewrite <- EH; ring).
  assert (E2 : Phi * (m1 / z1 ^ 2 + m2 / z2 ^ 2 + m3 / z3 ^ 2) = (Z - ww) * Phi' - Psi').
  { rewrite E. unfold Phi, Phi', Psi'. field. auto. }
  rewrite E2.
  transitivity (H ^ 3 * Phi + 3 * H ^ 2 * H' * ((Z - ww) * Phi) - 3 * H ^ 2 * H' * Psi
     + H ^ 2 * (G' - t * H') * ((Z - ww) * Phi' - Psi')). ring.
  rewrite E1. ring.
Qed.
End AtPoint.
End Triple.
