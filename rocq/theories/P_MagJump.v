(** Two equal masses, source at the centre: the exact magnification returned for every separation above two (C75). *)
From Coq Require Import Reals List Lra Lia ZArith.
From Coquelicot Require Import Complex.
From Verif Require Import Base_R Base_List Base_C M_Utils M_Coeffs M_PointSource S_PointSource S_Poly
  P_Lens P_Poly P_PolyRoots P_PointSource P_Images P_Count P_MagCont P_MagLens.
Import ListNotations.
Local Open Scope R_scope.

(** a root solver that is exact for these polynomials: -a^2 z (z^2 - a^2 - 1) (z^2 - a^2 + 1) *)
Definition central_roots (b : R) : list C := [RtoC 0; RtoC (sqrt (b + 1)); RtoC (- sqrt (b + 1)); RtoC (sqrt (b - 1)); RtoC (- sqrt (b - 1))].
Definition central_solver (cs : list C) (_ : option (list C)) : list C := central_roots (- Re (hd (RtoC 0) cs)).
Definition central_coeffs (s : R) : list C := poly_coeffs_binary (RtoC 0 - RtoC (x_cm (0.5 * s) 1))%C (0.5 * s) (1 / (1 + 1)).

Section Central.
Variable s : R.
Hypothesis Hs : 2 < s.
Let a := 0.5 * s. Let b := a * a. Let u := sqrt (b + 1). Let v := sqrt (b - 1).
Lemma ca : 1 < a. Proof. unfold a. lra. Qed.
Lemma cb : 1 < b. Proof. pose proof ca. unfold b. nra. Qed.
Lemma cu : u * u = b + 1. Proof. pose proof cb. unfold u. apply sqrt_sqrt. lra. Qed.
Lemma cv : v * v = b - 1. Proof. pose proof cb. unfold v. apply sqrt_sqrt. lra. Qed.
Lemma cv0 : 0 < v. Proof. pose proof cb. apply sqrt_lt_R0. lra. Qed.
Lemma c_xcm : x_cm a 1 = 0. Proof. unfold x_cm. lra. Qed.
Lemma c_w : (RtoC 0 - RtoC (x_cm a 1))%C = RtoC 0. Proof. rewrite c_xcm. ring. Qed.
Lemma c_solver : central_solver (central_coeffs s) None = central_roots b.
Proof.
  unfold central_solver, central_coeffs. fold a. rewrite c_w. f_equal. unfold poly_coeffs_binary. cbn [hd]. rewrite Cconj_RtoC. rewrite <- !RtoC_mult, <- RtoC_opp, <- RtoC_plus. unfold Re; cbn. unfold b. ring.
Qed.
Lemma c_splits : splits (central_coeffs s) (central_solver (central_coeffs s) None).
Proof.
  rewrite c_solver. unfold central_coeffs. fold a. rewrite c_w. replace (1 / (1 + 1)) with (/ 2) by lra. intros z. unfold poly_coeffs_binary, central_roots. cbn [peval length hd map prodC]. rewrite Cconj_RtoC. fold u v.
  rewrite !RtoC_opp. set (h := RtoC (/ 2)). assert (E2 : (2 * h)%C = RtoC 1) by (unfold h; rewrite <- RtoC_mult; f_equal; lra).
  replace (1 - 2 * h)%C with (RtoC 0) by (rewrite E2; ring). replace (2 * h - 1)%C with (RtoC 0) by (rewrite E2; ring).
  replace (2 * (h * h) - 2 * h + 1)%C with h.
  2:{ transitivity ((2 * h) * h - 2 * h + 1)%C; [rewrite E2; ring|ring]. }
  assert (U : (RtoC u * RtoC u = RtoC a * RtoC a + 1)%C) by (rewrite <- !RtoC_mult, <- RtoC_plus; f_equal; exact cu).
  assert (V : (RtoC v * RtoC v = RtoC a * RtoC a - 1)%C) by (rewrite <- !RtoC_mult, <- RtoC_minus; f_equal; exact cv).
  match goal with |- _ = (?c * ?P)%C => replace P with (z * (z * z - RtoC u * RtoC u) * (z * z - RtoC v * RtoC v))%C by ring end. rewrite U, V.
  generalize (RtoC a). intros x. transitivity (- (x * x) * (z ^ 5) + 2 * (x * x) * (x * x) * z ^ 3 + (- (x * x * x * (x * x * x)) + (2 * h) * (x * x)) * z)%C; [ring|]. rewrite E2. ring.
Qed.

Let L := binary_lens s 1.
Lemma c_pos : L = [(1 / 2, RtoC (- a)); (1 / 2, RtoC a)].
Proof.
  unfold L, binary_lens. replace (1 / (1 + 1)) with (1 / 2) by lra. replace (- s * 1 / (1 + 1)) with (- a) by (unfold a; lra). replace (s / (1 + 1)) with a by (unfold a; lra). reflexivity.
Qed.
Lemma c_off (t : R) : t * t <> b -> off_masses L (RtoC t).
Proof. intros H m p. rewrite c_pos. intros [E|[E|[]]]; injection E as <- <-; intros E; apply RtoC_inj in E; apply H; rewrite E; unfold b; ring. Qed.
Lemma c_nz (t : R) : t * t <> b -> t - a <> 0 /\ t + a <> 0 /\ t * t - a * a <> 0.
Proof. intros H. repeat split; intros E; apply H; unfold b; [replace t with a by lra|replace t with (- a) by lra|]; lra. Qed.
Lemma c_map (t : R) : t * t <> b -> lens_map L (RtoC t) = RtoC (t - t / (t * t - b)).
Proof.
  intros H. destruct (c_nz t H) as (H1 & H2 & H3). unfold lens_map. rewrite c_pos. rewrite !deflection_cons. cbn [deflection].
  rewrite <- !RtoC_minus, !Cconj_RtoC, <- !RtoC_div, <- !RtoC_plus, <- !RtoC_minus by lra. f_equal. unfold b. field. repeat split; lra.
Qed.
Definition central_det (b t : R) : R := 1 - ((t * t + b) / (t * t - b) ^ 2) ^ 2.
Lemma c_shear (t : R) : t * t <> b -> shear L (RtoC t) = RtoC ((t * t + b) / (t * t - b) ^ 2).
Proof.
  intros H. destruct (c_nz t H) as (H1 & H2 & H3). rewrite c_pos, !shear_cons. cbn [shear].
  rewrite <- !RtoC_minus, !Cconj_RtoC, <- !RtoC_pow, <- !RtoC_div, <- !RtoC_plus by (apply pow_nonzero; lra). f_equal. unfold b. field. repeat split; lra.
Qed.
Lemma c_det (t : R) : t * t <> b -> det2 (jac_of (shear L (RtoC t))) = central_det b t.
Proof.
  intros H. rewrite det_jac_of, c_shear, Cmod_R by auto. unfold central_det. f_equal. rewrite <- Rabs_mult, Rabs_pos_eq; [ring|apply Rle_0_sqr].
Qed.
Lemma c_frame : Permutation.Permutation L (shift_lens (RtoC 0) (binary_mid a (1 / (1 + 1)))).
Proof. pose proof (binary_frame s 1 ltac:(lra)) as P. fold a in P. now rewrite c_xcm in P. Qed.
Lemma c_lens (t : R) : t * t <> b -> lens_eq2 a (1 / (1 + 1)) (RtoC t) = RtoC (t - t / (t * t - b)).
Proof.
  intros H. rewrite lens_eq2_map, <- c_map by auto. rewrite (frame_lens _ _ _ (RtoC t) c_frame). replace (RtoC t - RtoC 0)%C with (RtoC t) by ring. ring.
Qed.
Lemma c_dj (t : R) : t * t <> b -> det_jac2 a (1 / (1 + 1)) (RtoC t) = central_det b t.
Proof.
  intros H. rewrite det_jac2_shear, <- c_det by auto. rewrite (frame_shear _ _ _ (RtoC t) c_frame). now replace (RtoC t - RtoC 0)%C with (RtoC t) by ring.
Qed.
Lemma c_term (t : R) : t * t <> b -> term (Cmod (lens_eq2 a (1 / (1 + 1)) (RtoC t) - RtoC 0)%C) (det_jac2 a (1 / (1 + 1)) (RtoC t)) 1e-6
  = term (Rabs (t - t / (t * t - b))) (central_det b t) 1e-6.
Proof. intros H. rewrite c_lens, c_dj by auto. rewrite <- RtoC_minus, Rminus_0_r, Cmod_R. reflexivity. Qed.

(** the values of the five terms *)
Definition three b := / (1 - / (b * b)) + 2 * / ((2 * b + 1) * (2 * b + 1) - 1).
Definition spurious b := 2 * / ((2 * b - 1) * (2 * b - 1) - 1).
Lemma c_mag p : p_s p = Some s -> p_q p = Some 1 ->
  mag_point_source central_solver 2 p (RtoC 0) = Ok (three b + (if Rltb (2 * v) 1e-6 then spurious b else 0)).
Proof.
  intros Es Eq. pose proof cb as B. pose proof cu as U. pose proof cv as V. pose proof cv0 as V0.
  unfold mag_point_source. cbn [Z.eqb Pos.eqb]. rewrite Es, Eq. cbn [getp]. f_equal. unfold images2. rewrite sum_inv_terms. fold a. change (poly_coeffs_binary (RtoC 0 - RtoC (x_cm a 1))%C a (1 / (1 + 1))) with (central_coeffs s).
  rewrite c_solver. unfold central_roots. fold u v. rewrite c_w. cbn [map sumR].
  assert (Eu : (- u) * (- u) = b + 1) by (rewrite <- U; ring). assert (Ev : (- v) * (- v) = b - 1) by (rewrite <- V; ring).
  rewrite !c_term by lra. unfold term, central_det. rewrite U, V, Eu, Ev, Rmult_0_l.
  replace (0 - 0 / (0 - b)) with 0 by (field; lra). replace (u - u / (b + 1 - b)) with 0 by (field; lra). replace (- u - - u / (b + 1 - b)) with 0 by (field; lra).
  replace (v - v / (b - 1 - b)) with (2 * v) by (field; lra). replace (- v - - v / (b - 1 - b)) with (- (2 * v)) by (field; lra).
  rewrite Rabs_Ropp, Rabs_R0, (Rabs_pos_eq (2 * v)) by lra. assert (T0 : Rltb 0 1e-6 = true) by (apply Rltb_true; lra). rewrite T0.
  replace ((0 + b) / (0 - b) ^ 2) with (/ b) by (field; lra). replace ((b + 1 + b) / (b + 1 - b) ^ 2) with (2 * b + 1) by (field; lra). replace ((b - 1 + b) / (b - 1 - b) ^ 2) with (2 * b - 1) by (field; lra).
  assert (I : 0 < / b < 1) by (split; [apply Rinv_0_lt_compat; lra|rewrite <- Rinv_1; apply Rinv_lt_contravar; lra]).
  rewrite (Rabs_pos_eq (1 - (/ b) ^ 2)) by nra. rewrite !(Rabs_left1 (1 - (2 * b + 1) ^ 2)) by nra. rewrite !(Rabs_left1 (1 - (2 * b - 1) ^ 2)) by nra.
  unfold three, spurious. replace (- (1 - (2 * b + 1) ^ 2)) with ((2 * b + 1) * (2 * b + 1) - 1) by ring. replace (- (1 - (2 * b - 1) ^ 2)) with ((2 * b - 1) * (2 * b - 1) - 1) by ring.
  replace (1 - (/ b) ^ 2) with (1 - / (b * b)) by (rewrite Rinv_mult; ring). destruct (Rltb (2 * v) 1e-6); unfold Rdiv; ring.
Qed.
Lemma c_image z : is_image L (RtoC 0) z -> z = RtoC 0 \/ z = RtoC u \/ z = RtoC (- u) \/ z = RtoC v \/ z = RtoC (- v).
Proof.
  intros I. pose proof cb. assert (W : off_lens_positions L (RtoC 0)) by (apply c_off; lra).
  destruct (binary_image_listed central_solver s 1 (RtoC 0) ltac:(lra) W c_splits z I) as (k & Hk & E & _). cbn [images2 fst] in Hk, E. fold a in Hk, E.
  change (poly_coeffs_binary (RtoC 0 - RtoC (x_cm a 1))%C a (1 / (1 + 1))) with (central_coeffs s) in Hk, E. rewrite c_solver in Hk, E. rewrite c_xcm in E. rewrite Cplus_0_r in E.
  assert (Hin : In z (central_roots b)) by (rewrite <- E; now apply nth_In). unfold central_roots in Hin. fold u v in Hin. destruct Hin as [<-|[<-|[<-|[<-|[<-|[]]]]]]; auto.
Qed.
Lemma c_off_caustics z : is_image L (RtoC 0) z -> ~ jacobian_det L z 0.
Proof.
  intros I J. pose proof cb as B. pose proof cu as U. pose proof cv as V. pose proof cv0 as V0. assert (Eu : (- u) * (- u) = b + 1) by (rewrite <- U; ring). assert (Ev : (- v) * (- v) = b - 1) by (rewrite <- V; ring).
  assert (K : forall t, z = RtoC t -> t * t <> b -> central_det b t = 0).
  { intros t -> H. rewrite <- c_det by auto. symmetry. apply (jac_det_unique L (RtoC t)); auto. apply jac_det_shear. now apply c_off. }
  assert (Inv : 0 < / b < 1) by (split; [apply Rinv_0_lt_compat; lra|rewrite <- Rinv_1; apply Rinv_lt_contravar; lra]).
  destruct (c_image z I) as [E|[E|[E|[E|E]]]]; specialize (K _ E); unfold central_det in K.
  - rewrite Rmult_0_l in K. specialize (K ltac:(lra)). replace ((0 + b) / (0 - b) ^ 2) with (/ b) in K by (field; lra). nra.
  - rewrite U in K. specialize (K ltac:(lra)). replace ((b + 1 + b) / (b + 1 - b) ^ 2) with (2 * b + 1) in K by (field; lra). nra.
  - rewrite Eu in K. specialize (K ltac:(lra)). replace ((b + 1 + b) / (b + 1 - b) ^ 2) with (2 * b + 1) in K by (field; lra). nra.
  - rewrite V in K. specialize (K ltac:(lra)). replace ((b - 1 + b) / (b - 1 - b) ^ 2) with (2 * b - 1) in K by (field; lra). nra.
  - rewrite Ev in K. specialize (K ltac:(lra)). replace ((b - 1 + b) / (b - 1 - b) ^ 2) with (2 * b - 1) in K by (field; lra). nra.
Qed.
Lemma c_source : off_lens_positions L (RtoC 0).
Proof. pose proof cb. apply c_off. lra. Qed.
End Central.

Lemma three_decr b b' : 1 < b -> b <= b' -> three b' <= three b.
Proof.
  intros H1 H2. unfold three. assert (I : / (b' * b') <= / (b * b)) by (apply Rinv_le_contravar; nra). assert (J : / (b * b) < 1) by (rewrite <- Rinv_1; apply Rinv_lt_contravar; nra).
  apply Rplus_le_compat; [apply Rinv_le_contravar; lra|]. apply Rmult_le_compat_l; [lra|]. apply Rinv_le_contravar; nra.
Qed.
Lemma spurious_big b : 1 < b -> b <= 1 + 2.5e-13 -> 10 ^ 12 < spurious b.
Proof.
  intros H1 H2. unfold spurious. assert (X : 0 < (2 * b - 1) * (2 * b - 1) - 1 < 1.5e-12) by nra. destruct X as (X0 & X1).
  apply Rlt_le_trans with (2 * / 1.5e-12); [lra|]. apply Rmult_le_compat_l; [lra|]. apply Rinv_le_contravar; lra.
Qed.
(** the separation at which the two roots that are not images sit exactly at the tolerance *)
Definition jump_s : R := 2 * sqrt (1 + 2.5e-13).
Lemma jump_b : (0.5 * jump_s) * (0.5 * jump_s) = 1 + 2.5e-13.
Proof. unfold jump_s. transitivity (sqrt (1 + 2.5e-13) * sqrt (1 + 2.5e-13)); [lra|]. apply sqrt_sqrt. lra. Qed.
Lemma jump_gt : 2 < jump_s.
Proof. unfold jump_s. assert (1 < sqrt (1 + 2.5e-13)) by (rewrite <- sqrt_1 at 1; apply sqrt_lt_1; lra). lra. Qed.
Lemma jump_tol : 2 * sqrt ((0.5 * jump_s) * (0.5 * jump_s) - 1) = 1e-6.
Proof. rewrite jump_b. replace (1 + 2.5e-13 - 1) with (5e-7 * 5e-7) by lra. rewrite sqrt_square; lra. Qed.
