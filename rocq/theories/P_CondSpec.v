(** What the quantities inside the accuracy tests are, and where the tests are centred. *)
From Coq Require Import Reals List Bool Arith ZArith Lia Lra Factorial.
From Coquelicot Require Import Coquelicot.
From Verif Require Import Base_R Base_List Base_C M_Utils M_Assembly M_Coeffs M_PointSource M_Limb M_Multipole
  M_MergeArea M_ExtSource M_CondExt S_Assembly S_PointSource S_Multipole P_Assembly P_Lens P_PointSource P_Jets P_Multipole P_ExtSource P_CondExt.
Import ListNotations.
Local Open Scope R_scope.
Local Open Scope C_scope.

Lemma wfac_1 : wfac 1 = 1. Proof. unfold wfac. simpl. f_equal. ring. Qed.
Lemma wfac_2 : wfac 2 = - (1). Proof. unfold wfac. apply Ceq; simpl; ring. Qed.
Lemma wfac_3 : wfac 3 = RtoC 2. Proof. unfold wfac. apply Ceq; simpl; ring. Qed.
Lemma Cinv_opp_all (z : C) : / - z = - / z.
Proof.
  destruct (Ceq_dec z 0) as [->|N]. replace (- 0) with (RtoC 0) by ring. rewrite Cinv_0. ring.
  field. split; auto. intros Z. apply N. replace z with (- - z) by ring. rewrite Z. ring.
Qed.

(** the closures as sums over the lens system *)
Lemma f2_W a e1 z : cl_f (closures2 a e1) z = - Wk (binary_mid a e1) z 1.
Proof. unfold Wk. rewrite wfac_1. simpl. rewrite RtoC_opp. unfold Cdiv. replace (z - - a) with (z + a) by ring. rewrite !Cmult_1_r. ring. Qed.
Lemma fp2_W a e1 z : cl_fp (closures2 a e1) z = - Wk (binary_mid a e1) z 2.
Proof. unfold Wk. rewrite wfac_2. cbn [cl_fp closures2 Wsum binary_mid]. rewrite RtoC_opp. replace (z - - a) with (z + a) by ring. ring. Qed.
Lemma fpp2_W a e1 z : cl_fpp (closures2 a e1) z = - Wk (binary_mid a e1) z 3.
Proof.
  unfold Wk. rewrite wfac_3. cbn [cl_fpp closures2 Wsum binary_mid]. rewrite RtoC_opp. unfold Cdiv.
  replace ((a - z) ^ 3) with (- (z - a) ^ 3) by (cbn [Cpow]; ring). rewrite Cinv_opp_all.
  replace (z - - a) with (a + z) by ring. ring.
Qed.
Lemma f3_W a e1 e2 r z : cl_f (closures3 a e1 e2 r) z = - Wk (triple_mid a e1 e2 (- r)) z 1.
Proof. unfold Wk. rewrite wfac_1. simpl. rewrite RtoC_opp. unfold Cdiv. replace (z - - a) with (z + a) by ring. replace (z - - r) with (z + r) by ring. rewrite !Cmult_1_r. ring. Qed.
Lemma fp3_W a e1 e2 r z : cl_fp (closures3 a e1 e2 r) z = - Wk (triple_mid a e1 e2 (- r)) z 2.
Proof. unfold Wk. rewrite wfac_2. cbn [cl_fp closures3 Wsum triple_mid]. rewrite RtoC_opp. replace (z - - a) with (z + a) by ring. replace (z - - r) with (z + r) by ring. ring. Qed.
Lemma fpp3_W a e1 e2 r z : cl_fpp (closures3 a e1 e2 r) z =
  - Wk (triple_mid a e1 e2 (- r)) z 3 + RtoC 3 * ((1 - e1 - e2)%R / (z + r) ^ 3).
Proof.
  unfold Wk. rewrite wfac_3. cbn [cl_fpp closures3 Wsum triple_mid]. rewrite RtoC_opp. unfold Cdiv.
  replace ((a - z) ^ 3) with (- (z - a) ^ 3) by (cbn [Cpow]; ring). rewrite Cinv_opp_all.
  replace (z - - a) with (a + z) by ring. replace (z - - r) with (z + r) by ring.
  replace (RtoC 3) with (RtoC 2 + 1) by (apply Ceq; simpl; ring). ring.
Qed.
Lemma dC_opp f t a : dC f t a -> dC (fun s => - f s) t (- a).
Proof.
  intros H. pose proof (dC_mult (fun _ => - (1)) f t 0 a (dC_const _ _) H) as P. cbv beta in P.
  replace (- a) with (0 * f t + - (1) * a) by ring.
  apply (dC_ext_box (Rabs t + 1)%R (fun s => - (1) * f s)); [lra| |exact P]. intros; ring.
Qed.
Lemma dC_ext f g t a b : (forall s, f s = g s) -> a = b -> dC f t a -> dC g t b.
Proof. intros E <- H. apply (dC_ext_box (Rabs t + 1)%R f); [lra| |exact H]. intros; apply E. Qed.

Lemma derivs2 a e1 (g : R -> C) t d : dC g t d -> off_masses (binary_mid a e1) (g t) ->
  dC (fun s => cl_f (closures2 a e1) (g s)) t (cl_fp (closures2 a e1) (g t) * d) /\
  dC (fun s => cl_fp (closures2 a e1) (g s)) t (cl_fpp (closures2 a e1) (g t) * d).
Proof.
  intros H O. split.
  - apply (dC_ext (fun s => - Wk (binary_mid a e1) (g s) 1) _ t (- (Wk (binary_mid a e1) (g t) 2 * d))).
    intros; symmetry; apply f2_W. rewrite fp2_W; ring. apply dC_opp. apply dC_W; auto.
  - apply (dC_ext (fun s => - Wk (binary_mid a e1) (g s) 2) _ t (- (Wk (binary_mid a e1) (g t) 3 * d))).
    intros; symmetry; apply fp2_W. rewrite fpp2_W; ring. apply dC_opp. apply dC_W; auto.
Qed.
Lemma cond_J_det a e1 z : off_masses (binary_mid a e1) z -> jacobian_det (binary_mid a e1) z (cond_J (closures2 a e1) z).
Proof.
  intros O. exists (jac_of (shear (binary_mid a e1) z)). split. now apply lens_map_derivative.
  rewrite <- det_jac2_shear. unfold det_jac2, cond_J. f_equal. rewrite Cmod_mult.
  assert (Q : cl_fp (closures2 a e1) (Cconj z) = e1 / (Cconj z - a) ^ 2 + (1 - e1)%R / (Cconj z + a) ^ 2) by reflexivity.
  rewrite <- Q. replace (Cmod (cl_fp (closures2 a e1) z)) with (Cmod (cl_fp (closures2 a e1) (Cconj z))). simpl; ring.
  rewrite <- Cmod_conj. f_equal. rewrite Q. now autorewrite with cconj.
Qed.
Lemma zhat_image a e1 w z : is_image (binary_mid a e1) w z -> cond_zhat (closures2 a e1) w z = Cconj z.
Proof.
  intros (O & <-). unfold cond_zhat. unfold lens_map. simpl. rewrite RtoC_opp. autorewrite with cconj. unfold Cdiv.
  replace (z - - a) with (z + a) by ring. ring.
Qed.
Lemma Jhat_image a e1 w z : is_image (binary_mid a e1) w z -> cond_Jhat (closures2 a e1) w z = cond_J (closures2 a e1) z.
Proof. intros H. unfold cond_Jhat, cond_J. now rewrite (zhat_image a e1 w z H). Qed.

(** three lenses: the second closure is never the derivative of the first *)
Lemma triple_fpp_wrong a e1 e2 r (g : R -> C) t d : (1 - e1 - e2 <> 0)%R -> d <> RtoC 0 -> dC g t d -> off_masses (triple_mid a e1 e2 (- r)) (g t) ->
  ~ dC (fun s => cl_fp (closures3 a e1 e2 r) (g s)) t (cl_fpp (closures3 a e1 e2 r) (g t) * d).
Proof.
  intros N Nd H O D.
  assert (D' : dC (fun s => cl_fp (closures3 a e1 e2 r) (g s)) t (- (Wk (triple_mid a e1 e2 (- r)) (g t) 3 * d))).
  { apply (dC_ext (fun s => - Wk (triple_mid a e1 e2 (- r)) (g s) 2) _ t (- (Wk (triple_mid a e1 e2 (- r)) (g t) 3 * d))).
    intros; symmetry; apply fp3_W. reflexivity. apply dC_opp. apply dC_W; auto. }
  pose proof (dC_unique _ _ _ _ D D') as Q. rewrite fpp3_W in Q.
  assert (Nz : g t + r <> 0).
  { intros Z. apply (O (1 - e1 - e2)%R (- r)). right; right; left; reflexivity. replace (g t) with (g t + r - r) by ring. rewrite Z; ring. }
  assert (Z : RtoC 3 * ((1 - e1 - e2)%R / (g t + r) ^ 3) * d = 0).
  { transitivity ((- Wk (triple_mid a e1 e2 (- r)) (g t) 3 + RtoC 3 * ((1 - e1 - e2)%R / (g t + r) ^ 3)) * d + Wk (triple_mid a e1 e2 (- r)) (g t) 3 * d).
    ring. rewrite Q. ring. }
  apply Cmult_integral in Z as [Z|Z]; [|contradiction]. apply Cmult_integral in Z as [Z|Z].
  - apply RtoC_inj in Z. lra.
  - unfold Cdiv in Z. apply Cmult_integral in Z as [Z|Z]. apply RtoC_inj in Z. contradiction.
    assert (P : (g t + r) ^ 3 <> 0) by (apply Cpow_neq0; exact Nz).
    apply (f_equal (fun x => (g t + r) ^ 3 * x)) in Z. rewrite Cinv_r in Z by exact P.
    apply (f_equal Re) in Z. rewrite Cmult_0_r in Z. simpl in Z. lra.
Qed.

(** * where the planetary test is centred *)
(** the mass of the planet whose critical curve crosses the real axis at a + u *)
Definition crossing_mass (a u : R) : R := (u ^ 2 * ((u + 2 * a) ^ 2 - 1) / ((u + 2 * a) ^ 2 - u ^ 2))%R.
Lemma crossing_mass_bounds a u : (1 / 2 <= a)%R -> (0 < u <= 1 / 11)%R -> (0 < crossing_mass a u <= u ^ 2)%R.
Proof.
  intros Ha Hu. unfold crossing_mass. assert (D : (0 < (u + 2 * a) ^ 2 - u ^ 2)%R) by nra. split.
  - apply Rdiv_lt_0_compat; [|exact D]. apply Rmult_lt_0_compat; nra.
  - apply (Rmult_le_reg_r ((u + 2 * a) ^ 2 - u ^ 2)); [exact D|]. unfold Rdiv. rewrite Rmult_assoc, Rinv_l by lra. rewrite Rmult_1_r. 
    apply Rmult_le_compat_l; nra.
Qed.
Lemma crossing_eq a u : (1 / 2 <= a)%R -> (0 < u <= 1 / 11)%R ->
  (crossing_mass a u / u ^ 2 + (1 - crossing_mass a u) / (u + 2 * a) ^ 2 = 1)%R.
Proof. intros Ha Hu. unfold crossing_mass. field. repeat split; nra. Qed.

Lemma real_off a e1 x : (x <> a)%R -> (x <> - a)%R -> off_masses (binary_mid a e1) (RtoC x).
Proof.
  intros A B m p [H|[H|[]]]; injection H as <- <-; intros Q; apply RtoC_inj in Q; auto.
Qed.
Lemma planetary_crossing a u rho : (1 / 2 <= a)%R -> (0 < u <= 1 / 11)%R -> (0 <= rho <= 1 / 5)%R ->
  let e1 := crossing_mass a u in
  let L := binary_mid a e1 in
  let z := RtoC (a + u)%R in
  (0 < e1 / (1 - e1) < 1 / 100)%R /\
  off_masses L z /\ jacobian_det L z 0 /\ planetary_test 2 a e1 (lens_map L z) rho = true.
Proof.
  intros Ha Hu Hr. cbv zeta. pose proof (crossing_mass_bounds a u Ha Hu) as B. pose proof (crossing_eq a u Ha Hu) as X.
  set (e1 := crossing_mass a u) in *. assert (B2 : (e1 <= 1 / 121)%R) by nra.
  assert (Q : (0 < e1 / (1 - e1) <= 1 / 120)%R).
  { split. apply Rdiv_lt_0_compat; lra. apply (Rmult_le_reg_r (1 - e1)); [lra|]. unfold Rdiv at 1. rewrite Rmult_assoc, Rinv_l by lra. lra. }
  assert (O : off_masses (binary_mid a e1) (RtoC (a + u)%R)) by (apply real_off; lra).
  split; [lra|]. split; [exact O|]. split.
  - pose proof (cond_J_det a e1 _ O) as J. replace 0%R with (cond_J (closures2 a e1) (RtoC (a + u)%R)). exact J.
    unfold cond_J. rewrite Cmod_mult.
    assert (V : cl_fp (closures2 a e1) (RtoC (a + u)%R) = RtoC 1).
    { cbn [cl_fp closures2]. rewrite <- RtoC_minus, <- RtoC_plus.
      replace (a + u - a)%R with u by ring. replace (a + u + a)%R with (u + 2 * a)%R by ring.
      rewrite <- !RtoC_pow. rewrite <- !RtoC_div by nra. rewrite <- RtoC_plus, X. reflexivity. }
    rewrite Cconj_RtoC, V, Cmod_1. ring.
  - unfold planetary_test. apply Rltb_true.
    assert (W : lens_map (binary_mid a e1) (RtoC (a + u)%R) = RtoC (a + u - e1 / u - (1 - e1) / (u + 2 * a))%R).
    { unfold lens_map, binary_mid. cbn [deflection]. rewrite <- !RtoC_minus, !Cconj_RtoC.
      replace (a + u - a)%R with u by ring. replace (a + u - - a)%R with (u + 2 * a)%R by ring.
      rewrite <- !RtoC_div by nra. rewrite <- !RtoC_plus, <- RtoC_minus. f_equal. ring. }
    rewrite W. rewrite <- RtoC_minus. cbn [Re Im fst snd RtoC].
    assert (S3 : ((3 * sqrt (e1 / (1 - e1)) / (2 * a)) ^ 2 = 9 * (e1 / (1 - e1)) / (4 * a ^ 2))%R).
    { replace ((3 * sqrt (e1 / (1 - e1)) / (2 * a)) ^ 2)%R with (9 * (sqrt (e1 / (1 - e1)) * sqrt (e1 / (1 - e1))) / (4 * a ^ 2))%R by (field; lra).
      rewrite sqrt_sqrt by lra. reflexivity. }
    rewrite S3.
    assert (S4 : (9 * (e1 / (1 - e1)) / (4 * a ^ 2) <= 9 / 120)%R).
    { apply (Rmult_le_reg_r (4 * a ^ 2)); [nra|]. unfold Rdiv at 1. rewrite Rmult_assoc, Rinv_l by nra. nra. }
    assert (S5 : (e1 / u <= u)%R).
    { apply (Rmult_le_reg_r u); [lra|]. unfold Rdiv. rewrite Rmult_assoc, Rinv_l by lra. lra. }
    assert (S6 : ((1 - e1) / (u + 2 * a) <= 1 / (2 * a))%R).
    { unfold Rdiv. apply Rmult_le_compat; [lra|left; apply Rinv_0_lt_compat; lra|lra|]. apply Rinv_le_contravar; lra. }
    assert (S7 : (a <= - (- 1 / (2 * a) - (a + u - e1 / u - (1 - e1) / (u + 2 * a))))%R).
    { replace (- 1 / (2 * a))%R with (- (1 / (2 * a)))%R by (field; lra). lra. }
    set (D := (- 1 / (2 * a) - (a + u - e1 / u - (1 - e1) / (u + 2 * a)))%R) in *. 
    assert (S8 : (1 / 4 <= D ^ 2)%R) by nra. nra.
Qed.
Lemma zhat_only_image a e1 w z : off_masses (binary_mid a e1) z -> cond_zhat (closures2 a e1) w z = Cconj z -> is_image (binary_mid a e1) w z.
Proof.
  intros O H. split; auto. unfold cond_zhat in H.
  assert (W : w = z + Cconj (cl_f (closures2 a e1) z)).
  { transitivity (Cconj ((Cconj w - cl_f (closures2 a e1) z) + cl_f (closures2 a e1) z)).
    replace (Cconj w - cl_f (closures2 a e1) z + cl_f (closures2 a e1) z) with (Cconj w) by ring. now rewrite Cconj_conj.
    rewrite H, Cconj_plus, Cconj_conj. reflexivity. }
  rewrite W. unfold lens_map, binary_mid. cbn [deflection cl_f closures2]. rewrite RtoC_opp. autorewrite with cconj. unfold Cdiv.
  replace (Cconj z - - a) with (Cconj z + a) by ring. ring.
Qed.
Lemma planetary_meaning a e1 w rho : (0 <= e1 < 1)%R -> (0 < a)%R ->
  (planetary_test 2 a e1 w rho = true <->
   2 * (rho ^ 2 + 9 * (e1 / (1 - e1)) / (2 * a) ^ 2) < Cmod (w + RtoC (1 / (2 * a)))%C ^ 2)%R.
Proof.
  intros He Ha. unfold planetary_test. cbv zeta. rewrite Rltb_true.
  assert (0 <= e1 / (1 - e1))%R by (apply Rmult_le_pos; [lra|left; apply Rinv_0_lt_compat; lra]).
  replace ((3 * sqrt (e1 / (1 - e1)) / (2 * a)) ^ 2)%R with (9 * (sqrt (e1 / (1 - e1)) * sqrt (e1 / (1 - e1))) / (2 * a) ^ 2)%R by (field; lra).
  rewrite sqrt_sqrt by lra.
  replace (Cmod (w + RtoC (1 / (2 * a))%R) ^ 2)%R with (Re (RtoC (- 1 / (2 * a)) - w)%C ^ 2 + Im (RtoC (- 1 / (2 * a)) - w)%C ^ 2)%R. reflexivity.
  unfold Cmod. rewrite pow2_sqrt by (apply Rplus_le_le_0_compat; apply pow2_ge_0). simpl. field. lra.
Qed.
