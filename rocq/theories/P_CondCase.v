(** A worked source position: equal masses at +-3/4, source at the centre, five images. *)
From Coq Require Import Reals List Bool Arith ZArith Lia Lra.
From Coquelicot Require Import Coquelicot.
From Verif Require Import Base_R Base_List Base_C M_Utils M_Assembly M_Coeffs M_PointSource M_Limb M_Multipole
  M_MergeArea M_ExtSource M_CondExt S_PointSource P_Assembly P_CondExt P_CondSpec.
Import ListNotations.
Local Open Scope R_scope.
Local Open Scope C_scope.

Definition case_images : list C :=
  [RtoC 0; RtoC (5 / 4); RtoC (- (5 / 4)); (0, sqrt 7 / 4)%R; (0, - (sqrt 7 / 4))%R].
Definition case_solver (c : list C) (i : option (list C)) : list C := case_images.
Definition case_params : params := mkparams (Some (3 / 2)%R) (Some 1%R) None None None None None None.

Definition sq_is (z : C) (Z : R) : Prop := z * z = RtoC Z.
Lemma case_squares z : In z case_images -> exists Z, sq_is z Z /\ (Z = 0 \/ Z = 25 / 16 \/ Z = - (7 / 16))%R.
Proof.
  assert (Q : (sqrt 7 * sqrt 7 = 7)%R) by (apply sqrt_sqrt; lra).
  unfold sq_is. intros [<-|[<-|[<-|[<-|[<-|[]]]]]].
  - exists 0%R. split; [ring|auto].
  - exists (25 / 16)%R. split; [|auto]. rewrite <- RtoC_mult. f_equal. field.
  - exists (25 / 16)%R. split; [|auto]. rewrite <- RtoC_mult. f_equal. field.
  - exists (- (7 / 16))%R. split; [|auto]. apply Ceq; simpl; lra.
  - exists (- (7 / 16))%R. split; [|auto]. apply Ceq; simpl; lra.
Qed.
Lemma sq_conj z Z : sq_is z Z -> sq_is (Cconj z) Z.
Proof. unfold sq_is. intros H. rewrite <- Cconj_mult, H. apply Cconj_RtoC. Qed.
Definition A34 : R := (3 / 4)%R.
Lemma sq_off z Z : sq_is z Z -> (Z <> 9 / 16)%R -> z - RtoC A34 <> 0 /\ z + RtoC A34 <> 0.
Proof.
  unfold sq_is, A34. intros H N. split; intros Q; apply N; apply RtoC_inj; rewrite <- H.
  - replace z with (z - RtoC (3 / 4) + RtoC (3 / 4)) by ring. rewrite Q. rewrite Cplus_0_l, <- RtoC_mult. f_equal. field.
  - replace z with (z + RtoC (3 / 4) - RtoC (3 / 4)) by ring. rewrite Q. apply Ceq; simpl; field.
Qed.
Lemma sq_fp z Z : sq_is z Z -> (Z <> 9 / 16)%R -> cl_fp (closures2 A34 (1 / 2)) z = RtoC ((Z + 9 / 16) / (Z - 9 / 16) ^ 2)%R.
Proof.
  intros H N. destruct (sq_off z Z H N) as (N1 & N2). cbn [cl_fp closures2].
  replace (1 - 1 / 2)%R with (1 / 2)%R by lra.
  transitivity ((z * z + RtoC A34 * RtoC A34) / ((z * z - RtoC A34 * RtoC A34) * (z * z - RtoC A34 * RtoC A34))).
  - replace (RtoC (1 / 2)%R) with (/ RtoC 2) by (rewrite <- RtoC_inv by lra; f_equal; field).
    assert (RtoC 2 <> 0) by (intros Q; apply RtoC_inj in Q; lra).
    field. repeat split; auto.
    replace (z * z - RtoC A34 * RtoC A34) with ((z - RtoC A34) * (z + RtoC A34)) by ring. now apply Cmult_neq_0.
  - unfold sq_is in H. rewrite H. unfold A34. rewrite <- !RtoC_mult, <- RtoC_plus, <- RtoC_minus, <- RtoC_mult.
    rewrite <- RtoC_div. f_equal. field. lra.
    replace (3 / 4 * (3 / 4))%R with (9 / 16)%R by field. apply Rmult_integral_contrapositive_currified; lra.
Qed.
Lemma sq_fpp z Z : sq_is z Z -> (Z <> 9 / 16)%R -> exists r, cl_fpp (closures2 A34 (1 / 2)) z ^ 2 = RtoC r.
Proof.
  intros H N. destruct (sq_off z Z H N) as (N1 & N2). cbn [cl_fpp closures2].
  replace (1 - 1 / 2)%R with (1 / 2)%R by lra.
  set (B := RtoC A34 * RtoC A34).
  assert (ND : z * z - B <> 0).
  { unfold B. replace (z * z - RtoC A34 * RtoC A34) with ((z - RtoC A34) * (z + RtoC A34)) by ring. now apply Cmult_neq_0. }
  assert (N3 : RtoC A34 - z <> 0). { intros Q. apply N1. replace (z - RtoC A34) with (- (RtoC A34 - z)) by ring. rewrite Q. ring. }
  assert (N4 : RtoC A34 + z <> 0) by (rewrite Cplus_comm; exact N2).
  assert (X : (RtoC 2 * (RtoC (1 / 2) / (RtoC A34 - z) ^ 3 - RtoC (1 / 2) / (RtoC A34 + z) ^ 3)) ^ 2 =
    RtoC 4 * (z * z) * (z * z + RtoC 3 * B) * (z * z + RtoC 3 * B) / ((z * z - B) * (z * z - B) * (z * z - B) * ((z * z - B) * (z * z - B) * (z * z - B)))).
  { replace (RtoC (1 / 2)%R) with (/ RtoC 2) by (rewrite <- RtoC_inv by lra; f_equal; field).
    assert (RtoC 2 <> 0) by (intros Q; apply RtoC_inj in Q; lra).
    replace (RtoC 4) with (RtoC 2 * RtoC 2) by (rewrite <- RtoC_mult; f_equal; lra).
    replace (RtoC 3) with (RtoC 2 + RtoC 1) by (rewrite <- RtoC_plus; f_equal; lra).
    unfold B in *. field. repeat split; auto. }
  rewrite X. unfold sq_is in H. rewrite H. unfold B, A34. rewrite <- !RtoC_mult, <- !RtoC_plus, <- !RtoC_minus, <- !RtoC_mult.
  eexists. rewrite <- RtoC_div. reflexivity.
  replace (3 / 4 * (3 / 4))%R with (9 / 16)%R by field. repeat apply Rmult_integral_contrapositive_currified; lra.
Qed.
Lemma case_lens z : In z case_images -> lens_eq2 A34 (1 / 2) z = RtoC 0.
Proof.
  intros Hz. destruct (case_squares z Hz) as (Z & H & HZ). assert (N : (Z <> 9 / 16)%R) by lra.
  pose proof (sq_conj z Z H) as H'. destruct (sq_off _ Z H' N) as (N1 & N2).
  unfold lens_eq2. replace (1 - 1 / 2)%R with (1 / 2)%R by lra.
  transitivity (z - Cconj z / (Cconj z * Cconj z - RtoC A34 * RtoC A34)).
  - replace (RtoC (1 / 2)%R) with (/ RtoC 2) by (rewrite <- RtoC_inv by lra; f_equal; field).
    assert (RtoC 2 <> 0) by (intros Q; apply RtoC_inj in Q; lra).
    assert (Cconj z * Cconj z - RtoC A34 * RtoC A34 <> 0).
    { replace (Cconj z * Cconj z - RtoC A34 * RtoC A34) with ((Cconj z - RtoC A34) * (Cconj z + RtoC A34)) by ring. now apply Cmult_neq_0. }
    field. repeat split; auto.
  - unfold sq_is in H'. rewrite H'. unfold A34. rewrite <- RtoC_mult, <- RtoC_minus.
    destruct Hz as [<-|[<-|[<-|[<-|[<-|[]]]]]].
    + rewrite Cconj_RtoC. unfold Cdiv. ring.
    + assert (Z = 25 / 16)%R as ->. { unfold sq_is in H. rewrite <- RtoC_mult in H. apply RtoC_inj in H. lra. }
      rewrite Cconj_RtoC, <- RtoC_div by lra. rewrite <- RtoC_minus. f_equal. field.
    + assert (Z = 25 / 16)%R as ->. { unfold sq_is in H. rewrite <- RtoC_mult in H. apply RtoC_inj in H. lra. }
      rewrite Cconj_RtoC, <- RtoC_div by lra. rewrite <- RtoC_minus. f_equal. field.
    + assert (Z = - (7 / 16))%R as ->. { unfold sq_is in H. apply (f_equal Re) in H. simpl in H. assert (Q : (sqrt 7 * sqrt 7 = 7)%R) by (apply sqrt_sqrt; lra). lra. }
      apply Ceq; simpl; field.
    + assert (Z = - (7 / 16))%R as ->. { unfold sq_is in H. apply (f_equal Re) in H. simpl in H. assert (Q : (sqrt 7 * sqrt 7 = 7)%R) by (apply sqrt_sqrt; lra). lra. }
      apply Ceq; simpl; field.
Qed.
Lemma case_pole z : In z case_images -> at_pole (closures2 A34 (1 / 2)) z = false.
Proof.
  intros Hz. destruct (case_squares z Hz) as (Z & H & HZ). assert (N : (Z <> 9 / 16)%R) by lra. destruct (sq_off _ Z H N) as (N1 & N2).
  unfold at_pole. cbn [cl_pos closures2 existsb]. destruct (Ceq_dec z (RtoC A34)) as [Q|_]. exfalso; apply N1; rewrite Q; ring.
  destruct (Ceq_dec z (RtoC (- A34))) as [Q|_]. exfalso; apply N2; rewrite Q, RtoC_opp; ring. reflexivity.
Qed.
Lemma case_conj z : In z case_images -> In (Cconj z) case_images.
Proof.
  assert (Q : (forall x, Cconj (0, x) = (0, - x))%R) by (intros; apply Ceq; simpl; ring).
  intros [<-|[<-|[<-|[<-|[<-|[]]]]]]; unfold case_images; rewrite ?Cconj_RtoC, ?Q, ?Ropp_involutive; cbn [In]; tauto.
Qed.
Lemma case_J z : In z case_images -> exists Z, sq_is z Z /\ (Z = 0 \/ Z = 25 / 16 \/ Z = - (7 / 16))%R /\
  cond_J (closures2 A34 (1 / 2)) z = (1 - ((Z + 9 / 16) / (Z - 9 / 16) ^ 2) ^ 2)%R.
Proof.
  intros Hz. destruct (case_squares z Hz) as (Z & H & HZ). exists Z. split; auto. split; auto.
  unfold cond_J. rewrite (sq_fp z Z), (sq_fp (Cconj z) Z) by (auto using sq_conj; lra). rewrite <- RtoC_mult, Cmod_R.
  rewrite Rabs_pos_eq. simpl; ring. apply Rle_0_sqr.
Qed.
Lemma case_cusp z rho rm : In z case_images -> mu_cusp (closures2 A34 (1 / 2)) rho rm z = Some 0%R.
Proof.
  intros Hz. unfold mu_cusp. rewrite (case_pole z Hz), (case_pole _ (case_conj z Hz)).
  destruct (case_J z Hz) as (Z & H & HZ & ->). cbn [orb].
  destruct (Reqb_spec (1 - ((Z + 9 / 16) / (Z - 9 / 16) ^ 2) ^ 2) 0) as [Q|_].
  - exfalso. destruct HZ as [->|[->| ->]]; revert Q.
    + replace ((0 + 9 / 16) / (0 - 9 / 16) ^ 2)%R with (16 / 9)%R by field. intros Q; lra.
    + replace ((25 / 16 + 9 / 16) / (25 / 16 - 9 / 16) ^ 2)%R with (17 / 8)%R by field. intros Q; lra.
    + replace ((- (7 / 16) + 9 / 16) / (- (7 / 16) - 9 / 16) ^ 2)%R with (1 / 8)%R by field. intros Q; lra.
  - f_equal. assert (N : (Z <> 9 / 16)%R) by lra. rewrite (sq_fp (Cconj z) Z) by auto using sq_conj. destruct (sq_fpp z Z H N) as (r & ->).
    rewrite <- RtoC_pow, <- !RtoC_mult. simpl Im. unfold Rdiv. rewrite Rmult_0_r, !Rmult_0_l. apply Rabs_R0.
Qed.
Lemma case_images2 : images2 case_solver A34 (1 / 2) (RtoC 0) None = (case_images, repeat true 5).
Proof.
  unfold images2, case_solver. f_equal.
  transitivity (map (fun _ : C => true) case_images); [|reflexivity]. apply map_ext_in. intros z Hz. rewrite (case_lens z Hz).
  apply Rltb_true. replace (RtoC 0 - RtoC 0) with (RtoC 0) by ring. rewrite Cmod_0. lra.
Qed.
Definition case_value : R := (81 / 175 + 2 * (64 / 225) + 2 * (64 / 63))%R.
Lemma case_hex : hex_sum (W_two A34 (1 / 2)) case_images (repeat true 5) 0 0 = (case_value, 0%R).
Proof.
  assert (Q : forall z, In z case_images -> exists Z, sq_is z Z /\ (Z = 0 \/ Z = 25 / 16 \/ Z = - (7 / 16))%R /\
     cassan_of (W_two A34 (1 / 2) z) 0 0 = (1 / (1 - ((Z + 9 / 16) / (Z - 9 / 16) ^ 2) ^ 2), 0, 0)%R).
  { intros z Hz. destruct (case_squares z Hz) as (Z & H & HZ). exists Z. repeat split; auto. unfold cassan_of, cassan. cbv zeta.
    f_equal; [f_equal|]; try (rewrite pow_i by lia; ring).
    unfold mu0. f_equal. f_equal.
    assert (W : W_two A34 (1 / 2) z 2 = - cl_fp (closures2 A34 (1 / 2)) z).
    { unfold W_two. rewrite wfac_2. cbn [cl_fp closures2]. ring. }
    rewrite W, Cmod_opp, (sq_fp z Z H) by lra. rewrite Cmod_R. rewrite pow2_abs. reflexivity. }
  assert (V : forall z, In z case_images -> exists v, cassan_of (W_two A34 (1 / 2) z) 0 0 = (v, 0, 0)%R /\
     (sq_is z 0 -> Rabs (v + 0 + 0) = 81 / 175)%R /\ (sq_is z (25 / 16) -> Rabs (v + 0 + 0) = 64 / 225)%R /\ (sq_is z (- (7 / 16)) -> Rabs (v + 0 + 0) = 64 / 63)%R).
  { intros z Hz. destruct (Q z Hz) as (Z & H & HZ & E). rewrite E. eexists. split; [reflexivity|].
    assert (U : forall Z', sq_is z Z' -> Z = Z') by (intros Z' H'; apply RtoC_inj; unfold sq_is in *; congruence).
    repeat split; intros H'; apply U in H' as ->.
    - replace (1 / (1 - ((0 + 9 / 16) / (0 - 9 / 16) ^ 2) ^ 2) + 0 + 0)%R with (- (81 / 175))%R by field. rewrite Rabs_Ropp. apply Rabs_pos_eq; lra.
    - replace (1 / (1 - ((25 / 16 + 9 / 16) / (25 / 16 - 9 / 16) ^ 2) ^ 2) + 0 + 0)%R with (- (64 / 225))%R by field. rewrite Rabs_Ropp. apply Rabs_pos_eq; lra.
    - replace (1 / (1 - ((- (7 / 16) + 9 / 16) / (- (7 / 16) - 9 / 16) ^ 2) ^ 2) + 0 + 0)%R with (64 / 63)%R by field. apply Rabs_pos_eq; lra. }
  assert (Q7 : (sqrt 7 * sqrt 7 = 7)%R) by (apply sqrt_sqrt; lra).
  unfold hex_sum. cbv zeta. unfold case_images at 1 2 3. cbn [map repeat combine fst snd sumR].
  destruct (V (RtoC 0)) as (v1 & -> & X1 & _ & _). simpl; auto.
  destruct (V (RtoC (5 / 4))) as (v2 & -> & _ & X2 & _). simpl; auto.
  destruct (V (RtoC (- (5 / 4)))) as (v3 & -> & _ & X3 & _). simpl; auto.
  destruct (V (0, sqrt 7 / 4)%R) as (v4 & -> & _ & _ & X4). simpl; auto.
  destruct (V (0, - (sqrt 7 / 4))%R) as (v5 & -> & _ & _ & X5). simpl; auto 10.
  rewrite X1, X2, X3, X4, X5. rewrite !Rabs_R0. unfold case_value. f_equal; field.
  all: unfold sq_is; apply Ceq; simpl; lra.
Qed.
Lemma case_nopole : existsb (fun zi => at_pole (closures2 A34 (1 / 2)) zi || Reqb (cond_J (closures2 A34 (1 / 2)) zi) 0) case_images = false.
Proof.
  apply not_true_iff_false. intros H. apply existsb_exists in H as (z & Hz & H). rewrite (case_pole z Hz) in H.
  pose proof (case_cusp z 0 0 Hz) as Q. unfold mu_cusp in Q. rewrite (case_pole z Hz), (case_pole _ (case_conj z Hz)) in Q. cbn [orb] in *. rewrite H in Q. discriminate.
Qed.
Lemma case_point p : p_a p = Some A34 -> p_e1 p = Some (1 / 2)%R ->
  binary_point case_solver p A34 (1 / 2) 1 0 0 (RtoC 0) = Ok (Some case_value, true).
Proof.
  intros Ha He. rewrite (binary_point_eq case_solver p A34 (1 / 2) 1 0 0 (RtoC 0) Ha He). rewrite case_images2, case_nopole, case_hex. cbv zeta. cbn [fst snd].
  f_equal. f_equal.
  assert (T : proximity_test (closures2 A34 (1 / 2)) 1e-2 0.02 4 1e-3 (RtoC 0) case_images (repeat true 5) 0 (Some 0%R) = true).
  { assert (M : map (mu_cusp (closures2 A34 (1 / 2)) 0 1e-3) case_images = repeat (Some 0%R) 5).
    { transitivity (map (fun _ : C => Some 0%R) case_images); [|reflexivity]. apply map_ext_in. intros z Hz. now apply case_cusp. }
    unfold proximity_test. rewrite M. unfold weighted.
    cbn [repeat filter negb length Nat.eqb combine fst snd option_map osum map b2R olift2 andb]. apply Rltb_true. lra. }
  rewrite T. destruct (Rltb_spec 1 0.01); [lra|reflexivity].
Qed.
Lemma case_shift : RtoC 0 - x_cm A34 1 = RtoC 0.
Proof. unfold x_cm. rewrite <- RtoC_minus. f_equal. field. Qed.
Lemma case_binary cfg dc chunk mf : chunk <> 0%nat -> mag_binary case_solver case_params cfg 0 dc mf chunk [RtoC 0] 0 = Ok [Some case_value].
Proof.
  intros Hc. unfold mag_binary. cbn [p_s p_q case_params]. replace (0.5 * (3 / 2))%R with A34 by (unfold A34; lra). replace (1 / (1 + 1))%R with (1 / 2)%R by lra.
  cbv zeta. cbn [res_mapM]. rewrite case_shift. rewrite case_point by reflexivity. cbn [res_bind res_map map fst snd].
  unfold assemble. rewrite P_Assembly.chunked_vmap_spec by exact Hc. reflexivity.
Qed.
Lemma case_test p : p_a p = Some A34 -> p_e1 p = Some (1 / 2)%R -> test_full case_solver 2 p 0 (RtoC 0) = Ok true.
Proof.
  intros Ha He. unfold test_full. rewrite He. cbn [getp]. simpl Z.eqb. cbv iota. rewrite Ha. cbn [getp]. replace (1 / 2 / (1 - 1 / 2))%R with 1%R by field.
  rewrite case_point by assumption. reflexivity.
Qed.
Lemma case_magnifications full : magnifications case_solver full 2 case_params [RtoC 0] 0 = Ok [Some case_value].
Proof.
  unfold magnifications. simpl Z.eqb. cbv iota. cbn [p_s p_q case_params getp].
  replace (0.5 * (3 / 2))%R with A34 by (unfold A34; lra). replace (1 / (1 + 1))%R with (1 / 2)%R by lra.
  cbv zeta. cbn [res_mapM]. rewrite case_shift, case_point by reflexivity. reflexivity.
Qed.
Lemma real_image_case : lens_map (binary_mid (3 / 4) (1 / 2)) (RtoC (5 / 4)) = RtoC 0.
Proof.
  unfold lens_map, binary_mid. cbn [deflection]. rewrite <- !RtoC_minus, !Cconj_RtoC, <- !RtoC_div by lra.
  rewrite <- !RtoC_plus, <- RtoC_minus. f_equal. field.
Qed.
