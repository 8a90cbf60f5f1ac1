(** Three equal masses at the corners of a triangle with equal sides, the source behind its centre: all ten roots (C75, C06). *)
From Coq Require Import Reals List Lra Lia Permutation ZArith.
From Coquelicot Require Import Complex.
From Verif Require Import Base_R Base_List Base_C M_Utils M_Coeffs M_PointSource S_PointSource S_Poly
  P_Lens P_Poly P_PolyRoots P_PointSource P_Images P_RootsCont P_MagCont P_MagLens.
Import ListNotations.
Local Open Scope R_scope.

(** the cube root of six, the distance of the masses from the centre *)
Definition tri_rho : R := exp (ln 6 / 3).
Lemma tri_pos : 0 < tri_rho. Proof. apply exp_pos. Qed.
Lemma tri_cube : tri_rho * tri_rho * tri_rho = 6.
Proof. unfold tri_rho. rewrite <- !exp_plus. replace (ln 6 / 3 + ln 6 / 3 + ln 6 / 3) with (ln 6) by field. apply exp_ln. lra. Qed.
Definition tri_s : R := sqrt 3 * tri_rho.
Definition tri_r3 : R := 3 / 2 * tri_rho.
Definition tri_w : C := (0, tri_rho / 2).
Lemma tri_s_pos : 0 < tri_s.
Proof. apply Rmult_lt_0_compat; [apply sqrt_lt_R0; lra|apply tri_pos]. Qed.
Lemma tri_third : third_lens tri_r3 (PI / 2) = (0, tri_r3).
Proof. unfold third_lens, cexpi. rewrite cos_PI2, sin_PI2. apply Ceq; cbn; ring. Qed.
Lemma tri_xcm : x_cm (0.5 * tri_s) 1 = 0.
Proof. unfold x_cm. lra. Qed.
Definition tri_e : R := 1 / (1 + 1 + 1).
Lemma tri_shift : triple_shift_cm (0.5 * tri_s) (0, tri_r3) tri_e tri_e = tri_w.
Proof. unfold triple_shift_cm, tri_w, tri_e, tri_r3. cbn [Re Im fst snd]. apply Ceq; unfold Re, Im; cbn [fst snd]; field. Qed.

(** the masses seen from the centre *)
Definition tri_c1 : C := (- (0.5 * tri_s), - (tri_rho / 2)).
Definition tri_c2 : C := (0.5 * tri_s, - (tri_rho / 2)).
Definition tri_c3 : C := (0, tri_rho).
Lemma tri_asq : 0.5 * tri_s * (0.5 * tri_s) = 3 / 4 * (tri_rho * tri_rho).
Proof. unfold tri_s. assert (sqrt 3 * sqrt 3 = 3) by (apply sqrt_sqrt; lra). nra. Qed.
Definition i6 : C := (0, 6).
Lemma tri_S1 : (tri_c1 + tri_c2 + tri_c3 = 0)%C.
Proof. unfold tri_c1, tri_c2, tri_c3. apply Ceq; cbn; lra. Qed.
Lemma tri_S2 : (tri_c1 * tri_c2 + tri_c1 * tri_c3 + tri_c2 * tri_c3 = 0)%C.
Proof. pose proof tri_asq as A. unfold tri_c1, tri_c2, tri_c3. set (b := 0.5 * tri_s) in *. apply Ceq; cbn; nra. Qed.
Lemma tri_S3 : (tri_c1 * tri_c2 * tri_c3 = - i6)%C.
Proof.
  pose proof tri_asq as A. pose proof tri_cube as K. unfold tri_c1, tri_c2, tri_c3, i6. set (b := 0.5 * tri_s) in *. set (r := tri_rho) in *.
  apply Ceq; cbn; [ring|]. transitivity (- (b * b) * r - r * r * r / 4); [field|]. rewrite A. lra.
Qed.
Lemma tri_H Z : ((Z - tri_c1) * (Z - tri_c2) * (Z - tri_c3) = Z * Z * Z + i6)%C.
Proof.
  transitivity (Z * Z * Z - (tri_c1 + tri_c2 + tri_c3) * Z * Z + (tri_c1 * tri_c2 + tri_c1 * tri_c3 + tri_c2 * tri_c3) * Z - tri_c1 * tri_c2 * tri_c3)%C; [ring|].
  rewrite tri_S1, tri_S2, tri_S3. ring.
Qed.
Lemma tri_G Z : ((Z - tri_c2) * (Z - tri_c3) + (Z - tri_c1) * (Z - tri_c3) + (Z - tri_c1) * (Z - tri_c2) = 3 * (Z * Z))%C.
Proof.
  transitivity (3 * (Z * Z) - 2 * (tri_c1 + tri_c2 + tri_c3) * Z + (tri_c1 * tri_c2 + tri_c1 * tri_c3 + tri_c2 * tri_c3))%C; [ring|].
  rewrite tri_S1, tri_S2. ring.
Qed.
Lemma tri_thirdC : RtoC tri_e = (/ 3)%C.
Proof. unfold tri_e. replace (1 / (1 + 1 + 1)) with (/ 3) by field. rewrite RtoC_inv by lra. reflexivity. Qed.
Lemma tri_rest : 1 - tri_e - tri_e = tri_e. Proof. unfold tri_e. field. Qed.
Lemma tri_three : RtoC 3 <> RtoC 0. Proof. apply RtoC_neq0; lra. Qed.
Lemma tri_poly Z : peval (triple_cm_body (RtoC 0) tri_c1 tri_c2 tri_c3 tri_e tri_e tri_e) Z = (- i6 * (Z * ((Z * Z * Z + i6) ^ 3 + Z * Z * Z)))%C.
Proof.
  assert (Hm : tri_e + tri_e + tri_e = 1) by (unfold tri_e; field). assert (Hc : (tri_e * tri_c1 + tri_e * tri_c2 + tri_e * tri_c3 = 0)%C) by (transitivity (tri_e * (tri_c1 + tri_c2 + tri_c3))%C; [ring|rewrite tri_S1; ring]).
  rewrite (triple_body_id (RtoC 0) tri_c1 tri_c2 tri_c3 tri_e tri_e tri_e). cbv zeta. rewrite (polyH_fact tri_c1 tri_c2 tri_c3 Z), (polyG_fact tri_c1 tri_c2 tri_c3 tri_e tri_e tri_e Hm Hc Z), tri_H.
  assert (EG : (tri_e * (Z - tri_c2) * (Z - tri_c3) + tri_e * (Z - tri_c1) * (Z - tri_c3) + tri_e * (Z - tri_c1) * (Z - tri_c2) = Z * Z)%C).
  { transitivity (tri_e * ((Z - tri_c2) * (Z - tri_c3) + (Z - tri_c1) * (Z - tri_c3) + (Z - tri_c1) * (Z - tri_c2)))%C; [ring|]. rewrite tri_G, tri_thirdC. field. exact tri_three. }
  rewrite EG. set (H := (Z * Z * Z + i6)%C).
  pose proof (f_equal Cconj tri_S1) as T1. pose proof (f_equal Cconj tri_S2) as T2. pose proof (f_equal Cconj tri_S3) as T3. autorewrite with cconj in T1, T2, T3.
  assert (I6 : Cconj i6 = (- i6)%C) by (unfold i6; apply Ceq; cbn; ring). rewrite I6 in T3. autorewrite with cconj.
  set (b1 := Cconj tri_c1) in *. set (b2 := Cconj tri_c2) in *. set (b3 := Cconj tri_c3) in *.
  transitivity (Z * (- (b1 * b2 * b3) * H ^ 3 + (b1 * b2 + b1 * b3 + b2 * b3) * H ^ 2 * (Z * Z) - (b1 + b2 + b3) * H * (Z * Z) ^ 2 + (Z * Z) ^ 3) - (tri_e * (b1 * b2 + b1 * b3 + b2 * b3) * H ^ 3 - (b1 + b2 + b3) * H ^ 2 * (Z * Z) + H * (Z * Z) ^ 2))%C; [ring|].
  rewrite T1, T2, T3. unfold H. ring.
Qed.
Lemma tri_hd : hd (RtoC 0) (triple_cm_body (RtoC 0) tri_c1 tri_c2 tri_c3 tri_e tri_e tri_e) = (- i6)%C.
Proof.
  unfold triple_cm_body. cbv zeta. cbn [hd]. pose proof (f_equal Cconj tri_S3) as T3. autorewrite with cconj in T3. assert (I6 : Cconj i6 = (- i6)%C) by (unfold i6; apply Ceq; cbn; ring). rewrite I6 in T3.
  autorewrite with cconj. transitivity (- (Cconj tri_c1 * Cconj tri_c2 * Cconj tri_c3))%C; [ring|]. rewrite T3. ring.
Qed.
Lemma i6_neq : (- i6)%C <> RtoC 0.
Proof. unfold i6. intros E. apply (f_equal snd) in E. cbn in E. lra. Qed.

(** the ten roots: zero and the cube roots of three numbers *)
Definition cube_of (X : C) : list C := [RtoC 1; RtoC 0; RtoC 0; (- X)%C].
Definition tri_X0 : C := (0, - 8).
Definition tri_X1 : C := (sqrt 2, - 5).
Definition tri_X2 : C := (- sqrt 2, - 5).
Lemma tri_factor X : ((X + i6) ^ 3 + X = (X - tri_X0) * ((X - tri_X1) * (X - tri_X2)))%C.
Proof.
  assert (Q : sqrt 2 * sqrt 2 = 2) by (apply sqrt_sqrt; lra).
  assert (E1 : (tri_X1 + tri_X2 = (0, - 10)%R)%C) by (unfold tri_X1, tri_X2; apply Ceq; cbn; lra).
  assert (E2 : (tri_X1 * tri_X2 = - (27))%C) by (unfold tri_X1, tri_X2; apply Ceq; cbn; nra).
  transitivity ((X - tri_X0) * (X * X - (tri_X1 + tri_X2) * X + tri_X1 * tri_X2))%C; [|ring]. rewrite E1, E2. unfold tri_X0, i6.
  destruct X as [x y]. apply Ceq; cbn; ring.
Qed.
Lemma cube_prod X l Z : splits (cube_of X) l -> prodC (map (fun r => Z - r)%C l) = (Z * Z * Z - X)%C.
Proof. intros S. specialize (S Z). unfold cube_of in S. cbn [peval length hd] in S. transitivity (RtoC 1 * prodC (map (fun r => Z - r) l))%C; [ring|]. rewrite <- S. ring. Qed.
Lemma cube_in X l Z : splits (cube_of X) l -> In Z l -> (Z * Z * Z = X)%C.
Proof.
  intros S Hin. pose proof (cube_prod X l Z S) as E. replace (prodC _) with (RtoC 0) in E.
  - apply Cminus_eq_0. now rewrite <- E.
  - clear - Hin. induction l as [|x l IH]; [destruct Hin|]. cbn [map prodC]. destruct Hin as [->|H]; [ring|]. rewrite <- (IH H). ring.
Qed.
Lemma cube_ex X : exists l, splits (cube_of X) l /\ length l = 3%nat.
Proof.
  assert (N : hd (RtoC 0) (cube_of X) <> RtoC 0) by (cbn; apply RtoC_neq0; lra). destruct (splits_exists _ N) as (l & S). exists l. split; auto. rewrite (splits_length _ _ N S). reflexivity.
Qed.
Lemma tri_splits l0 l1 l2 : splits (cube_of tri_X0) l0 -> splits (cube_of tri_X1) l1 -> splits (cube_of tri_X2) l2 ->
  splits (triple_cm_body (RtoC 0) tri_c1 tri_c2 tri_c3 tri_e tri_e tri_e) (RtoC 0 :: l0 ++ l1 ++ l2).
Proof.
  intros S0 S1 S2 Z. rewrite tri_poly, tri_hd. f_equal. cbn [map prodC]. rewrite !map_app.
  assert (A : forall l l', prodC (l ++ l') = (prodC l * prodC l')%C). { induction l as [|x l IH]; intros l'; cbn [app prodC]; [ring|]. rewrite IH. ring. }
  rewrite !A, (cube_prod _ _ Z S0), (cube_prod _ _ Z S1), (cube_prod _ _ Z S2), tri_factor. ring.
Qed.

(** the lens equation and the determinant around the centre *)
Lemma tri_den Z : (Z * Z * Z + i6)%C <> RtoC 0 -> (Z - tri_c1)%C <> RtoC 0 /\ (Z - tri_c2)%C <> RtoC 0 /\ (Z - tri_c3)%C <> RtoC 0.
Proof. intros N. rewrite <- tri_H in N. repeat split; intros E; apply N; rewrite E; ring. Qed.
Lemma tri_bars Z : (Cconj (Z + tri_w) - RtoC (0.5 * tri_s) = Cconj (Z - tri_c2))%C /\ (Cconj (Z + tri_w) + RtoC (0.5 * tri_s) = Cconj (Z - tri_c1))%C /\ (Cconj (Z + tri_w) - Cconj (0, tri_r3)%R = Cconj (Z - tri_c3))%C.
Proof. unfold tri_w, tri_c1, tri_c2, tri_c3, tri_r3. repeat split; apply Ceq; cbn; field. Qed.
Lemma tri_lens Z : (Z * Z * Z + i6)%C <> RtoC 0 -> (lens_eq3 (0.5 * tri_s) tri_r3 (PI / 2) tri_e tri_e (Z + tri_w) - tri_w = Z - Cconj (Z * Z / (Z * Z * Z + i6)))%C.
Proof.
  intros N. destruct (tri_den Z N) as (N1 & N2 & N3). unfold lens_eq3. cbv zeta. rewrite tri_third, tri_rest. destruct (tri_bars Z) as (-> & -> & ->).
  replace (Z * Z / (Z * Z * Z + i6))%C with (/ 3 / (Z - tri_c2) + / 3 / (Z - tri_c1) + / 3 / (Z - tri_c3))%C.
  - rewrite tri_thirdC, !Cconj_plus, !Cconj_div. replace (Cconj (/ 3))%C with (/ 3)%C by (rewrite <- tri_thirdC; now rewrite Cconj_RtoC). ring.
  - rewrite <- (tri_H Z). replace (Z * Z)%C with (/ 3 * (3 * (Z * Z)))%C by (field; exact tri_three). rewrite <- tri_G. field. repeat split; auto; exact tri_three.
Qed.
Lemma tri_det Z : (Z * Z * Z + i6)%C <> RtoC 0 ->
  det_jac3 (0.5 * tri_s) tri_r3 (PI / 2) tri_e tri_e (Z + tri_w)%C = 1 - Cmod (Z * (Z * Z * Z - 2 * i6) / ((Z * Z * Z + i6) * (Z * Z * Z + i6)))%C ^ 2.
Proof.
  intros N. destruct (tri_den Z N) as (N1 & N2 & N3). unfold det_jac3. cbv zeta. rewrite tri_third, tri_rest. destruct (tri_bars Z) as (-> & -> & ->). f_equal. f_equal.
  rewrite <- (Cmod_conj (Z * (Z * Z * Z - 2 * i6) / ((Z * Z * Z + i6) * (Z * Z * Z + i6)))%C). f_equal.
  assert (E : (Z * (Z * Z * Z - 2 * i6) / ((Z * Z * Z + i6) * (Z * Z * Z + i6)) = / 3 / ((Z - tri_c2) * (Z - tri_c2)) + / 3 / ((Z - tri_c1) * (Z - tri_c1)) + / 3 / ((Z - tri_c3) * (Z - tri_c3)))%C).
  { assert (G3 : (tri_c3 = - tri_c1 - tri_c2)%C) by (transitivity (tri_c1 + tri_c2 + tri_c3 - tri_c1 - tri_c2)%C; [ring|rewrite tri_S1; ring]).
    assert (P : ((Z - tri_c1) + (Z - tri_c2) + (Z - tri_c3) = 3 * Z)%C) by (rewrite G3; ring).
    transitivity (/ 3 * ((3 * (Z * Z)) * (3 * (Z * Z)) - 2 * (3 * Z) * (Z * Z * Z + i6)) / ((Z * Z * Z + i6) * (Z * Z * Z + i6)))%C; [field; split; auto; exact tri_three|].
    rewrite <- tri_G, <- P, <- (tri_H Z). field. repeat split; auto; exact tri_three. }
  rewrite E, tri_thirdC, !Cconj_plus, !Cconj_div, !Cconj_mult. replace (Cconj (/ 3))%C with (/ 3)%C by (rewrite <- tri_thirdC; now rewrite Cconj_RtoC).
  replace (Cconj (Z - tri_c2) ^ 2)%C with (Cconj (Z - tri_c2) * Cconj (Z - tri_c2))%C by ring. replace (Cconj (Z - tri_c1) ^ 2)%C with (Cconj (Z - tri_c1) * Cconj (Z - tri_c1))%C by ring. replace (Cconj (Z - tri_c3) ^ 2)%C with (Cconj (Z - tri_c3) * Cconj (Z - tri_c3))%C by ring. reflexivity.
Qed.

(** the four images and the six other roots *)
Definition tri_term (r : C) : R := term (Cmod (lens_eq3 (0.5 * tri_s) tri_r3 (PI / 2) tri_e tri_e (r + tri_w) - tri_w)%C) (det_jac3 (0.5 * tri_s) tri_r3 (PI / 2) tri_e tri_e (r + tri_w)%C) 1e-3.
Definition tri_counts (r : C) (d : R) : Prop :=
  let rho := Cmod (lens_eq3 (0.5 * tri_s) tri_r3 (PI / 2) tri_e tri_e (r + tri_w) - tri_w)%C in rho = 0 /\ det_jac3 (0.5 * tri_s) tri_r3 (PI / 2) tri_e tri_e (r + tri_w)%C = d.
Lemma tri_at0 : tri_counts (RtoC 0) 1.
Proof.
  assert (N : (RtoC 0 * RtoC 0 * RtoC 0 + i6)%C <> RtoC 0). { intros E. apply i6_neq. replace (- i6)%C with (- (RtoC 0 * RtoC 0 * RtoC 0 + i6))%C by ring. rewrite E. ring. }
  unfold tri_counts. rewrite tri_lens, tri_det by exact N. cbv zeta. split.
  - replace (RtoC 0 * RtoC 0 / (RtoC 0 * RtoC 0 * RtoC 0 + i6))%C with (RtoC 0) by (unfold Cdiv; ring). rewrite Cconj_RtoC. replace (RtoC 0 - RtoC 0)%C with (RtoC 0) by ring. apply Cmod_0.
  - replace (RtoC 0 * (RtoC 0 * RtoC 0 * RtoC 0 - 2 * i6) / ((RtoC 0 * RtoC 0 * RtoC 0 + i6) * (RtoC 0 * RtoC 0 * RtoC 0 + i6)))%C with (RtoC 0) by (unfold Cdiv; ring). rewrite Cmod_0. ring.
Qed.
Lemma cube_mod Z X : (Z * Z * Z = X)%C -> Cmod Z * Cmod Z * Cmod Z = Cmod X.
Proof. intros <-. now rewrite !Cmod_mult. Qed.
Lemma cube_inj x y : 0 <= x -> 0 <= y -> x * x * x = y * y * y -> x = y.
Proof. intros Hx Hy E. destruct (Rtotal_order x y) as [L|[L|L]]; auto; exfalso.
  - assert (0 < (y - x) * (y * y + x * y + x * x)) by (apply Rmult_lt_0_compat; nra). nra.
  - assert (0 < (x - y) * (y * y + x * y + x * x)) by (apply Rmult_lt_0_compat; nra). nra.
Qed.
Lemma tri_at_X0 Z : (Z * Z * Z = tri_X0)%C -> tri_counts Z (- (99)).
Proof.
  intros E. assert (M : Cmod Z = 2). { apply cube_inj; [apply Cmod_ge_0|lra|]. rewrite (cube_mod _ _ E). unfold tri_X0, Cmod. cbn [fst snd]. replace (0 ^ 2 + (- 8) ^ 2) with (8 * 8) by ring. rewrite sqrt_square; lra. }
  assert (Z0 : Z <> RtoC 0) by (intros ->; rewrite Cmod_0 in M; lra). assert (EH : (Z * Z * Z + i6 = (0, - (2))%R)%C) by (rewrite E; unfold tri_X0, i6; apply Ceq; cbn; ring).
  assert (N : (Z * Z * Z + i6)%C <> RtoC 0) by (rewrite EH; intros Q; apply (f_equal snd) in Q; cbn in Q; lra).
  unfold tri_counts. rewrite tri_lens, tri_det by exact N. cbv zeta. split.
  - (* multiplied by the conjugate *)
    assert (C0 : Cconj Z <> RtoC 0) by (now apply Cconj_neq0).
    assert (P : (Cconj Z * (Z - Cconj (Z * Z / (Z * Z * Z + i6))) = 0)%C).
    { transitivity (Cconj Z * Z - Cconj (Z * Z * Z / (Z * Z * Z + i6)))%C; [rewrite !Cconj_div, !Cconj_mult; field; now apply Cconj_neq0|]. rewrite EH, E.
      replace (tri_X0 / (0, - (2))%R)%C with (RtoC 4) by (unfold tri_X0; apply Ceq; cbn; field). rewrite Cconj_RtoC.
      rewrite Cmult_comm. rewrite Cmult_conj. rewrite M. apply Ceq; cbn; ring. }
    apply Cmult_integral in P. destruct P as [P|P]; [contradiction|]. rewrite P. apply Cmod_0.
  - rewrite Cmod_div, !Cmod_mult by (now apply Cmult_neq_0). rewrite EH, E, M.
    replace (tri_X0 - 2 * i6)%C with (0, - (20))%R by (unfold tri_X0, i6; apply Ceq; cbn; ring).
    assert (M1 : Cmod ((0, - (20))%R) = 20) by (unfold Cmod; cbn [fst snd]; replace (0 ^ 2 + (- (20)) ^ 2) with (20 * 20) by ring; rewrite sqrt_square; lra).
    assert (M2 : Cmod ((0, - (2))%R) = 2) by (unfold Cmod; cbn [fst snd]; replace (0 ^ 2 + (- (2)) ^ 2) with (2 * 2) by ring; rewrite sqrt_square; lra).
    rewrite M1, M2. field.
Qed.
Lemma tri_far Z (x : R) : x * x = 2 -> (Z * Z * Z = (x, - (5))%R)%C ->
  1e-3 < Cmod (lens_eq3 (0.5 * tri_s) tri_r3 (PI / 2) tri_e tri_e (Z + tri_w) - tri_w)%C.
Proof.
  intros Hx E. assert (M : Cmod Z = sqrt 3).
  { assert (S3 : sqrt 3 * sqrt 3 = 3) by (apply sqrt_sqrt; lra). pose proof (sqrt_pos 3) as P3. apply cube_inj; [apply Cmod_ge_0|lra|]. rewrite (cube_mod _ _ E). unfold Cmod. cbn [fst snd].
    rewrite S3. apply Rsqr_inj; [apply sqrt_pos|lra|]. rewrite Rsqr_sqrt by nra. unfold Rsqr. nra. }
  assert (S3 : sqrt 3 * sqrt 3 = 3) by (apply sqrt_sqrt; lra). assert (P3 : 0 < sqrt 3) by (apply sqrt_lt_R0; lra).
  assert (EH : (Z * Z * Z + i6 = (x, 1)%R)%C) by (rewrite E; unfold i6; apply Ceq; cbn; ring).
  assert (N : (Z * Z * Z + i6)%C <> RtoC 0) by (rewrite EH; intros Q; apply (f_equal snd) in Q; cbn in Q; lra).
  rewrite tri_lens by exact N. set (D := (Z - Cconj (Z * Z / (Z * Z * Z + i6)))%C).
  assert (P : (Cconj Z * D = (4, - (2 * x))%R)%C).
  { transitivity (Cconj Z * Z - Cconj (Z * Z * Z / (Z * Z * Z + i6)))%C; [unfold D; rewrite !Cconj_div, !Cconj_mult; field; now apply Cconj_neq0|]. rewrite EH, E.
    assert (Q : ((x, - (5))%R / (x, 1)%R = (- (1), - (2 * x))%R)%C).
    { assert (X1 : ((x, 1)%R : C) <> RtoC 0) by (intros Q; apply (f_equal snd) in Q; cbn in Q; lra). 
      transitivity ((- (1), - (2 * x))%R * (x, 1)%R / (x, 1)%R)%C; [|field; exact X1]. f_equal. apply Ceq; cbn; nra. }
    rewrite Q. rewrite Cmult_comm, Cmult_conj, M. apply Ceq; cbn; nra. }
  apply (f_equal Cmod) in P. rewrite Cmod_mult, Cmod_conj, M in P. assert (F : 4 <= Cmod ((4, - (2 * x))%R)).
  { eapply Rle_trans; [|apply Rmax_Cmod]. cbn [fst snd]. eapply Rle_trans; [|apply Rmax_l]. rewrite Rabs_pos_eq; lra. }
  assert (sqrt 3 < 2) by nra. pose proof (Cmod_ge_0 D). nra.
Qed.
Lemma tri_term_counts r d : tri_counts r d -> tri_term r = 1 / Rabs d.
Proof. intros (R0 & D0). unfold tri_term, term. rewrite R0, D0. replace (Rltb 0 1e-3) with true by (symmetry; apply Rltb_true; lra). ring. Qed.
Lemma tri_term_far r : 1e-3 < Cmod (lens_eq3 (0.5 * tri_s) tri_r3 (PI / 2) tri_e tri_e (r + tri_w) - tri_w)%C -> tri_term r = 0.
Proof. intros H. unfold tri_term, term. replace (Rltb _ 1e-3) with false by (symmetry; apply Rltb_false; lra). ring. Qed.
(** the roots in any order: which are images, and the sum *)
Section AnyOrder.
Variable rs : list C.
Hypothesis Hrs : splits (triple_cm_body (RtoC 0) tri_c1 tri_c2 tri_c3 tri_e tri_e tri_e) rs.
Lemma tri_perm : exists l0 l1 l2, splits (cube_of tri_X0) l0 /\ splits (cube_of tri_X1) l1 /\ splits (cube_of tri_X2) l2 /\ length l0 = 3%nat /\ Permutation rs (RtoC 0 :: l0 ++ l1 ++ l2).
Proof.
  destruct (cube_ex tri_X0) as (l0 & S0 & L0). destruct (cube_ex tri_X1) as (l1 & S1 & L1). destruct (cube_ex tri_X2) as (l2 & S2 & L2). exists l0, l1, l2. repeat split; auto.
  apply (splits_unique (triple_cm_body (RtoC 0) tri_c1 tri_c2 tri_c3 tri_e tri_e tri_e)); auto; [rewrite tri_hd; exact i6_neq|]. now apply tri_splits.
Qed.
Let q2 : sqrt 2 * sqrt 2 = 2. Proof. apply sqrt_sqrt; lra. Qed.
Let q2n : - sqrt 2 * - sqrt 2 = 2. Proof. transitivity (sqrt 2 * sqrt 2); [ring|exact q2]. Qed.
Lemma tri_cases r : In r rs -> (exists d, d <> 0 /\ tri_counts r d) \/ 1e-3 < Cmod (lens_eq3 (0.5 * tri_s) tri_r3 (PI / 2) tri_e tri_e (r + tri_w) - tri_w)%C.
Proof.
  intros Hin. destruct tri_perm as (l0 & l1 & l2 & S0 & S1 & S2 & _ & P). apply (Permutation_in _ P) in Hin. destruct Hin as [<-|Hin]; [left; exists 1; split; [lra|exact tri_at0]|].
  apply in_app_or in Hin. destruct Hin as [Hin|Hin]; [|apply in_app_or in Hin; destruct Hin as [Hin|Hin]; right].
  - left. exists (- (99)). split; [lra|]. apply tri_at_X0. exact (cube_in _ _ _ S0 Hin).
  - apply (tri_far r (sqrt 2) q2). exact (cube_in _ _ _ S1 Hin).
  - apply (tri_far r (- sqrt 2) q2n). exact (cube_in _ _ _ S2 Hin).
Qed.
Lemma tri_sum : sumR (map tri_term rs) = 34 / 33.
Proof.
  destruct tri_perm as (l0 & l1 & l2 & S0 & S1 & S2 & L0 & P). rewrite (sumR_perm _ _ (Permutation_map tri_term P)). cbn [map sumR]. rewrite !map_app, !sumR_app.
  assert (K : forall l, (forall r, In r l -> tri_term r = 0) -> sumR (map tri_term l) = 0). { induction l as [|x l IH]; intros H; cbn [map sumR]; [reflexivity|]. rewrite IH by (intros; apply H; now right). rewrite H by now left. ring. }
  rewrite (K l1), (K l2).
  - assert (K0 : forall r, In r l0 -> tri_term r = 1 / 99). { intros r Hin. rewrite (tri_term_counts r (- (99))) by (apply tri_at_X0; exact (cube_in _ _ _ S0 Hin)). rewrite Rabs_Ropp, Rabs_pos_eq by lra. reflexivity. }
    destruct l0 as [|x [|y [|z [|]]]]; try discriminate L0. cbn [map sumR]. rewrite (K0 x), (K0 y), (K0 z) by (cbn; auto). rewrite (tri_term_counts _ _ tri_at0), Rabs_R1. field.
  - intros r Hin. apply tri_term_far. apply (tri_far r (- sqrt 2) q2n). exact (cube_in _ _ _ S2 Hin).
  - intros r Hin. apply tri_term_far. apply (tri_far r (sqrt 2) q2). exact (cube_in _ _ _ S1 Hin).
Qed.
End AnyOrder.
(** the coefficients of the library at this configuration *)
Lemma tri_coeffs : poly_coeffs_triple_CM (tri_w - RtoC (x_cm (0.5 * tri_s) 1))%C (0.5 * tri_s) (third_lens tri_r3 (PI / 2)) (1 / (1 + 1 + 1)) (1 / (1 + 1 + 1)) =
  (triple_cm_body (RtoC 0) tri_c1 tri_c2 tri_c3 tri_e tri_e tri_e, tri_w).
Proof.
  rewrite tri_xcm, tri_third. change (1 / (1 + 1 + 1)) with tri_e. unfold poly_coeffs_triple_CM. cbv zeta. rewrite tri_shift, tri_rest. f_equal.
  replace (tri_w - RtoC 0 - tri_w)%C with (RtoC 0) by ring.
  replace (- RtoC (0.5 * tri_s) - tri_w)%C with tri_c1 by (unfold tri_c1, tri_w; apply Ceq; cbn; ring).
  replace (RtoC (0.5 * tri_s) - tri_w)%C with tri_c2 by (unfold tri_c2, tri_w; apply Ceq; cbn; ring).
  replace ((0, tri_r3) - tri_w)%C with tri_c3 by (unfold tri_c3, tri_w, tri_r3; apply Ceq; cbn; field). reflexivity.
Qed.
