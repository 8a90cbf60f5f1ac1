(** The triple-lens polynomial in the mid-point frame (C06). *)
From Coq Require Import Reals Lra List.
From Coquelicot Require Import Complex.
From Verif Require Import Base_R Base_C M_Coeffs M_PointSource S_PointSource S_Poly P_Lens P_Images P_PointSource M_CoeffsTriple P_CoeffsTriple Thm_PointSource.
Import ListNotations.
Local Open Scope R_scope.
Local Open Scope C_scope.

(** the two expansions in coeffs.py are the same polynomial in two frames, so they have the same roots with the same multiplicities *)
Theorem C06_midpoint_same : forall a e1 e2 p3 w z,
  let '(cs, sh) := poly_coeffs_triple_CM w a p3 e1 e2 in
  length (poly_coeffs_triple w a p3 e1 e2) = length cs /\ hd (RtoC 0) (poly_coeffs_triple w a p3 e1 e2) = hd (RtoC 0) cs /\ peval (poly_coeffs_triple w a p3 e1 e2) z = peval cs (z - sh).
Proof.
  intros a e1 e2 p3 w z. pose proof (mid_is_cm a e1 e2 p3 w z) as E. unfold poly_coeffs_triple_CM in *. cbn [fst] in E. split; [reflexivity|]. split; [|exact E]. unfold poly_coeffs_triple, triple_cm_body. cbv zeta. cbn [map hd]. unfold t0. autorewrite with cconj. ring.
Qed.
Print Assumptions C06_midpoint_same.
(** no image is lost by the expansion in the mid-point frame *)
Theorem C06_midpoint_image_is_root : forall a e1 e2 r3 psi w z,
  is_image (triple_mid a e1 e2 (from_com r3 psi)) w z -> peval (poly_coeffs_triple w a (from_com r3 psi) e1 e2) z = 0.
Proof.
  intros a e1 e2 r3 psi w z H. pose proof (C06_triple_image_is_root a e1 e2 r3 psi w z H) as R. assert (T : third_lens r3 psi = from_com r3 psi) by (unfold third_lens, from_com, cexpi; apply Ceq; simpl; ring). rewrite T in R.
  pose proof (mid_is_cm a e1 e2 (from_com r3 psi) w z) as E. unfold poly_coeffs_triple_CM in *. cbn [fst] in E. rewrite E. exact R.
Qed.
Print Assumptions C06_midpoint_image_is_root.
(** three equal masses at 1, -1 and 2: the image at 3 of the source at [3 - (1/2 + 1/4 + 1) / 3] *)
Example C06_midpoint_case : peval (poly_coeffs_triple (RtoC (29 / 12)) 1 (RtoC 2) (1 / 3) (1 / 3)) (RtoC 3) = 0.
Proof.
  replace (RtoC 2) with (from_com 2 0) by (unfold from_com; rewrite cos_0, sin_0; apply Ceq; simpl; ring). apply C06_midpoint_image_is_root. assert (E : from_com 2 0 = RtoC 2) by (unfold from_com; rewrite cos_0, sin_0; apply Ceq; simpl; ring). rewrite E. split.
  - apply off_triple. repeat split; intros F; apply (f_equal fst) in F; simpl in F; lra.
  - unfold lens_map, triple_mid. rewrite !deflection_cons. simpl deflection. rewrite <- !RtoC_minus, !Cconj_RtoC. rewrite <- !RtoC_div by lra. rewrite <- !RtoC_plus, <- RtoC_minus. f_equal. field.
Qed.
