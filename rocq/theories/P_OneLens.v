(** Two lenses that become one: a companion without mass, and two masses at the same place (C76). *)
From Coq Require Import Reals List Lra Lia ZArith.
From Coquelicot Require Import Complex.
From Verif Require Import Base_R Base_List Base_C M_Utils M_Coeffs M_PointSource M_MagFft S_PointSource S_Poly
  P_Lens P_Poly P_PolyRoots P_PointSource P_Images P_Single P_RootsCont P_MagCont P_MagLens.
Import ListNotations.
Local Open Scope R_scope.

(** ** the two images of one lens *)
Section One.
Variable w : C.
Hypothesis Hw : w <> RtoC 0.
Let y1 := fst (images1 w).
Definition img_p : C := nth 0 (fst (images1 w)) (RtoC 0).
Definition img_m : C := nth 1 (fst (images1 w)) (RtoC 0).
Lemma img_list : fst (images1 w) = [img_p; img_m].
Proof. reflexivity. Qed.
Lemma img_sum : (img_p + img_m = w)%C.
Proof.
  unfold img_p, img_m. rewrite (images1_list w). cbn [fst nth]. rewrite <- Cmult_plus_distr_r, <- RtoC_plus.
  replace ((1 + sqrt (1 + 4 / (Cmod w * Cmod w))) / 2 + (1 - sqrt (1 + 4 / (Cmod w * Cmod w))) / 2) with 1 by field. ring.
Qed.
Lemma img_prod : (Cconj w * (img_p * img_m) = - w)%C.
Proof.
  unfold img_p, img_m. rewrite (images1_list w). cbn [fst nth]. pose proof (S_sq w Hw) as SS. pose proof (n_pos w Hw) as Np. set (S := sqrt (1 + 4 / (Cmod w * Cmod w))) in *. set (n := Cmod w * Cmod w) in *.
  replace (Cconj w * (RtoC ((1 + S) / 2) * w * (RtoC ((1 - S) / 2) * w)))%C with (RtoC ((1 + S) / 2) * RtoC ((1 - S) / 2) * (w * Cconj w) * w)%C by ring.
  rewrite Cmult_conj. fold n. rewrite <- !RtoC_mult. replace ((1 + S) / 2 * ((1 - S) / 2) * n) with (Ropp 1); [rewrite RtoC_opp; ring|].
  replace ((1 + S) / 2 * ((1 - S) / 2) * n) with ((1 - S * S) * n / 4) by field. rewrite SS. field. lra.
Qed.
Lemma img_quad y : (Cconj w * ((y - img_p) * (y - img_m)) = Cconj w * (y * y) - w * Cconj w * y - w)%C.
Proof.
  replace (Cconj w * ((y - img_p) * (y - img_m)))%C with (Cconj w * (y * y) - Cconj w * (img_p + img_m) * y + Cconj w * (img_p * img_m))%C by ring. rewrite img_sum, img_prod. ring.
Qed.
Lemma img_is y : y = img_p \/ y = img_m -> y <> RtoC 0 /\ (y - 1 / Cconj y = w)%C /\ 1 - Cmod (1 / (Cconj y) ^ 2)%C ^ 2 <> 0.
Proof.
  intros H. assert (I : is_image single_lens w y) by (apply single_images_iff; auto; rewrite img_list; cbn; destruct H; auto).
  destruct I as (O & E). apply off_single in O. rewrite <- lens_eq1_map in E. unfold lens_eq1 in E. split; auto. split; auto.
  assert (P : 0 < Cmod y) by now apply Cmod_gt_0. assert (Cc : Cconj y <> RtoC 0) by now apply Cconj_neq0.
  assert (Z : Cmod y <> 1).
  { intros N. apply Hw. rewrite <- E. replace (y - 1 / Cconj y)%C with ((y * Cconj y - 1) / Cconj y)%C by (field; auto). rewrite Cmult_conj, N, Rmult_1_r. field. auto. }
  rewrite Cmod_div by (apply Cpow_neq0; auto). rewrite Cmod_pow, Cmod_conj, Cmod_1. intros F. apply Z. set (m := Cmod y) in *.
  assert (X : (1 / m ^ 2) ^ 2 = 1) by lra. assert (Y : m ^ 4 = 1). { replace (m ^ 4) with (/ ((1 / m ^ 2) ^ 2)) by (field; lra). rewrite X. apply Rinv_1. }
  assert (F2 : (m - 1) * ((m + 1) * (m * m + 1)) = 0) by (transitivity (m ^ 4 - 1); [ring|lra]). apply Rmult_integral in F2. destruct F2 as [F2|F2]; [lra|exfalso; nra].
Qed.
Definition true_term (y : C) : R := 1 / Rabs (1 - Cmod (1 / (Cconj y) ^ 2)%C ^ 2).
Lemma true_sum : true_term img_p + true_term img_m = A_point (Cmod w).
Proof.
  rewrite <- (true_mag1 w Hw (fun y => 1 - Cmod (1 / (Cconj y) ^ 2)%C ^ 2)).
  - rewrite img_list. cbn [map sumR]. unfold true_term. ring.
  - intros z Hz. assert (O : off_masses single_lens z) by (apply single_images_iff in Hz; auto; apply Hz). pose proof (jac_det_shear single_lens z O) as J. rewrite det_jac_of in J.
    replace (1 - Cmod (1 / Cconj z ^ 2)%C ^ 2) with (1 - Cmod (shear single_lens z) * Cmod (shear single_lens z)); auto. unfold single_lens. rewrite shear_cons. cbn [shear].
    replace (RtoC 1 / Cconj (z - RtoC 0) ^ 2 + 0)%C with (1 / Cconj z ^ 2)%C; [ring|]. replace (z - RtoC 0)%C with z by ring. ring.
Qed.
End One.

Lemma Cinv_00 : (/ RtoC 0)%C = RtoC 0.
Proof. unfold Cinv, RtoC, Rdiv; cbn [fst snd]. now rewrite Ropp_0, !Rmult_0_l. Qed.
(** a term whose shear is large *)
Lemma small_term rho (g : C) tol eps : 0 < eps -> 2 + 1 / eps <= Cmod g -> Rabs (term rho (1 - Cmod g ^ 2) tol - 0) < eps.
Proof.
  intros He Hg. assert (I : 0 < 1 / eps) by (apply Rdiv_lt_0_compat; lra). unfold term. assert (N : 1 - Cmod g ^ 2 < 0) by nra. rewrite (Rabs_left (1 - Cmod g ^ 2)) by auto.
  assert (B : 1 / eps < - (1 - Cmod g ^ 2)) by nra. assert (Q : 0 < 1 / - (1 - Cmod g ^ 2) < eps).
  { split; [apply Rdiv_lt_0_compat; lra|]. unfold Rdiv. rewrite Rmult_1_l. rewrite <- (Rinv_inv eps). apply Rinv_lt_contravar; [apply Rmult_lt_0_compat; [apply Rinv_0_lt_compat; lra|lra]|]. unfold Rdiv in B. lra. }
  destruct (Rltb rho tol); rewrite Rminus_0_r, Rabs_pos_eq; lra.
Qed.

(** a parameter that tends to zero from the right: closer than one means positive *)
Definition right (q : R) : R := if Rlt_dec 0 q then q else 1 + Rabs q.
Lemma right_abs q : Rabs (q - 0) <= right q.
Proof. rewrite Rminus_0_r. unfold right. destruct (Rlt_dec 0 q); [rewrite Rabs_pos_eq; lra|lra]. Qed.
Lemma right_pos q d : right q < d -> d <= 1 -> 0 < q < d.
Proof. unfold right. pose proof (Rabs_pos q). destruct (Rlt_dec 0 q); lra. Qed.
Lemma right_of q d : 0 < q < d -> right q < d.
Proof. unfold right. destruct (Rlt_dec 0 q); lra. Qed.

(** ** the companion loses its mass *)
Section Planet.
Variables (s : R) (w : C).
Hypothesis (Hs : s <> 0) (Hw : w <> RtoC 0) (Hws : w <> RtoC s).
Let a := 0.5 * s.
Let E_ (q : R) := q / (1 + q). Let V_ (q : R) := (w - RtoC (x_cm a q))%C.
Let K (q : R) := poly_coeffs_binary (V_ q) a (E_ q).
Let g (q : R) (z : C) := term (Cmod (lens_eq2 a (E_ q) z - V_ q)%C) (det_jac2 a (E_ q) z) 1e-6.
Let zs : C := (1 / (RtoC s - Cconj w) - RtoC a)%C.
Let rs : list C := [img_p w - RtoC a; img_m w - RtoC a; zs; RtoC a; RtoC a]%C.
Let E0 : E_ 0 = 0. Proof. unfold E_. field. Qed.
Let V0 : V_ 0 = (w - RtoC a)%C. Proof. unfold V_, x_cm. do 2 f_equal. field. Qed.
Lemma sa : RtoC s = (RtoC a + RtoC a)%C. Proof. rewrite <- RtoC_plus. f_equal. unfold a. lra. Qed.
Lemma cw_neq : Cconj w <> RtoC 0 /\ (RtoC s - Cconj w)%C <> RtoC 0.
Proof.
  split; [now apply Cconj_neq0|]. intros E. apply Hws. apply Cconj_inj. rewrite Cconj_RtoC. symmetry. now apply Cminus_eq_0.
Qed.
Lemma planet_splits : splits (K 0) rs.
Proof.
  destruct cw_neq as (N1 & N2). unfold K. rewrite E0, V0. intros z. unfold poly_coeffs_binary, rs. cbn [peval length hd map prodC]. autorewrite with cconj.
  set (wb := Cconj w) in *. set (A := RtoC a).
  assert (Q : ((wb - A) * (wb - A) - A * A = - wb * (RtoC s - wb))%C) by (rewrite sa; fold A; ring).
  replace ((- (A * A) + (wb - A) * (wb - A)) * ((z - (img_p w - A)) * ((z - (img_m w - A)) * ((z - zs) * ((z - A) * ((z - A) * 1))))))%C
    with (- (wb * (((z + A) - img_p w) * ((z + A) - img_m w))) * ((RtoC s - wb) * (z - zs)) * ((z - A) * (z - A)))%C.
  2:{ replace (- (A * A) + (wb - A) * (wb - A))%C with (- wb * (RtoC s - wb))%C by (rewrite <- Q; ring). ring. }
  unfold wb at 1. rewrite (img_quad w Hw). fold wb. replace ((RtoC s - wb) * (z - zs))%C with ((RtoC s - wb) * (z + A) - 1)%C by (unfold zs; fold A wb; field; auto).
  rewrite sa. fold A. ring.
Qed.
Lemma planet_lift z0 : let D := dist2 right z0 in let T0 := (0, z0) in
  rc D T0 (fun p => a) /\ rc D T0 (fun p => E_ (fst p)) /\ cc D T0 (fun p => V_ (fst p)) /\ cc D T0 (fun p => snd p).
Proof.
  cbv zeta. assert (Hq : rc (dist2 right z0) (0, z0) (fun p => fst p)).
  { apply rc_le. intros p. pose proof (right_abs (fst p)). pose proof (Cmod_ge_0 (snd p - z0)%C). unfold dist2. cbn [fst] in *. lra. }
  assert (Hz : cc (dist2 right z0) (0, z0) (fun p => snd p)).
  { apply cc_le. intros p. pose proof (right_abs (fst p)). pose proof (Rabs_pos (fst p - 0)). unfold dist2. cbn [snd]. lra. }
  assert (N : 1 + fst (0, z0) <> 0) by (cbn [fst]; lra).
  split; [rcc|]. split; [unfold E_; repeat first [assumption | rcc]|]. split; [|exact Hz]. unfold V_, x_cm. repeat first [assumption | rcc].
Qed.
Lemma planet_K : lc right 0 K.
Proof.
  assert (Z : Cmod (RtoC 0 - RtoC 0)%C = 0) by (replace (RtoC 0 - RtoC 0)%C with (RtoC 0) by ring; apply Cmod_0).
  apply (lc_drop right 0 (RtoC 0) K Z). destruct (planet_lift (RtoC 0)) as (HA & HE & HV & HZ). unfold K. apply (coeffs2_cont _ _ (fun p => a) (fun p => E_ (fst p)) (fun p => V_ (fst p))); auto.
Qed.
Lemma planet_joint z0 : (Cconj z0 - RtoC a)%C <> RtoC 0 -> (Cconj z0 + RtoC a)%C <> RtoC 0 -> let rho := Cmod (lens_eq2 a (E_ 0) z0 - V_ 0)%C in
  rho <> 1e-6 -> (rho < 1e-6 -> det_jac2 a (E_ 0) z0 <> 0) -> joint_to right g (g 0) z0.
Proof.
  intros N1 N2 rho Hn H0. apply joint_of. destruct (planet_lift z0) as (HA & HE & HV & HZ). unfold g.
  apply (term_cont (dist2 right z0) (0, z0) (fun p => Cmod (lens_eq2 a (E_ (fst p)) (snd p) - V_ (fst p))%C) (fun p => det_jac2 a (E_ (fst p)) (snd p))); auto.
  - assert (L : cc (dist2 right z0) (0, z0) (fun p => lens_eq2 a (E_ (fst p)) (snd p))) by (apply (lens2_cont _ _ (fun p => a) (fun p => E_ (fst p)) (fun p => snd p)); auto).
    repeat first [assumption | rcc].
  - apply (det2_cont _ _ (fun p => a) (fun p => E_ (fst p)) (fun p => snd p)); auto.
Qed.
Lemma planet_0 z : g 0 z = term (Cmod (z - 1 / (Cconj z + RtoC a) - (w - RtoC a))%C) (1 - Cmod (1 / (Cconj z + RtoC a) ^ 2)%C ^ 2) 1e-6.
Proof.
  unfold g. rewrite E0, V0. unfold lens_eq2, det_jac2. cbv zeta. rewrite Rminus_0_r. f_equal.
  - f_equal. unfold Cdiv. ring.
  - do 2 f_equal. f_equal. unfold Cdiv. ring.
Qed.
Hypothesis Hgap : 1e-6 < Cmod (w - RtoC (s - 1 / s))%C.
(** roots next to the companion that pass the mask fade *)
Lemma planet_fades eps : 0 < eps -> exists d, 0 < d /\ forall q z, right q < d -> Cmod (z - RtoC a)%C < d -> Rabs (g q z - 0) < eps.
Proof.
  intros He. destruct (planet_lift (RtoC a)) as (HA & HE & HV & HZ). set (G := Cmod (w - RtoC (s - 1 / s))%C) in *. set (c := (G - 1e-6) / 2).
  assert (Na : a <> 0) by (unfold a; lra). assert (N2 : (Cconj (snd (0, RtoC a)) + RtoC a)%C <> RtoC 0) by (cbn [snd]; rewrite Cconj_RtoC, <- RtoC_plus; apply RtoC_neq0; lra).
  set (rest := fun p : R * C => (snd p - RtoC (1 - E_ (fst p)) / (Cconj (snd p) + RtoC a) - V_ (fst p))%C).
  assert (C1 : rc (dist2 right (RtoC a)) (0, RtoC a) (fun p => Cmod (rest p))) by (unfold rest; repeat first [assumption | rcc]).
  assert (C2 : rc (dist2 right (RtoC a)) (0, RtoC a) (fun p => Cmod (RtoC (1 - E_ (fst p)) / (Cconj (snd p) + RtoC a) ^ 2)%C)) by (repeat first [assumption | rcc]; apply Cpow_neq0; exact N2).
  assert (V1 : Cmod (rest (0, RtoC a)) = G).
  { unfold rest, G. cbn [fst snd]. rewrite E0, V0, Rminus_0_r, Cconj_RtoC, <- !RtoC_plus, <- RtoC_div by lra.
    replace (a + a) with s by (unfold a; lra). replace (RtoC a - RtoC (1 / s) - (w - RtoC a))%C with (- (w - RtoC (s - 1 / s)))%C; [apply Cmod_opp|].
    rewrite RtoC_minus, sa. ring. }
  set (B := Cmod (RtoC (1 - E_ (fst (0, RtoC a))) / (Cconj (snd (0, RtoC a)) + RtoC a) ^ 2)%C).
  assert (X1 : 1e-6 + c < Cmod (rest (0, RtoC a))) by (rewrite V1; unfold c; lra). assert (X2 : B < B + 1) by lra.
  destruct (nbh_and _ _ _ (rc_above _ _ _ _ C1 X1) (rc_below _ _ _ (B + 1) C2 X2)) as (d & Hd & Kd).
  assert (Pc : 0 < c) by (unfold c; lra). set (M := B + 1 + 2 + 1 / eps). assert (I : 0 < 1 / eps) by (apply Rdiv_lt_0_compat; lra). assert (B0 : 0 <= B) by apply Cmod_ge_0. assert (PM : 0 < M) by (unfold M; lra).
  assert (Pd : 0 < c * c / M) by (apply Rdiv_lt_0_compat; nra).
  set (d' := Rmin (d / 2) (Rmin 1 (c * c / M))). assert (D1 : d' <= d / 2) by apply Rmin_l. assert (D2 : d' <= 1) by (eapply Rle_trans; [apply Rmin_r|apply Rmin_l]). assert (D3 : d' <= c * c / M) by (eapply Rle_trans; [apply Rmin_r|apply Rmin_r]).
  exists d'. split; [repeat apply Rmin_glb_lt; lra|]. intros q z Hq Hz. destruct (right_pos q d' Hq D2) as (Q0 & Q1).
  destruct (Kd (q, z)) as (K1 & K2). { unfold dist2. cbn [fst snd]. lra. } cbn [fst snd] in K1, K2. unfold rest in K1. cbn [fst snd] in K1.
  unfold g. destruct (Rltb (Cmod (lens_eq2 a (E_ q) z - V_ q)%C) 1e-6) eqn:Em.
  2:{ unfold term. rewrite Em, Rmult_0_r, Rminus_0_r, Rabs_R0. lra. }
  pose proof Em as Em'. apply Rltb_true in Em'. unfold lens_eq2 in Em'. cbv zeta in Em'. set (u := (RtoC (E_ q) / (Cconj z - RtoC a))%C) in *. set (v := (RtoC (1 - E_ q) / (Cconj z + RtoC a))%C) in *.
  assert (Hu : c < Cmod u).
  { pose proof (Cmod_triangle (z - u - v - V_ q)%C u) as Tr. replace (z - u - v - V_ q + u)%C with (z - v - V_ q)%C in Tr by ring. lra. }
  assert (Hy : (Cconj z - RtoC a)%C <> RtoC 0). { intros Y. unfold u in Hu. rewrite Y in Hu. unfold Cdiv in Hu. rewrite Cmod_mult in Hu. rewrite Cinv_00, Cmod_0 in Hu. lra. }
  assert (He1 : 0 < E_ q < d'). { unfold E_. split; [apply Rdiv_lt_0_compat; lra|]. apply Rle_lt_trans with q; auto. apply (Rmult_le_reg_r (1 + q)); [lra|]. unfold Rdiv. rewrite Rmult_assoc, Rinv_l by lra. nra. }
  unfold det_jac2. cbv zeta. set (sh := (RtoC (E_ q) / (Cconj z - RtoC a) ^ 2 + RtoC (1 - E_ q) / (Cconj z + RtoC a) ^ 2)%C). apply small_term; auto.
  assert (Mu : Cmod (RtoC (E_ q) / (Cconj z - RtoC a) ^ 2)%C = Cmod u * Cmod u / E_ q).
  { unfold u. rewrite !Cmod_div by (auto; apply Cpow_neq0; auto). rewrite Cmod_pow, Cmod_R, Rabs_pos_eq by lra. field. split; [|lra]. apply Rgt_not_eq. now apply Cmod_gt_0. }
  assert (Big : M <= Cmod u * Cmod u / E_ q).
  { apply (Rmult_le_reg_r (E_ q)); [lra|]. unfold Rdiv. rewrite Rmult_assoc, Rinv_l, Rmult_1_r by lra. assert (M * E_ q <= M * (c * c / M)) by (apply Rmult_le_compat_l; lra). replace (M * (c * c / M)) with (c * c) in H by (field; lra). nra. }
  pose proof (Cmod_triangle sh (- (RtoC (1 - E_ q) / (Cconj z + RtoC a) ^ 2))%C) as Tr. unfold sh in Tr at 1. replace (RtoC (E_ q) / (Cconj z - RtoC a) ^ 2 + RtoC (1 - E_ q) / (Cconj z + RtoC a) ^ 2 + - (RtoC (1 - E_ q) / (Cconj z + RtoC a) ^ 2))%C with (RtoC (E_ q) / (Cconj z - RtoC a) ^ 2)%C in Tr by ring.
  rewrite Mu, Cmod_opp in Tr. unfold M in Big. lra.
Qed.
Let h (z : C) : R := if Ceq_dec z (RtoC a) then 0 else g 0 z.
Lemma h_off z : z <> RtoC a -> h z = g 0 z.
Proof. unfold h. destruct (Ceq_dec z (RtoC a)); [contradiction|auto]. Qed.
Lemma conj_off_a z : z <> RtoC a -> (Cconj z - RtoC a)%C <> RtoC 0.
Proof. intros N E. apply N. apply Cconj_inj. rewrite Cconj_RtoC. now apply Cminus_eq_0. Qed.
Lemma planet_joint_h z0 : z0 <> RtoC a -> (Cconj z0 + RtoC a)%C <> RtoC 0 -> let rho := Cmod (z0 - 1 / (Cconj z0 + RtoC a) - (w - RtoC a))%C in
  rho <> 1e-6 -> (rho < 1e-6 -> 1 - Cmod (1 / (Cconj z0 + RtoC a) ^ 2)%C ^ 2 <> 0) -> joint_to right g h z0.
Proof.
  intros N1 N2 rho Hn H0. pose proof (planet_0 z0) as P. assert (J : joint_to right g (g 0) z0).
  { apply planet_joint; auto; [now apply conj_off_a| |].
    - rewrite E0, V0. unfold lens_eq2. cbv zeta. rewrite Rminus_0_r. replace (z0 - RtoC 0 / (Cconj z0 - RtoC a) - RtoC 1 / (Cconj z0 + RtoC a) - (w - RtoC a))%C with (z0 - 1 / (Cconj z0 + RtoC a) - (w - RtoC a))%C by (unfold Cdiv; ring). exact Hn.
    - rewrite E0, V0. unfold lens_eq2, det_jac2. cbv zeta. rewrite Rminus_0_r. replace (z0 - RtoC 0 / (Cconj z0 - RtoC a) - RtoC 1 / (Cconj z0 + RtoC a) - (w - RtoC a))%C with (z0 - 1 / (Cconj z0 + RtoC a) - (w - RtoC a))%C by (unfold Cdiv; ring).
      replace (RtoC 0 / (Cconj z0 - RtoC a) ^ 2 + RtoC 1 / (Cconj z0 + RtoC a) ^ 2)%C with (1 / (Cconj z0 + RtoC a) ^ 2)%C by (unfold Cdiv; ring). exact H0. }
  intros e He. rewrite (h_off z0 N1). now apply J.
Qed.
(** the limit: one lens, and possibly the root that is no image *)
Let rho_s := Cmod (1 / (RtoC s - Cconj w) - RtoC s)%C.
Let det_s := 1 - Cmod ((RtoC s - Cconj w) ^ 2)%C ^ 2.
Theorem planet_tends pr : rho_s <> 1e-6 -> (rho_s < 1e-6 -> det_s <> 0) -> forall eps, 0 < eps -> exists d, 0 < d /\
  forall q p, 0 < q < d -> p_s p = Some s -> p_q p = Some q -> splits (K q) (pr (K q) None) ->
  exists A, mag_point_source pr 2 p w = Ok A /\ Rabs (A - (A_point (Cmod w) + term rho_s det_s 1e-6)) < eps.
Proof.
  intros Hr Hd eps He. destruct cw_neq as (N1 & N2). assert (Na : a <> 0) by (unfold a; lra).
  assert (G0 : w <> RtoC (s - 1 / s)). { intros E. rewrite E in Hgap. replace (RtoC (s - 1 / s) - RtoC (s - 1 / s))%C with (RtoC 0) in Hgap by ring. rewrite Cmod_0 in Hgap. lra. }
  (* the two images *)
  assert (Im : forall y, y = img_p w \/ y = img_m w -> joint_to right g h (y - RtoC a)%C /\ h (y - RtoC a)%C = true_term y).
  { intros y Hy. destruct (img_is w Hw y Hy) as (Y0 & Y1 & Y2).
    assert (Ya : (y - RtoC a)%C <> RtoC a). { intros E. apply G0. rewrite <- Y1. replace y with (RtoC s); [rewrite Cconj_RtoC, RtoC_minus, RtoC_div by lra; ring|]. rewrite sa. rewrite <- E at 1. ring. }
    assert (Yc : (Cconj (y - RtoC a) + RtoC a)%C = Cconj y) by (rewrite Cconj_minus, Cconj_RtoC; ring).
    assert (R0 : Cmod (y - RtoC a - 1 / Cconj y - (w - RtoC a))%C = 0). { replace (y - RtoC a - 1 / Cconj y - (w - RtoC a))%C with (y - 1 / Cconj y - w)%C by ring. rewrite Y1. replace (w - w)%C with (RtoC 0) by ring. apply Cmod_0. }
    split.
    - apply planet_joint_h; auto; rewrite Yc; [now apply Cconj_neq0|rewrite R0; lra|intros _; exact Y2].
    - rewrite h_off by auto. rewrite planet_0, Yc, R0. unfold term, true_term. replace (Rltb 0 1e-6) with true; [ring|]. symmetry. apply Rltb_true. lra. }
  (* the root that is no image *)
  assert (Zc : (Cconj zs + RtoC a)%C = (1 / (RtoC s - w))%C). { unfold zs. rewrite Cconj_minus, Cconj_div, Cconj_minus, !Cconj_RtoC, Cconj_conj. ring. }
  assert (N3 : (RtoC s - w)%C <> RtoC 0) by (intros E; apply Hws; symmetry; now apply Cminus_eq_0).
  assert (Zr : (zs - 1 / (1 / (RtoC s - w)) - (w - RtoC a))%C = (1 / (RtoC s - Cconj w) - RtoC s)%C) by (replace (1 / (1 / (RtoC s - w)))%C with (RtoC s - w)%C by (field; repeat split; auto; apply RtoC_neq0; lra); unfold zs; ring).
  assert (Zd : Cmod (1 / (1 / (RtoC s - w)) ^ 2)%C = Cmod ((RtoC s - Cconj w) ^ 2)%C).
  { replace (1 / (1 / (RtoC s - w)) ^ 2)%C with ((RtoC s - w) ^ 2)%C by (field; repeat split; auto; apply RtoC_neq0; lra). rewrite !Cmod_pow. f_equal. rewrite <- (Cmod_conj (RtoC s - w)%C), Cconj_minus, Cconj_RtoC. reflexivity. }
  assert (Zn : zs <> RtoC a).
  { intros E. apply G0. apply Cconj_inj. rewrite Cconj_RtoC. assert (F : (1 / (RtoC s - Cconj w) = RtoC s)%C). { transitivity (zs + RtoC a)%C; [unfold zs; ring|rewrite E; symmetry; apply sa]. }
    assert (F2 : (RtoC s * (RtoC s - Cconj w) = 1)%C). { rewrite <- F at 1. field. auto. } assert (Ns : RtoC s <> RtoC 0) by (apply RtoC_neq0; auto).
    rewrite RtoC_minus, RtoC_div by auto. replace (Cconj w) with (RtoC s - (RtoC s * (RtoC s - Cconj w)) / RtoC s)%C at 1 by (field; auto). rewrite F2. reflexivity. }
  assert (Zj : joint_to right g h zs /\ h zs = term rho_s det_s 1e-6).
  { split.
    - apply planet_joint_h; auto; rewrite Zc.
      + intros E. assert (F : (1 / (RtoC s - w) * (RtoC s - w) = 1)%C) by (field; auto). rewrite E, Cmult_0_l in F. injection F. lra.
      + rewrite Zr. exact Hr.
      + rewrite Zr, Zd. exact Hd.
    - rewrite h_off by auto. rewrite planet_0, Zc, Zr, Zd. reflexivity. }
  assert (Aj : joint_to right g h (RtoC a)). { intros e He'. unfold h. destruct (Ceq_dec (RtoC a) (RtoC a)); [|contradiction]. now apply planet_fades. }
  assert (Ah : h (RtoC a) = 0) by (unfold h; destruct (Ceq_dec (RtoC a) (RtoC a)); [auto|contradiction]).
  destruct (sum_tends right 0 K g h 5 rs) with (eps := eps) as (d & Hd' & Kd); auto.
  - unfold K. rewrite E0, V0. unfold poly_coeffs_binary. cbn [hd]. replace (- (RtoC a * RtoC a) + Cconj (w - RtoC a) * Cconj (w - RtoC a))%C with (- (Cconj w * (RtoC s - Cconj w)))%C by (rewrite Cconj_minus, Cconj_RtoC, sa; ring).
    intros E. apply (Cmult_neq_0 _ _ N1 N2). replace (Cconj w * (RtoC s - Cconj w))%C with (- - (Cconj w * (RtoC s - Cconj w)))%C by ring. rewrite E. ring.
  - apply planet_splits.
  - apply planet_K.
  - intros r Hin. unfold rs in Hin. destruct Hin as [<-|[<-|[<-|[<-|[<-|[]]]]]]; auto; [apply Im; auto|apply Im; auto|apply Zj].
  - exists (Rmin d 1). split; [apply Rmin_glb_lt; lra|]. intros q p Hq Es Eq Hsol. exists (sumR (map (g q) (pr (K q) None))). split.
    + unfold mag_point_source. cbn [Z.eqb Pos.eqb]. rewrite Es, Eq. cbn [getp]. f_equal. unfold images2. rewrite sum_inv_terms. reflexivity.
    + pose proof (Rmin_l d 1). pose proof (Rmin_r d 1). specialize (Kd q (pr (K q) None) ltac:(apply right_of; lra) Hsol).
      replace (sumR (map h rs)) with (A_point (Cmod w) + term rho_s det_s 1e-6) in Kd; auto. unfold rs. cbn [map sumR]. rewrite Ah, (proj2 Zj), (proj2 (Im _ (or_introl eq_refl))), (proj2 (Im _ (or_intror eq_refl))), <- (true_sum w Hw). ring.
Qed.
End Planet.

(** ** the two masses meet *)
Definition off0 (s : R) : R := if Req_EM_T s 0 then 1 else Rabs s.
Lemma off0_abs s : Rabs (s - 0) <= off0 s.
Proof. rewrite Rminus_0_r. unfold off0. destruct (Req_EM_T s 0) as [->|]; [rewrite Rabs_R0|]; lra. Qed.
Lemma off0_pos s d : off0 s < d -> d <= 1 -> s <> 0 /\ Rabs s < d.
Proof. unfold off0. destruct (Req_EM_T s 0); [lra|auto]. Qed.
Lemma off0_of s d : s <> 0 -> Rabs s < d -> off0 s < d.
Proof. unfold off0. destruct (Req_EM_T s 0); [contradiction|auto]. Qed.

Section Close.
Variables (q : R) (w : C).
Hypothesis (Hq : 0 < q) (Hw : w <> RtoC 0).
Let e := q / (1 + q).
Let A_ (s : R) := 0.5 * s. Let V_ (s : R) := (w - RtoC (x_cm (A_ s) q))%C.
Let K (s : R) := poly_coeffs_binary (V_ s) (A_ s) e.
Let g (s : R) (z : C) := term (Cmod (lens_eq2 (A_ s) e z - V_ s)%C) (det_jac2 (A_ s) e z) 1e-6.
Let zs : C := (- (1 / Cconj w))%C.
Let rs : list C := [img_p w; img_m w; zs; RtoC 0; RtoC 0].
Let A0 : A_ 0 = 0. Proof. unfold A_. lra. Qed.
Let V0 : V_ 0 = w. Proof. unfold V_, x_cm. rewrite A0. replace (0 * (1 - q) / (1 + q)) with 0 by (field; lra). ring. Qed.
Let He01 : 0 < e < 1.
Proof. unfold e. split; [apply Rdiv_lt_0_compat; lra|]. apply (Rmult_lt_reg_r (1 + q)); [lra|]. unfold Rdiv. rewrite Rmult_assoc, Rinv_l by lra. lra. Qed.
Let Ncw : Cconj w <> RtoC 0. Proof. now apply Cconj_neq0. Qed.
Lemma close_splits : splits (K 0) rs.
Proof.
  unfold K. rewrite A0, V0. intros z. unfold poly_coeffs_binary, rs. cbn [peval length hd map prodC]. set (wb := Cconj w).
  replace ((- (RtoC 0 * RtoC 0) + wb * wb) * ((z - img_p w) * ((z - img_m w) * ((z - zs) * ((z - RtoC 0) * ((z - RtoC 0) * 1))))))%C
    with ((wb * ((z - img_p w) * (z - img_m w))) * (wb * (z - zs)) * (z * z))%C by ring.
  unfold wb at 7. rewrite (img_quad w Hw). fold wb. replace (wb * (z - zs))%C with (wb * z + 1)%C by (unfold zs; fold wb; field; auto). ring.
Qed.
Lemma close_lift z0 : let D := dist2 off0 z0 in let T0 := (0, z0) in
  rc D T0 (fun p => A_ (fst p)) /\ rc D T0 (fun p => e) /\ cc D T0 (fun p => V_ (fst p)) /\ cc D T0 (fun p => snd p).
Proof.
  cbv zeta. assert (Hs : rc (dist2 off0 z0) (0, z0) (fun p => fst p)).
  { apply rc_le. intros p. pose proof (off0_abs (fst p)). pose proof (Cmod_ge_0 (snd p - z0)%C). unfold dist2. cbn [fst] in *. lra. }
  assert (Hz : cc (dist2 off0 z0) (0, z0) (fun p => snd p)).
  { apply cc_le. intros p. pose proof (off0_abs (fst p)). pose proof (Rabs_pos (fst p - 0)). unfold dist2. cbn [snd]. lra. }
  assert (HA : rc (dist2 off0 z0) (0, z0) (fun p => A_ (fst p))) by (unfold A_; repeat first [assumption | rcc]).
  assert (N : 1 + q <> 0) by lra.
  split; [exact HA|]. split; [rcc|]. split; [|exact Hz]. unfold V_, x_cm. repeat first [assumption | rcc].
Qed.
Lemma close_K : lc off0 0 K.
Proof.
  assert (Z : Cmod (RtoC 0 - RtoC 0)%C = 0) by (replace (RtoC 0 - RtoC 0)%C with (RtoC 0) by ring; apply Cmod_0).
  apply (lc_drop off0 0 (RtoC 0) K Z). destruct (close_lift (RtoC 0)) as (HA & HE & HV & HZ). unfold K. apply (coeffs2_cont _ _ (fun p => A_ (fst p)) (fun p => e) (fun p => V_ (fst p))); auto.
Qed.
Lemma close_0 z : z <> RtoC 0 -> lens_eq2 (A_ 0) e z = (z - 1 / Cconj z)%C /\ det_jac2 (A_ 0) e z = 1 - Cmod (1 / (Cconj z) ^ 2)%C ^ 2.
Proof.
  intros Hz. assert (Nz : Cconj z <> RtoC 0) by now apply Cconj_neq0. rewrite A0. unfold lens_eq2, det_jac2. cbv zeta.
  replace (Cconj z - RtoC 0)%C with (Cconj z) by ring. replace (Cconj z + RtoC 0)%C with (Cconj z) by ring. rewrite RtoC_minus. split; [field; auto|]. do 3 f_equal. field. auto.
Qed.
(** roots between the masses that pass the mask fade *)
Lemma close_fades eps : 0 < eps -> exists d, 0 < d /\ forall s z, off0 s < d -> Cmod (z - RtoC 0)%C < d -> Rabs (g s z - 0) < eps.
Proof.
  intros He. pose proof (Rabs_pos ((1 - q) / (1 + q))) as X0. set (X := Rabs ((1 - q) / (1 + q))) in *. pose proof (Cmod_ge_0 w) as W0. set (B := Cmod w + X + 3). set (M := 2 + 1 / eps). assert (I : 0 < 1 / eps) by (apply Rdiv_lt_0_compat; lra).
  set (k := Rmin e (1 - e)). assert (Hk : 0 < k) by (unfold k; apply Rmin_glb_lt; lra). assert (Hk1 : k <= e) by apply Rmin_l. assert (Hk2 : k <= 1 - e) by apply Rmin_r.
  set (U := 2 * B + 1 + (B * B + M) / e + M / k). assert (HB : 3 <= B) by (unfold B; lra). assert (U1 : 0 < (B * B + M) / e) by (apply Rdiv_lt_0_compat; unfold M; nra). assert (U2 : 0 < M / k) by (apply Rdiv_lt_0_compat; unfold M; lra). assert (HU : 1 <= U) by (unfold U; lra).
  set (d := / (2 * U)). assert (Hd : 0 < d) by (apply Rinv_0_lt_compat; lra). assert (Hd1 : d <= 1) by (unfold d; rewrite <- Rinv_1; apply Rinv_le_contravar; lra). assert (HdU : d * (2 * U) = 1) by (unfold d; field; lra).
  exists d. split; auto. intros s z Hs Hz. destruct (off0_pos s d Hs Hd1) as (S0 & S1). replace (z - RtoC 0)%C with z in Hz by ring.
  unfold g. destruct (Rltb (Cmod (lens_eq2 (A_ s) e z - V_ s)%C) 1e-6) eqn:Em.
  2:{ unfold term. rewrite Em, Rmult_0_r, Rminus_0_r, Rabs_R0. lra. }
  pose proof Em as Em'. apply Rltb_true in Em'. unfold lens_eq2 in Em'. cbv zeta in Em'. unfold det_jac2. cbv zeta. apply small_term; auto. fold M. set (a := A_ s) in *.
  assert (Aa : 0 < Rabs a < d). { unfold a, A_. rewrite Rabs_mult, (Rabs_pos_eq 0.5) by lra. assert (0 < Rabs s) by (apply Rabs_pos_lt; auto). lra. } assert (Na : a <> 0) by (intros E; rewrite E, Rabs_R0 in Aa; lra).
  assert (MU : M <= k * (U * U)). { assert (M = k * (M / k)) by (field; lra). assert (M / k <= U) by (unfold U; lra). assert (U <= U * U) by nra. nra. }
  assert (Inv : forall y : C, y <> RtoC 0 -> Cmod y < 2 * d -> U <= Cmod (/ y)%C).
  { intros y Ny Hy. rewrite Cmod_inv by auto. assert (0 < Cmod y) by now apply Cmod_gt_0. replace U with (/ (2 * d)) by (unfold d; field; lra). apply Rinv_le_contravar; lra. }
  assert (Ma : Cmod (RtoC a) < d) by (rewrite Cmod_R; lra).
  assert (N2a : (RtoC a + RtoC a)%C <> RtoC 0) by (rewrite <- RtoC_plus; apply RtoC_neq0; lra).
  assert (Ua : U <= Cmod (/ (RtoC a + RtoC a))%C). { apply Inv; auto. pose proof (Cmod_triangle (RtoC a) (RtoC a)). lra. }
  set (y := (Cconj z - RtoC a)%C) in *. set (x := (Cconj z + RtoC a)%C) in *.
  assert (Hx : Cmod x < 2 * d). { pose proof (Cmod_triangle (Cconj z) (RtoC a)) as Tr. fold x in Tr. rewrite Cmod_conj in Tr. lra. }
  assert (Hy : Cmod y < 2 * d). { pose proof (Cmod_triangle (Cconj z) (- RtoC a)%C) as Tr. replace (Cconj z + - RtoC a)%C with y in Tr by (unfold y; ring). rewrite Cmod_conj, Cmod_opp in Tr. lra. }
  assert (Sq : forall (t : R) (v : C), k <= t -> v <> RtoC 0 -> U <= Cmod (/ v)%C -> M <= Cmod (RtoC t / v ^ 2)%C).
  { intros t v Ht Nv Hv. rewrite Cmod_div by (apply Cpow_neq0; auto). rewrite Cmod_pow, Cmod_R, Rabs_pos_eq by lra. rewrite Cmod_inv in Hv by auto. unfold Rdiv. rewrite <- pow_inv. assert (U * U <= (/ Cmod v) ^ 2) by (replace ((/ Cmod v) ^ 2) with (/ Cmod v * / Cmod v) by ring; apply Rmult_le_compat; lra). eapply Rle_trans; [exact MU|]. apply Rmult_le_compat; lra || nra. }
  destruct (Ceq_dec y (RtoC 0)) as [Ey|Ny].
  { (* exactly on the companion *)
    assert (Ex : x = (RtoC a + RtoC a)%C). { unfold x. replace (Cconj z) with (y + RtoC a)%C by (unfold y; ring). rewrite Ey. ring. }
    rewrite Ey. replace (RtoC e / RtoC 0 ^ 2 + RtoC (1 - e) / x ^ 2)%C with (RtoC (1 - e) / x ^ 2)%C.
    - rewrite Ex. apply Sq; auto.
    - unfold Cdiv. replace (RtoC 0 ^ 2)%C with (RtoC 0) by ring. rewrite Cinv_00. ring. }
  destruct (Ceq_dec x (RtoC 0)) as [Ex|Nx].
  { assert (Ey : y = (- (RtoC a + RtoC a))%C). { unfold y. replace (Cconj z) with (x - RtoC a)%C by (unfold x; ring). rewrite Ex. ring. }
    rewrite Ex. replace (RtoC e / y ^ 2 + RtoC (1 - e) / RtoC 0 ^ 2)%C with (RtoC e / (RtoC a + RtoC a) ^ 2)%C.
    - apply Sq; auto.
    - unfold Cdiv. replace (RtoC 0 ^ 2)%C with (RtoC 0) by ring. rewrite Cinv_00, Ey. replace ((- (RtoC a + RtoC a)) ^ 2)%C with ((RtoC a + RtoC a) ^ 2)%C by ring. ring. }
  set (u := (/ y)%C). set (v := (/ x)%C). assert (Hu : U <= Cmod u) by (apply Inv; auto).
  set (D := (RtoC e * u + RtoC (1 - e) * v)%C).
  assert (HD : Cmod D <= B).
  { unfold Cdiv in Em'. fold u v in Em'. pose proof (Cmod_triangle (- (z - RtoC e * u - RtoC (1 - e) * v - V_ s))%C (z - V_ s)%C) as Tr. replace (- (z - RtoC e * u - RtoC (1 - e) * v - V_ s) + (z - V_ s))%C with D in Tr by (unfold D; ring). rewrite Cmod_opp in Tr.
    pose proof (Cmod_triangle z (- V_ s)%C) as Tz. replace (z + - V_ s)%C with (z - V_ s)%C in Tz by ring. rewrite Cmod_opp in Tz. pose proof (Cmod_triangle w (- RtoC (x_cm a q))%C) as Tv. replace (w + - RtoC (x_cm a q))%C with (V_ s) in Tv by (unfold V_; fold a; ring). rewrite Cmod_opp, Cmod_R in Tv.
    assert (Rabs (x_cm a q) <= X). { unfold x_cm. replace (a * (1 - q) / (1 + q)) with (a * ((1 - q) / (1 + q))) by (field; lra). rewrite Rabs_mult. fold X. nra. } unfold B. lra. }
  replace (RtoC e / y ^ 2 + RtoC (1 - e) / x ^ 2)%C with ((RtoC e * (u * u) - RtoC 2 * D * RtoC e * u + D * D) / RtoC (1 - e))%C.
  2:{ unfold D, u, v. rewrite RtoC_minus. field. repeat split; auto. intros E. assert (F : RtoC (1 - e) = RtoC 0) by (rewrite RtoC_minus; exact E). apply RtoC_inj in F. lra. }
  rewrite Cmod_div by (apply RtoC_neq0; lra). rewrite Cmod_R, (Rabs_pos_eq (1 - e)) by lra.
  set (N := (RtoC e * (u * u) - RtoC 2 * D * RtoC e * u + D * D)%C).
  assert (HN : M <= Cmod N).
  { pose proof (Cmod_triangle N (RtoC 2 * D * RtoC e * u - D * D)%C) as Tr. replace (N + (RtoC 2 * D * RtoC e * u - D * D))%C with (RtoC e * (u * u))%C in Tr by (unfold N; ring).
    pose proof (Cmod_triangle (RtoC 2 * D * RtoC e * u)%C (- (D * D))%C) as T2. replace (RtoC 2 * D * RtoC e * u + - (D * D))%C with (RtoC 2 * D * RtoC e * u - D * D)%C in T2 by ring. rewrite Cmod_opp in T2. rewrite !Cmod_mult, !Cmod_R, (Rabs_pos_eq e), (Rabs_pos_eq 2) in * by lra.
    set (m := Cmod u) in *. set (b := Cmod D) in *. assert (B0 : 0 <= b) by apply Cmod_ge_0.
    assert (L1 : (B * B + M) <= e * m * (m - 2 * b)).
    { assert ((B * B + M) / e <= m - 2 * b) by (unfold U in Hu; lra). assert (1 <= m) by lra. assert (B * B + M = e * ((B * B + M) / e)) by (field; lra). rewrite H1. rewrite Rmult_assoc. apply Rmult_le_compat_l; [lra|]. nra. }
    assert (b * b <= B * B) by nra. nra. }
  apply (Rmult_le_reg_r (1 - e)); [lra|]. unfold Rdiv. rewrite Rmult_assoc, Rinv_l, Rmult_1_r by lra. assert (0 < M) by (unfold M; lra). nra.
Qed.
Let h (z : C) : R := if Ceq_dec z (RtoC 0) then 0 else g 0 z.
Theorem close_tends pr : / Cmod w <> 1e-6 -> forall eps, 0 < eps -> exists d, 0 < d /\
  forall s p, s <> 0 -> Rabs s < d -> p_s p = Some s -> p_q p = Some q -> splits (K s) (pr (K s) None) ->
  exists A, mag_point_source pr 2 p w = Ok A /\ Rabs (A - (A_point (Cmod w) + term (/ Cmod w) (1 - Cmod w ^ 4) 1e-6)) < eps.
Proof.
  intros Hr eps He. assert (Pw : 0 < Cmod w) by now apply Cmod_gt_0.
  assert (Jh : forall z0, z0 <> RtoC 0 -> Cmod (z0 - 1 / Cconj z0 - w)%C <> 1e-6 -> (Cmod (z0 - 1 / Cconj z0 - w)%C < 1e-6 -> 1 - Cmod (1 / (Cconj z0) ^ 2)%C ^ 2 <> 0) ->
     joint_to off0 g h z0 /\ h z0 = term (Cmod (z0 - 1 / Cconj z0 - w)%C) (1 - Cmod (1 / (Cconj z0) ^ 2)%C ^ 2) 1e-6).
  { intros z0 N0 Hn H0. destruct (close_0 z0 N0) as (L0 & D0). assert (Nc : Cconj z0 <> RtoC 0) by now apply Cconj_neq0.
    assert (Hh : h z0 = g 0 z0) by (unfold h; destruct (Ceq_dec z0 (RtoC 0)); [contradiction|auto]). split.
    - intros ep Hep. rewrite Hh. revert ep Hep. change (joint_to off0 g (g 0) z0). apply joint_of. destruct (close_lift z0) as (HA & HE & HV & HZ). unfold g.
      assert (M1 : (Cconj (snd (0, z0)) - RtoC (A_ (fst (0, z0))))%C <> RtoC 0) by (cbn [fst snd]; rewrite A0; replace (Cconj z0 - RtoC 0)%C with (Cconj z0) by ring; auto).
      assert (M2 : (Cconj (snd (0, z0)) + RtoC (A_ (fst (0, z0))))%C <> RtoC 0) by (cbn [fst snd]; rewrite A0; replace (Cconj z0 + RtoC 0)%C with (Cconj z0) by ring; auto).
      apply (term_cont (dist2 off0 z0) (0, z0) (fun p => Cmod (lens_eq2 (A_ (fst p)) e (snd p) - V_ (fst p))%C) (fun p => det_jac2 (A_ (fst p)) e (snd p))).
      + assert (L : cc (dist2 off0 z0) (0, z0) (fun p => lens_eq2 (A_ (fst p)) e (snd p))) by (apply (lens2_cont _ _ (fun p => A_ (fst p)) (fun p => e) (fun p => snd p)); auto).
        repeat first [assumption | rcc].
      + apply (det2_cont _ _ (fun p => A_ (fst p)) (fun p => e) (fun p => snd p)); auto.
      + cbn [fst snd]. rewrite L0, V0. exact Hn.
      + cbn [fst snd]. rewrite L0, V0, D0. exact H0.
    - rewrite Hh. unfold g. now rewrite L0, V0, D0. }
  assert (Im : forall y, y = img_p w \/ y = img_m w -> joint_to off0 g h y /\ h y = true_term y).
  { intros y Hy. destruct (img_is w Hw y Hy) as (Y0 & Y1 & Y2). assert (R0 : Cmod (y - 1 / Cconj y - w)%C = 0) by (rewrite Y1; replace (w - w)%C with (RtoC 0) by ring; apply Cmod_0).
    destruct (Jh y Y0) as (J1 & J2); [rewrite R0; lra|intros _; exact Y2|]. split; auto. rewrite J2, R0. unfold term, true_term. replace (Rltb 0 1e-6) with true; [ring|]. symmetry. apply Rltb_true. lra. }
  assert (Zn : zs <> RtoC 0). { unfold zs. intros E. assert (F : (- (1 / Cconj w) * Cconj w = - 1)%C) by (field; auto). rewrite E, Cmult_0_l in F. injection F. lra. }
  assert (Zc : (1 / Cconj zs = - w)%C). { unfold zs. rewrite Cconj_opp, Cconj_div, Cconj_conj, Cconj_RtoC. field. split; auto. intros E. injection E. lra. }
  assert (Zr : Cmod (zs - 1 / Cconj zs - w)%C = / Cmod w). { rewrite Zc. replace (zs - - w - w)%C with zs by ring. unfold zs. rewrite Cmod_opp, Cmod_div, Cmod_1, Cmod_conj by auto. unfold Rdiv. ring. }
  assert (Zd : Cmod (1 / (Cconj zs) ^ 2)%C ^ 2 = Cmod w ^ 4). { replace (1 / Cconj zs ^ 2)%C with ((1 / Cconj zs) * (1 / Cconj zs))%C by (field; now apply Cconj_neq0). rewrite Zc, Cmod_mult, Cmod_opp. ring. }
  assert (Zj : joint_to off0 g h zs /\ h zs = term (/ Cmod w) (1 - Cmod w ^ 4) 1e-6).
  { destruct (Jh zs Zn) as (J1 & J2); rewrite Zr, ?Zd in *; auto. intros L E. assert (1 < Cmod w). { rewrite <- (Rinv_inv (Cmod w)). rewrite <- Rinv_1. apply Rinv_lt_contravar; [|lra]. apply Rmult_lt_0_compat; [apply Rinv_0_lt_compat; auto|lra]. }
    assert (W2 : 1 < Cmod w * Cmod w) by nra. assert (1 < Cmod w ^ 4) by (replace (Cmod w ^ 4) with ((Cmod w * Cmod w) * (Cmod w * Cmod w)) by ring; revert W2; generalize (Cmod w * Cmod w); intros; nra). lra. }
  assert (Ah : h (RtoC 0) = 0) by (unfold h; destruct (Ceq_dec (RtoC 0) (RtoC 0)); [auto|contradiction]).
  assert (Aj : joint_to off0 g h (RtoC 0)). { intros ep Hep. rewrite Ah. now apply close_fades. }
  destruct (sum_tends off0 0 K g h 5 rs) with (eps := eps) as (d & Hd' & Kd); auto.
  - unfold K. rewrite A0, V0. unfold poly_coeffs_binary. cbn [hd]. replace (- (RtoC 0 * RtoC 0) + Cconj w * Cconj w)%C with (Cconj w * Cconj w)%C by ring. now apply Cmult_neq_0.
  - apply close_splits.
  - apply close_K.
  - intros r Hin. unfold rs in Hin. destruct Hin as [<-|[<-|[<-|[<-|[<-|[]]]]]]; auto; [apply Im; auto|apply Im; auto|apply Zj].
  - exists d. split; auto. intros s p Hs0 Hs1 Es Eq Hsol. exists (sumR (map (g s) (pr (K s) None))). split.
    + unfold mag_point_source. cbn [Z.eqb Pos.eqb]. rewrite Es, Eq. cbn [getp]. f_equal. unfold images2. rewrite sum_inv_terms. reflexivity.
    + specialize (Kd s (pr (K s) None) ltac:(apply off0_of; auto) Hsol).
      replace (sumR (map h rs)) with (A_point (Cmod w) + term (/ Cmod w) (1 - Cmod w ^ 4) 1e-6) in Kd; auto. unfold rs. cbn [map sumR]. rewrite Ah, (proj2 Zj), (proj2 (Im _ (or_introl eq_refl))), (proj2 (Im _ (or_intror eq_refl))), <- (true_sum w Hw). ring.
Qed.
End Close.
