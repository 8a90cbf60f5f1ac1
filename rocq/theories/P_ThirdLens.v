(** A third lens that loses its mass (C79). *)
From Coq Require Import Reals List Lra Lia ZArith.
From Coquelicot Require Import Complex.
From Verif Require Import Base_R Base_List Base_C M_Utils M_Coeffs M_PointSource S_PointSource S_Poly
  P_Lens P_Poly P_PolyRoots P_PointSource P_Images P_RootsCont P_MagCont P_MagLens P_OneLens.
Import ListNotations.
Local Open Scope R_scope.

(** ** the polynomial of degree ten when the third mass is zero *)
Section Massless.
Variables (a e r3 psi : R) (V : C).
Let p3 := third_lens r3 psi.
Let sh := triple_shift_cm a p3 e (1 - e).
Let K3 := fst (poly_coeffs_triple_CM V a p3 e (1 - e)).
Definition quad_coeffs (a e : R) (p3 V : C) : list C := [Cconj (V - p3); RtoC 1; RtoC a * RtoC (2 * e - 1) - Cconj (V - p3) * (RtoC a * RtoC a)]%C.
Let Qc := quad_coeffs a e p3 V.
Let N0 : 1 - e - (1 - e) = 0. Proof. ring. Qed.
Lemma massless_body (ww c1 c2 c3 : C) (m1 m2 : R) Z : m1 + m2 = 1 -> (m1 * c1 + m2 * c2 = 0)%C ->
  let w1 := Cconj (ww - c1)%C in let w2 := Cconj (ww - c2)%C in let w3 := Cconj (ww - c3)%C in
  let P := ((Z - c1) * (Z - c2))%C in let N := (m1 * (Z - c2) + m2 * (Z - c1))%C in
  peval (triple_cm_body ww c1 c2 c3 m1 m2 (RtoC 0)) Z = ((Z - c3) ^ 3 * (w3 * P + N) * ((Z - ww) * ((w1 * P + N) * (w2 * P + N)) - P * (m1 * (w2 * P + N) + m2 * (w1 * P + N))))%C.
Proof.
  intros Hm Hc w1 w2 w3 P N. assert (Hm' : m1 + m2 + 0 = 1) by lra. assert (Hc' : (m1 * c1 + m2 * c2 + RtoC 0 * c3 = 0)%C) by (rewrite Hc; ring).
  rewrite (triple_body_id ww c1 c2 c3 m1 m2 0). cbv zeta. rewrite (polyH_fact c1 c2 c3 Z), (polyG_fact c1 c2 c3 m1 m2 0 Hm' Hc' Z). rewrite <- (wbar_comb ww c1 c2 c3 m1 m2 0 Hm' Hc').
  fold w1 w2 w3. assert (M2 : RtoC m2 = (1 - RtoC m1)%C) by (rewrite <- RtoC_minus; f_equal; lra). unfold P, N. rewrite M2. ring.
Qed.
Lemma massless_shift : sh = (RtoC a * RtoC (2 * e - 1))%C.
Proof. unfold sh. rewrite shift_cm_value, N0, !RtoC_minus, RtoC_mult. ring. Qed.
Lemma massless_factor z : peval K3 (z - sh)%C = ((z - p3) ^ 3 * peval Qc z * peval (poly_coeffs_binary V a e) z)%C.
Proof.
  unfold K3, poly_coeffs_triple_CM. fold sh. cbv zeta. cbn [fst]. rewrite N0.
  rewrite massless_body.
  - replace (Cconj (V - sh - (- RtoC a - sh)))%C with (Cconj V + RtoC a)%C by (autorewrite with cconj; ring).
    replace (Cconj (V - sh - (RtoC a - sh)))%C with (Cconj V - RtoC a)%C by (autorewrite with cconj; ring).
    replace (Cconj (V - sh - (p3 - sh)))%C with (Cconj (V - p3))%C by (f_equal; ring).
    replace (z - sh - (p3 - sh))%C with (z - p3)%C by ring. replace (z - sh - (- RtoC a - sh))%C with (z + RtoC a)%C by ring. replace (z - sh - (RtoC a - sh))%C with (z - RtoC a)%C by ring. replace (z - sh - (V - sh))%C with (z - V)%C by ring.
    replace (peval Qc z) with (Cconj (V - p3) * ((z + RtoC a) * (z - RtoC a)) + (RtoC (1 - e) * (z - RtoC a) + RtoC e * (z + RtoC a)))%C.
    2:{ unfold Qc, quad_coeffs. cbn [peval length]. rewrite !RtoC_minus, RtoC_mult. ring. }
    set (Q := (Cconj (V - p3) * _ + _)%C). rewrite <- !Cmult_assoc. f_equal. f_equal. unfold poly_coeffs_binary. cbv zeta. cbn [peval length]. rewrite RtoC_minus. ring.
  - ring.
  - pose proof (triple_Hcm a e (1 - e) r3 psi) as X. fold p3 in X. fold sh in X. rewrite N0 in X. rewrite <- X. ring.
Qed.
Lemma massless_hd : hd (RtoC 0) K3 = (hd (RtoC 0) Qc * hd (RtoC 0) (poly_coeffs_binary V a e))%C.
Proof.
  unfold K3, poly_coeffs_triple_CM. fold sh. cbv zeta. unfold triple_cm_body, Qc, quad_coeffs, poly_coeffs_binary. cbv zeta. cbn [fst hd].
  replace (V - sh - (p3 - sh))%C with (V - p3)%C by ring. autorewrite with cconj. ring.
Qed.
Lemma massless_splits rs ts : splits (poly_coeffs_binary V a e) rs -> splits Qc ts -> splits K3 (map (fun z => z - sh)%C (rs ++ ts ++ [p3; p3; p3])).
Proof.
  intros H2 Hq Z. replace Z with (Z + sh - sh)%C at 1 by ring. rewrite massless_factor, (H2 (Z + sh)%C), (Hq (Z + sh)%C), massless_hd. rewrite map_map.
  replace (map (fun x => Z - (x - sh))%C (rs ++ ts ++ [p3; p3; p3])) with (map (fun x => Z + sh - x)%C (rs ++ ts ++ [p3; p3; p3])) by (apply map_ext; intros; ring).
  assert (A : forall l l', prodC (l ++ l') = (prodC l * prodC l')%C). { induction l as [|x l IH]; intros l'; cbn [app prodC]; [ring|]. rewrite IH. ring. }
  rewrite !map_app, !A. cbn [map prodC]. ring.
Qed.
(** a root of the quadratic factor is mapped as far from the source as it is from the third position *)
Lemma quad_rho t : 0 < e < 1 -> a <> 0 -> peval Qc t = RtoC 0 -> (t - RtoC a)%C <> RtoC 0 /\ (t + RtoC a)%C <> RtoC 0 /\ (lens_eq2 a e t - V = t - p3)%C.
Proof.
  intros He Ha H. assert (H' : (Cconj (V - p3) * ((t + RtoC a) * (t - RtoC a)) + (RtoC (1 - e) * (t - RtoC a) + RtoC e * (t + RtoC a)) = 0)%C).
  { rewrite <- H. unfold Qc, quad_coeffs. cbn [peval length]. rewrite !RtoC_minus, RtoC_mult. ring. }
  assert (A0 : RtoC a <> RtoC 0) by (now apply RtoC_neq0). assert (N1 : (t - RtoC a)%C <> RtoC 0).
  { intros E. apply Cminus_eq_0 in E. rewrite E in H'. assert (F : (RtoC (2 * e * a) = 0)%C) by (rewrite <- H', !RtoC_mult; ring). apply RtoC_inj in F. nra. }
  assert (N2 : (t + RtoC a)%C <> RtoC 0).
  { intros E. assert (Et : t = (- RtoC a)%C) by (replace t with (t + RtoC a - RtoC a)%C by ring; rewrite E; ring). rewrite Et in H'. assert (F : (RtoC (- 2 * (1 - e) * a) = 0)%C) by (rewrite <- H', !RtoC_mult; change (IZR (-2)) with (- (2)); rewrite RtoC_opp; ring). apply RtoC_inj in F. nra. }
  split; auto. split; auto.
  assert (F : (Cconj (V - p3) + RtoC (1 - e) / (t + RtoC a) + RtoC e / (t - RtoC a) = 0)%C).
  { transitivity ((Cconj (V - p3) * ((t + RtoC a) * (t - RtoC a)) + (RtoC (1 - e) * (t - RtoC a) + RtoC e * (t + RtoC a))) / ((t + RtoC a) * (t - RtoC a)))%C; [field; auto|rewrite H'; field; auto]. }
  apply (f_equal Cconj) in F. rewrite !Cconj_plus, !Cconj_div, Cconj_conj, Cconj_plus, Cconj_minus, !Cconj_RtoC in F.
  unfold lens_eq2. cbv zeta. transitivity (t - p3 - (V - p3 + RtoC (1 - e) / (Cconj t + RtoC a) + RtoC e / (Cconj t - RtoC a)))%C; [ring|]. rewrite F. ring.
Qed.
End Massless.

(** the limit of a sum over the roots, when the summand is controlled at roots only *)
Section SumRoots.
Context {T : Type} (dist : T -> R) (t0 : T) (K : T -> list C) (g : T -> C -> R) (h : C -> R).
Definition joint_root (z0 : C) : Prop := forall eps, 0 < eps -> exists d, 0 < d /\ forall t z, dist t < d -> Cmod (z - z0)%C < d -> peval (K t) z = RtoC 0 -> Rabs (g t z - h z0) < eps.
Lemma sum_matched_roots rs : (forall r, In r rs -> joint_root r) -> forall eps, 0 < eps -> exists d, 0 < d /\ forall t rs', dist t < d -> near d rs rs' -> (forall z, In z rs' -> peval (K t) z = RtoC 0) ->
  Rabs (sumR (map (g t) rs') - sumR (map h rs)) < eps.
Proof.
  induction rs as [|r rs IH]; intros J eps He.
  - exists 1. split; [lra|]. intros t rs' _ N _. inversion N; subst. cbn. replace (0 - 0) with 0 by ring. rewrite Rabs_R0. lra.
  - destruct (IH (fun x H => J x (or_intror H)) (eps / 2)) as (d & Hd & Kd); [lra|]. destruct (J r (or_introl eq_refl) (eps / 2)) as (e & Hp & Ke); [lra|].
    exists (Rmin d e). pose proof (Rmin_l d e) as ML. pose proof (Rmin_r d e) as MR. split; [now apply Rmin_glb_lt|]. intros t rs' Ht N Hr. inversion N as [|x y l l' Hx Hl]; subst. cbn [map sumR].
    assert (A := Kd t l' ltac:(lra) (near_mono _ _ _ _ ML Hl) (fun z H => Hr z (or_intror H))). assert (B := Ke t y ltac:(lra) ltac:(lra) (Hr y (or_introl eq_refl))).
    replace (g t y + sumR (map (g t) l') - (h r + sumR (map h rs))) with ((g t y - h r) + (sumR (map (g t) l') - sumR (map h rs))) by ring.
    pose proof (Rabs_triang (g t y - h r) (sumR (map (g t) l') - sumR (map h rs))). lra.
Qed.
Lemma splits_in cs rs r : splits cs rs -> In r rs -> peval cs r = RtoC 0.
Proof. intros S Hin. rewrite (S r). replace (prodC _) with (RtoC 0); [ring|]. symmetry. apply prodC_zero. apply in_map_iff. exists r. split; auto. ring. Qed.
Theorem sum_tends_roots n rs : length (K t0) = S n -> hd (RtoC 0) (K t0) <> RtoC 0 -> splits (K t0) rs -> lc dist t0 K -> (forall r, In r rs -> joint_root r) ->
  forall eps, 0 < eps -> exists d, 0 < d /\ forall t rs', dist t < d -> splits (K t) rs' -> Rabs (sumR (map (g t) rs') - sumR (map h rs)) < eps.
Proof.
  intros Hn Hh Hs Hl J eps He. destruct (sum_matched_roots rs J eps He) as (d1 & H1 & K1). destruct (roots_near n (K t0) rs d1 Hn Hh Hs H1) as (d2 & H2 & K2). destruct (Hl d2 H2) as (d3 & H3 & K3).
  exists (Rmin d1 d3). pose proof (Rmin_l d1 d3) as ML. pose proof (Rmin_r d1 d3) as MR. split; [now apply Rmin_glb_lt|]. intros t rs' Ht S'.
  destruct (K2 (K t) rs' (K3 t ltac:(lra)) S') as (rs'' & P & N). rewrite (sum_perm _ _ _ P). apply K1; [lra|exact N|]. intros z Hz. apply (splits_in _ rs'); auto. apply (Permutation.Permutation_in z (Permutation.Permutation_sym P) Hz).
Qed.
End SumRoots.

(** ** the third lens loses its mass *)
Section Third.
Variables (s q r3 psi : R) (w : C).
Let a := 0.5 * s. Let p3 := third_lens r3 psi. Let V := (w - RtoC (x_cm a q))%C. Let e := q / (1 + q).
Hypothesis (Hs : s <> 0) (Hq : 0 < q).
Hypothesis (P1 : (p3 - RtoC a)%C <> RtoC 0) (P2 : (p3 + RtoC a)%C <> RtoC 0).
Hypothesis (Hw : off_lens_positions (binary_lens s q) w) (W3 : (V - p3)%C <> RtoC 0).
Let E_ (t : R) := q / (1 + q + t). Let H_ (t : R) := 1 / (1 + q + t).
Let X_ (t : R) := triple_shift_cm a p3 (E_ t) (H_ t).
Let K (t : R) := fst (poly_coeffs_triple_CM V a p3 (E_ t) (H_ t)).
Let g (t : R) (r : C) := term (Cmod (lens_eq3 a r3 psi (E_ t) (H_ t) (r + X_ t)%C - V)%C) (det_jac3 a r3 psi (E_ t) (H_ t) (r + X_ t)%C) 1e-3.
Let E0 : E_ 0 = e. Proof. unfold E_, e. now rewrite Rplus_0_r. Qed.
Let H0 : H_ 0 = 1 - e. Proof. unfold H_, e. field. lra. Qed.
Let He : 0 < e < 1.
Proof. unfold e. split; [apply Rdiv_lt_0_compat; lra|]. apply (Rmult_lt_reg_r (1 + q)); [lra|]. unfold Rdiv. rewrite Rmult_assoc, Rinv_l by lra. lra. Qed.
Let Na : a <> 0. Proof. unfold a. lra. Qed.
Lemma third_m3 t : 0 < t -> 0 < 1 - E_ t - H_ t <= t.
Proof.
  intros Ht. replace (1 - E_ t - H_ t) with (t / (1 + q + t)) by (unfold E_, H_; field; lra). split; [apply Rdiv_lt_0_compat; lra|].
  apply (Rmult_le_reg_r (1 + q + t)); [lra|]. unfold Rdiv. rewrite Rmult_assoc, Rinv_l by lra. nra.
Qed.
Lemma third_lift r0 : let D := dist2 right r0 in let T0 := (0, r0) in
  rc D T0 (fun p => a) /\ rc D T0 (fun p => r3) /\ rc D T0 (fun p => psi) /\ rc D T0 (fun p => E_ (fst p)) /\ rc D T0 (fun p => H_ (fst p)) /\ cc D T0 (fun p => V) /\ cc D T0 (fun p => (snd p + X_ (fst p))%C).
Proof.
  cbv zeta. assert (Ht : rc (dist2 right r0) (0, r0) (fun p => fst p)).
  { apply rc_le. intros p. pose proof (right_abs (fst p)). pose proof (Cmod_ge_0 (snd p - r0)%C). unfold dist2. cbn [fst] in *. lra. }
  assert (Hz : cc (dist2 right r0) (0, r0) (fun p => snd p)).
  { apply cc_le. intros p. pose proof (right_abs (fst p)). pose proof (Rabs_pos (fst p - 0)). unfold dist2. cbn [snd]. lra. }
  assert (N : 1 + q + fst (0, r0) <> 0) by (cbn [fst]; lra).
  assert (HE : rc (dist2 right r0) (0, r0) (fun p => E_ (fst p))) by (unfold E_; repeat first [assumption | rcc]).
  assert (HH : rc (dist2 right r0) (0, r0) (fun p => H_ (fst p))) by (unfold H_; repeat first [assumption | rcc]).
  assert (A1 : rc (dist2 right r0) (0, r0) (fun p => a)) by rcc. assert (A2 : rc (dist2 right r0) (0, r0) (fun p => r3)) by rcc. assert (A3 : rc (dist2 right r0) (0, r0) (fun p => psi)) by rcc.
  repeat (split; [first [assumption | rcc]|]).
  assert (HX : cc (dist2 right r0) (0, r0) (fun p => X_ (fst p))) by (unfold X_; apply (shift_cont _ _ (fun p => a) (fun p => r3) (fun p => psi) (fun p => E_ (fst p)) (fun p => H_ (fst p))); auto).
  apply (cc_plus _ _ (fun p => snd p) (fun p => X_ (fst p))); auto.
Qed.
Lemma third_K : lc right 0 K.
Proof.
  assert (Z : Cmod (RtoC 0 - RtoC 0)%C = 0) by (replace (RtoC 0 - RtoC 0)%C with (RtoC 0) by ring; apply Cmod_0).
  apply (lc_drop right 0 (RtoC 0) K Z). destruct (third_lift (RtoC 0)) as (HA & HR & HF & HE & HH & HV & HZ). unfold K.
  apply (coeffs3_cont _ _ (fun p => a) (fun p => r3) (fun p => psi) (fun p => E_ (fst p)) (fun p => H_ (fst p)) (fun p => V)); auto.
Qed.
Lemma third_joint r0 : let z0 := (r0 + X_ 0)%C in (z0 - RtoC a)%C <> RtoC 0 -> (z0 + RtoC a)%C <> RtoC 0 -> (z0 - p3)%C <> RtoC 0 ->
  let rho := Cmod (lens_eq3 a r3 psi (E_ 0) (H_ 0) z0 - V)%C in rho <> 1e-3 -> (rho < 1e-3 -> det_jac3 a r3 psi (E_ 0) (H_ 0) z0 <> 0) -> joint_to right g (g 0) r0.
Proof.
  intros z0 O1 O2 O3 rho Hn Hd. apply joint_of. destruct (third_lift r0) as (HA & HR & HF & HE & HH & HV & HY). destruct (conj_pm _ _ O1 O2) as (M1 & M2).
  assert (M3 : (Cconj z0 - Cconj (third_lens r3 psi))%C <> RtoC 0) by (intros E; apply O3; apply Cconj_inj; rewrite Cconj_minus, Cconj_RtoC; exact E).
  unfold g. apply (term_cont (dist2 right r0) (0, r0) (fun p => Cmod (lens_eq3 a r3 psi (E_ (fst p)) (H_ (fst p)) (snd p + X_ (fst p))%C - V)%C) (fun p => det_jac3 a r3 psi (E_ (fst p)) (H_ (fst p)) (snd p + X_ (fst p))%C)); auto.
  - assert (L : cc (dist2 right r0) (0, r0) (fun p => lens_eq3 a r3 psi (E_ (fst p)) (H_ (fst p)) (snd p + X_ (fst p))%C))
      by (apply (lens3_cont _ _ (fun p => a) (fun p => r3) (fun p => psi) (fun p => E_ (fst p)) (fun p => H_ (fst p)) (fun p => (snd p + X_ (fst p))%C)); auto).
    apply (rc_mod _ _ (fun p => lens_eq3 a r3 psi (E_ (fst p)) (H_ (fst p)) (snd p + X_ (fst p))%C - V)%C), (cc_minus _ _ (fun p => lens_eq3 a r3 psi (E_ (fst p)) (H_ (fst p)) (snd p + X_ (fst p))%C) (fun p => V)); auto.
  - apply (det3_cont _ _ (fun p => a) (fun p => r3) (fun p => psi) (fun p => E_ (fst p)) (fun p => H_ (fst p)) (fun p => (snd p + X_ (fst p))%C)); auto.
Qed.
Lemma third_lens0 z : lens_eq3 a r3 psi (E_ 0) (H_ 0) z = lens_eq2 a e z /\ det_jac3 a r3 psi (E_ 0) (H_ 0) z = det_jac2 a e z.
Proof.
  rewrite E0, H0. unfold lens_eq3, lens_eq2, det_jac3, det_jac2. cbv zeta. replace (1 - e - (1 - e)) with 0 by ring. split.
  - unfold Cdiv. ring.
  - do 2 f_equal. f_equal. unfold Cdiv. ring.
Qed.
(** near the third lens a root that passes the mask pulls the third lens: [c < |m3 / (z - p3)|] *)
Let strong c := nbh (dist2 right (p3 - X_ 0)%C) (fun p => 0 < fst p -> let z := (snd p + X_ (fst p))%C in peval (K (fst p)) (snd p) = RtoC 0 ->
  Cmod (lens_eq3 a r3 psi (E_ (fst p)) (H_ (fst p)) z - V)%C < 1e-3 -> c < Cmod (RtoC (1 - E_ (fst p) - H_ (fst p)) / (Cconj z - Cconj p3))%C).
Lemma strong_gap : 1e-3 < Cmod (lens_eq2 a e p3 - V)%C -> exists c, 0 < c /\ strong c.
Proof.
  intros Hgap. set (r0 := (p3 - X_ 0)%C). destruct (third_lift r0) as (HA & HR & HF & HE & HH & HV & HY).
  assert (Y0 : (r0 + X_ 0)%C = p3) by (unfold r0; ring). destruct (conj_pm _ _ P1 P2) as (M1 & M2).
  assert (N1 : (Cconj (snd (0, r0) + X_ (fst (0, r0))) - RtoC a)%C <> RtoC 0) by (cbn [fst snd]; rewrite Y0; exact M1).
  assert (N2 : (Cconj (snd (0, r0) + X_ (fst (0, r0))) + RtoC a)%C <> RtoC 0) by (cbn [fst snd]; rewrite Y0; exact M2).
  set (y := fun p : R * C => (snd p + X_ (fst p))%C) in *. assert (HY' : cc (dist2 right r0) (0, r0) (fun p => y p)) by exact HY.
  set (G := Cmod (lens_eq2 a e p3 - V)%C) in *. exists ((G - 1e-3) / 2). split; [lra|]. set (c := (G - 1e-3) / 2).
  set (rest := fun p : R * C => (y p - RtoC (E_ (fst p)) / (Cconj (y p) - RtoC a) - RtoC (H_ (fst p)) / (Cconj (y p) + RtoC a) - V)%C).
  assert (C1 : rc (dist2 right r0) (0, r0) (fun p => Cmod (rest p))) by (unfold rest; repeat first [assumption | rcc]).
  assert (V1 : Cmod (rest (0, r0)) = G). { unfold rest, G, y. cbn [fst snd]. rewrite Y0, E0, H0. reflexivity. }
  assert (X1 : 1e-3 + c < Cmod (rest (0, r0))) by (rewrite V1; unfold c; lra).
  unfold strong. fold r0. eapply nbh_imp; [|exact (rc_above _ _ _ _ C1 X1)]. intros p K1. cbv beta. intros _ _ Em. unfold rest in K1. change (snd p + X_ (fst p))%C with (y p) in *. set (z := y p) in *. unfold lens_eq3 in Em. cbv zeta in Em. fold p3 in Em.
  set (u := (RtoC (1 - E_ (fst p) - H_ (fst p)) / (Cconj z - Cconj p3))%C) in *. set (v := (RtoC (E_ (fst p)) / (Cconj z - RtoC a))%C) in *. set (v' := (RtoC (H_ (fst p)) / (Cconj z + RtoC a))%C) in *.
  pose proof (Cmod_triangle (z - v - v' - u - V)%C u) as Tr. replace (z - v - v' - u - V + u)%C with (z - v - v' - V)%C in Tr by ring. lra.
Qed.
Lemma strong_root : peval (poly_coeffs_binary V a e) p3 <> RtoC 0 -> peval (quad_coeffs a e p3 V) p3 <> RtoC 0 -> exists c, 0 < c /\ strong c.
Proof.
  intros R2 Rq. set (r0 := (p3 - X_ 0)%C). destruct (third_lift r0) as (HA & HR & HF & HE & HH & HV & HY).
  assert (Y0 : (r0 + X_ 0)%C = p3) by (unfold r0; ring). 
  set (D := dist2 (dist2 right r0) (RtoC 0)). set (T0 := ((0, r0), RtoC 0)).
  assert (Up : forall u : R * C -> C, cc (dist2 right r0) (0, r0) u -> cc D T0 (fun p => u (fst p))).
  { intros u Hu ep Hep. destruct (Hu ep Hep) as (d & Hd & Kd). exists d. split; auto. intros p Hp. apply (Kd (fst p)). unfold D in Hp. unfold dist2 at 1 in Hp. pose proof (Cmod_ge_0 (snd p - RtoC 0)%C). lra. }
  assert (Upr : forall u : R * C -> R, rc (dist2 right r0) (0, r0) u -> rc D T0 (fun p => u (fst p))).
  { intros u Hu ep Hep. destruct (Hu ep Hep) as (d & Hd & Kd). exists d. split; auto. intros p Hp. apply (Kd (fst p)). unfold D in Hp. unfold dist2 at 1 in Hp. pose proof (Cmod_ge_0 (snd p - RtoC 0)%C). lra. }
  assert (Hn : cc D T0 (fun p => snd p)).
  { apply cc_le. intros p. pose proof (right_abs (fst (fst p))). pose proof (Rabs_pos (fst (fst p) - 0)). pose proof (Cmod_ge_0 (snd (fst p) - r0)%C). unfold D, dist2, T0. cbn [snd]. lra. }
  pose proof (Up _ HY) as HY'. pose proof (Upr _ HE) as HE'. pose proof (Upr _ HH) as HH'. cbv beta in HY', HE', HH'.
  set (y := fun p : R * C * C => (snd (fst p) + X_ (fst (fst p)))%C) in *. assert (Hy : cc D T0 (fun p => y p)) by exact HY'.
  assert (N1 : (y T0 - RtoC a)%C <> RtoC 0) by (unfold y, T0; cbn [fst snd]; rewrite Y0; exact P1). assert (N2 : (y T0 + RtoC a)%C <> RtoC 0) by (unfold y, T0; cbn [fst snd]; rewrite Y0; exact P2).
  set (tau := fun p : R * C * C => (RtoC (H_ (fst (fst p))) / (y p + RtoC a) + RtoC (E_ (fst (fst p))) / (y p - RtoC a) + snd p)%C).
  assert (Ht : cc D T0 (fun p => tau p)) by (unfold tau; repeat first [assumption | rcc]).
  set (F := fun p : R * C * C => ((y p - V) * ((Cconj V + RtoC a + tau p) * (Cconj V - RtoC a + tau p) * (Cconj (V - p3) + tau p))
    - (RtoC (H_ (fst (fst p))) * (Cconj V - RtoC a + tau p) * (Cconj (V - p3) + tau p) + RtoC (E_ (fst (fst p))) * (Cconj V + RtoC a + tau p) * (Cconj (V - p3) + tau p)
       + RtoC (1 - E_ (fst (fst p)) - H_ (fst (fst p))) * (Cconj V + RtoC a + tau p) * (Cconj V - RtoC a + tau p)))%C).
  assert (HFc : cc D T0 (fun p => F p)) by (unfold F; repeat first [assumption | rcc]).
  assert (F0 : F T0 <> RtoC 0).
  { unfold F, tau, y, T0. cbn [fst snd]. rewrite Y0, E0, H0. replace (1 - e - (1 - e)) with 0 by ring. intros Z. apply (Cmult_neq_0 _ _ Rq R2).
    transitivity (((p3 + RtoC a) * (p3 - RtoC a)) ^ 3 * RtoC 0)%C; [|ring]. rewrite <- Z. unfold quad_coeffs, poly_coeffs_binary. cbv zeta. cbn [peval length]. rewrite Cconj_minus, !RtoC_minus, RtoC_mult. field. auto. }
  assert (HFm : rc D T0 (fun p => Cmod (F p))) by (apply (rc_mod D T0 (fun p => F p)); exact HFc). assert (F1 : 0 < Cmod (F T0)) by (now apply Cmod_gt_0).
  assert (Ga : rc D T0 (fun p => Cmod (y p - RtoC a)%C)) by (repeat first [assumption | rcc]). assert (Gb : rc D T0 (fun p => Cmod (y p + RtoC a)%C)) by (repeat first [assumption | rcc]).
  assert (Ga1 : 0 < Cmod (y T0 - RtoC a)%C) by (now apply Cmod_gt_0). assert (Gb1 : 0 < Cmod (y T0 + RtoC a)%C) by (now apply Cmod_gt_0).
  destruct (nbh_and _ _ _ (rc_above _ _ _ _ HFm F1) (nbh_and _ _ _ (rc_above _ _ _ _ Ga Ga1) (rc_above _ _ _ _ Gb Gb1))) as (d & Hd & Kd). exists (d / 2). split; [lra|]. unfold strong. fold r0. exists (d / 2). split; [lra|]. intros [t r] Hp. cbn [fst snd]. intros Pt HK _. set (z := (r + X_ t)%C).
  destruct (third_m3 t Pt) as (Pm & _). set (m3 := 1 - E_ t - H_ t) in *.
  destruct (Rle_lt_dec (Cmod (RtoC m3 / (Cconj z - Cconj p3))%C) (d / 2)) as [L|L]; auto. exfalso.
  assert (Nr : RtoC m3 <> RtoC 0) by (apply RtoC_neq0; lra).
  pose proof (triple_Hcm a (E_ t) (H_ t) r3 psi) as Hc. fold p3 in Hc. fold (X_ t) m3 in Hc. assert (Hm : H_ t + E_ t + m3 = 1) by (unfold m3; ring).
  unfold K, poly_coeffs_triple_CM in HK. fold (X_ t) in HK. cbv zeta in HK. cbn [fst] in HK. fold m3 in HK.
  assert (Nz : (z - p3)%C <> RtoC 0).
  { intros Z. assert (Er : r = (p3 - X_ t)%C) by (replace r with (z - p3 + (p3 - X_ t))%C by (unfold z; ring); rewrite Z; ring). rewrite Er in HK. rewrite (triple_at_c3 (V - X_ t)%C (- RtoC a - X_ t)%C (RtoC a - X_ t)%C (p3 - X_ t)%C (H_ t) (E_ t) m3 Hm Hc) in HK.
    revert HK. apply Cmult_neq_0; [intros Z2; apply W3; replace (V - p3)%C with (- (p3 - X_ t - (V - X_ t)))%C by ring; rewrite Z2; ring|]. apply Cpow_neq0. repeat apply Cmult_neq_0; auto.
    - intros Z2. apply P2. rewrite <- Z2. ring.
    - intros Z2. apply P1. rewrite <- Z2. ring. }
  set (v := (RtoC m3 / (z - p3))%C). assert (Mv : Cmod v = Cmod (RtoC m3 / (Cconj z - Cconj p3))%C). { unfold v. rewrite <- Cconj_minus, !Cmod_div by (auto; now apply Cconj_neq0). now rewrite Cmod_conj. }
  destruct (Kd ((t, r), v)) as (KF & K1 & K2). { unfold D. unfold dist2 at 1. cbn [fst snd]. replace (v - RtoC 0)%C with v by ring. rewrite Mv. lra. }
  unfold y in K1, K2. cbn [fst snd] in K1, K2. fold z in K1, K2.
  assert (O1 : (z - RtoC a)%C <> RtoC 0) by (intros Z; rewrite Z, Cmod_0 in K1; lra). assert (O2 : (z + RtoC a)%C <> RtoC 0) by (intros Z; rewrite Z, Cmod_0 in K2; lra).
  assert (Q1 : (r - (- RtoC a - X_ t))%C = (z + RtoC a)%C) by (unfold z; ring). assert (Q2 : (r - (RtoC a - X_ t))%C = (z - RtoC a)%C) by (unfold z; ring). assert (Q3 : (r - (p3 - X_ t))%C = (z - p3)%C) by (unfold z; ring).
  rewrite (triple_poly_zeta (V - X_ t)%C (- RtoC a - X_ t)%C (RtoC a - X_ t)%C (p3 - X_ t)%C (H_ t) (E_ t) m3 Hm Hc r) in HK by (first [rewrite Q1 | rewrite Q2 | rewrite Q3]; assumption).
  rewrite Q1, Q2, Q3 in HK. assert (F2 : F ((t, r), v) = RtoC 0).
  { match type of HK with (?x * ?y = _)%C => assert (Hx : x <> RtoC 0); [|assert (Hy0 : y = RtoC 0)] end.
    - apply Cpow_neq0. rewrite polyH_fact, Q1, Q2, Q3. repeat apply Cmult_neq_0; auto.
    - destruct (Ceq_dec (F (t, r, v)) (RtoC 0)) as [Z|Z]; match type of HK with (?x * ?y = _)%C => destruct (Ceq_dec y (RtoC 0)) as [Z'|Z']; [exact Z'|exfalso; exact (Cmult_neq_0 _ _ Hx Z' HK)] end.
    - rewrite <- Hy0. unfold F, tau, y. cbn [fst snd]. fold z m3 v.
      replace (Cconj (V - X_ t - (- RtoC a - X_ t)))%C with (Cconj V + RtoC a)%C by (rewrite <- (Cconj_RtoC a), <- Cconj_plus; f_equal; rewrite Cconj_RtoC; ring).
      replace (Cconj (V - X_ t - (RtoC a - X_ t)))%C with (Cconj V - RtoC a)%C by (rewrite <- (Cconj_RtoC a), <- Cconj_minus; f_equal; rewrite Cconj_RtoC; ring).
      replace (Cconj (V - X_ t - (p3 - X_ t)))%C with (Cconj (V - p3))%C by (f_equal; ring). replace (r - (V - X_ t))%C with (z - V)%C by (unfold z; ring). reflexivity. }
  rewrite F2, Cmod_0 in KF. lra.
Qed.
(** and such roots fade *)
Lemma third_fades c eps : 0 < c -> strong c -> 0 < eps -> exists d, 0 < d /\ forall t r, right t < d -> Cmod (r - (p3 - X_ 0))%C < d -> peval (K t) r = RtoC 0 -> Rabs (g t r - 0) < eps.
Proof.
  intros Pc Hstr Hep. set (r0 := (p3 - X_ 0)%C). destruct (third_lift r0) as (HA & HR & HF & HE & HH & HV & HY).
  assert (Y0 : (r0 + X_ 0)%C = p3) by (unfold r0; ring). destruct (conj_pm _ _ P1 P2) as (M1 & M2).
  assert (N1 : (Cconj (snd (0, r0) + X_ (fst (0, r0))) - RtoC a)%C <> RtoC 0) by (cbn [fst snd]; rewrite Y0; exact M1).
  assert (N2 : (Cconj (snd (0, r0) + X_ (fst (0, r0))) + RtoC a)%C <> RtoC 0) by (cbn [fst snd]; rewrite Y0; exact M2).
  set (y := fun p : R * C => (snd p + X_ (fst p))%C) in *. assert (HY' : cc (dist2 right r0) (0, r0) (fun p => y p)) by exact HY.
  set (sr := fun p : R * C => (RtoC (E_ (fst p)) / (Cconj (y p) - RtoC a) ^ 2 + RtoC (H_ (fst p)) / (Cconj (y p) + RtoC a) ^ 2)%C).
  assert (C2 : rc (dist2 right r0) (0, r0) (fun p => Cmod (sr p))) by (unfold sr; repeat first [assumption | rcc]; apply Cpow_neq0; assumption).
  set (B := Cmod (sr (0, r0))).
  assert (X2 : B < B + 1) by lra.
  destruct (nbh_and _ _ _ Hstr (rc_below _ _ _ (B + 1) C2 X2)) as (d & Hd & Kd).
  set (M := B + 1 + 2 + 1 / eps). assert (I : 0 < 1 / eps) by (apply Rdiv_lt_0_compat; lra). assert (B0 : 0 <= B) by apply Cmod_ge_0. assert (PM : 0 < M) by (unfold M; lra).
  assert (Pd : 0 < c * c / M) by (apply Rdiv_lt_0_compat; nra).
  set (d' := Rmin (d / 2) (Rmin 1 (c * c / M))). assert (D1 : d' <= d / 2) by apply Rmin_l. assert (D2 : d' <= 1) by (eapply Rle_trans; [apply Rmin_r|apply Rmin_l]). assert (D3 : d' <= c * c / M) by (eapply Rle_trans; [apply Rmin_r|apply Rmin_r]).
  exists d'. split; [repeat apply Rmin_glb_lt; lra|]. intros t r Ht Hz HK. destruct (right_pos t d' Ht D2) as (Q0 & Q1).
  destruct (Kd (t, r)) as (K1 & K2). { unfold dist2. cbn [fst snd]. change (right t + Cmod (r - r0)%C < d). change (Cmod (r - r0)%C < d') in Hz. lra. } unfold sr in K2. set (z := y (t, r)) in *. cbn [fst snd] in K1, K2. change (r + X_ t)%C with z in K1. cbv zeta in K1.
  unfold g. change (r + X_ t)%C with z. destruct (Rltb (Cmod (lens_eq3 a r3 psi (E_ t) (H_ t) z - V)%C) 1e-3) eqn:Em.
  2:{ unfold term. rewrite Em, Rmult_0_r, Rminus_0_r, Rabs_R0. lra. }
  pose proof Em as Em'. apply Rltb_true in Em'. pose proof (K1 Q0 HK Em') as Hu. set (m3 := 1 - E_ t - H_ t) in *. set (u := (RtoC m3 / (Cconj z - Cconj p3))%C) in *.
  assert (Hm3 : 0 < m3 <= t) by (now apply third_m3).
  assert (Hy : (Cconj z - Cconj p3)%C <> RtoC 0). { intros Y. unfold u in Hu. rewrite Y in Hu. unfold Cdiv in Hu. rewrite Cmod_mult in Hu. rewrite Cinv_00, Cmod_0 in Hu. lra. }
  unfold det_jac3. cbv zeta. fold p3 m3. set (s2 := (RtoC (E_ t) / (Cconj z - RtoC a) ^ 2 + RtoC (H_ t) / (Cconj z + RtoC a) ^ 2)%C) in *. set (s3 := (RtoC m3 / (Cconj z - Cconj p3) ^ 2)%C). apply small_term; auto.
  assert (Mu : Cmod s3 = Cmod u * Cmod u / m3).
  { unfold s3, u. rewrite !Cmod_div by (auto; apply Cpow_neq0; auto). rewrite Cmod_pow, Cmod_R, Rabs_pos_eq by lra. field. split; [|lra]. apply Rgt_not_eq. now apply Cmod_gt_0. }
  assert (Big : M <= Cmod u * Cmod u / m3).
  { apply (Rmult_le_reg_r m3); [lra|]. unfold Rdiv. rewrite Rmult_assoc, Rinv_l, Rmult_1_r by lra. assert (Z : M * m3 <= M * (c * c / M)) by (apply Rmult_le_compat_l; lra). replace (M * (c * c / M)) with (c * c) in Z by (field; lra). nra. }
  pose proof (Cmod_triangle (s2 + s3)%C (- s2)%C) as Tr. replace (s2 + s3 + - s2)%C with s3 in Tr by ring. rewrite Mu, Cmod_opp in Tr. unfold M in Big. lra.
Qed.
(** the limit: the terms of the roots of the two-lens polynomial, and of the two roots of the quadratic factor *)
Let g2 (tol : R) (z : C) := term (Cmod (lens_eq2 a e z - V)%C) (det_jac2 a e z) tol.
Theorem third_tends pr rs ts : splits (poly_coeffs_binary V a e) rs -> splits (quad_coeffs a e p3 V) ts ->
  1e-3 < Cmod (lens_eq2 a e p3 - V)%C \/ ~ In p3 (rs ++ ts) ->
  (forall z, In z (rs ++ ts) -> let rho := Cmod (lens_eq2 a e z - V)%C in rho <> 1e-3 /\ (rho < 1e-3 -> det_jac2 a e z <> 0)) ->
  forall eps, 0 < eps -> exists d, 0 < d /\ forall t p, 0 < t < d -> p_s p = Some s -> p_q p = Some q -> p_q3 p = Some t -> p_r3 p = Some r3 -> p_psi p = Some psi -> splits (K t) (pr (K t) None) ->
  exists A, mag_point_source pr 3 p w = Ok A /\ Rabs (A - (sumR (map (g2 1e-3) rs) + sumR (map (g2 1e-3) ts))) < eps.
Proof.
  intros Hrs Hts Hp3 Hz eps Hep.
  assert (Hp : forall r, g 0 r = g2 1e-3 (r + X_ 0)%C). { intros r. unfold g, g2. destruct (third_lens0 (r + X_ 0)%C) as (-> & ->). reflexivity. }
  assert (K0 : K 0 = fst (poly_coeffs_triple_CM V a p3 e (1 - e))) by (unfold K; now rewrite E0, H0).
  assert (X0 : X_ 0 = triple_shift_cm a p3 e (1 - e)) by (unfold X_; now rewrite E0, H0).
  set (rs0 := map (fun z => z - X_ 0)%C (rs ++ ts ++ [p3; p3; p3])).
  assert (S0 : splits (K 0) rs0). { unfold rs0. rewrite K0, X0. now apply massless_splits. }
  assert (Hd0 : hd (RtoC 0) (K 0) <> RtoC 0). { rewrite K0. unfold p3. rewrite massless_hd. apply Cmult_neq_0; [|exact (p0_neq s q w Hq Hw)]. unfold quad_coeffs. cbn [hd]. now apply Cconj_neq0. }
  assert (Off : forall z, In z (rs ++ ts) -> (z - RtoC a)%C <> RtoC 0 /\ (z + RtoC a)%C <> RtoC 0).
  { intros z Hin. apply in_app_or in Hin. destruct Hin as [Hin|Hin].
    - apply (off_binary a e). exact (binary_roots_off (fun _ _ => rs) s q w Hs Hq Hw Hrs z Hin).
    - destruct (quad_rho a e r3 psi V z He Na) as (Q1 & Q2 & _); auto. apply (splits_root _ _ _ Hts); [|exact Hin]. unfold quad_coeffs. cbn [hd]. now apply Cconj_neq0. }
  assert (Hdq : hd (RtoC 0) (quad_coeffs a e p3 V) <> RtoC 0) by (unfold quad_coeffs; cbn [hd]; now apply Cconj_neq0).
  assert (Str : exists c, 0 < c /\ strong c).
  { destruct Hp3 as [G|N]; [now apply strong_gap|]. apply strong_root; intros Z; apply N, in_or_app; [left; apply (splits_root _ _ _ Hrs (p0_neq s q w Hq Hw)); exact Z|right; apply (splits_root _ _ _ Hts Hdq); exact Z]. }
  destruct Str as (c & Pc & Str). set (h := fun r => if Ceq_dec (r + X_ 0)%C p3 then 0 else g 0 r).
  assert (Hh : forall z, In z (rs ++ ts) -> h (z - X_ 0)%C = g2 1e-3 z).
  { intros z Hin. unfold h. assert (Ez : (z - X_ 0 + X_ 0)%C = z) by ring. rewrite Hp, !Ez. destruct (Ceq_dec z p3) as [->|]; auto. destruct Hp3 as [G|N]; [|contradiction].
    unfold g2, term. destruct (Rltb (Cmod (lens_eq2 a e p3 - V)%C) 1e-3) eqn:E; [apply Rltb_true in E; lra|ring]. }
  assert (Jp : joint_root right K g h (p3 - X_ 0)%C).
  { intros ep Hep'. destruct (third_fades c ep Pc Str Hep') as (d & Hd & Kd). exists d. split; auto. intros t r Ht Hr HK. unfold h. destruct (Ceq_dec (p3 - X_ 0 + X_ 0)%C p3) as [_|N]; [now apply Kd|]. elim N. ring. }
  destruct (sum_tends_roots right 0 K g h 10 rs0) with (eps := eps) as (d & Hd & Kd); auto.
  - apply third_K.
  - intros r Hin. unfold rs0 in Hin. apply in_map_iff in Hin. destruct Hin as (z & <- & Hin). destruct (Ceq_dec z p3) as [->|Nz]; auto.
    assert (Hin' : In z (rs ++ ts)). { rewrite app_assoc in Hin. apply in_app_or in Hin. destruct Hin as [Hin|Hin]; auto. cbn in Hin. destruct Hin as [E|[E|[E|[]]]]; now elim Nz. }
    destruct (Off z Hin') as (O1 & O2). destruct (Hz z Hin') as (R1 & R2). assert (Ez : (z - X_ 0 + X_ 0)%C = z) by ring. destruct (third_lens0 z) as (L1 & L2).
    assert (J : joint_to right g (g 0) (z - X_ 0)%C). { apply third_joint; rewrite Ez; auto; [|rewrite L1; auto|rewrite L1, L2; auto]. intros E. apply Nz. now apply Cminus_eq_0. }
    intros ep Hep'. destruct (J ep Hep') as (d & Hd & Kd). exists d. split; auto. intros t r Ht Hr _. unfold h. rewrite Ez. destruct (Ceq_dec z p3); [contradiction|]. now apply Kd.
  - exists (Rmin d 1). split; [apply Rmin_glb_lt; lra|]. intros t p Ht Es Eq E3 Er Ep Hsol. exists (sumR (map (g t) (pr (K t) None))). split.
    + unfold mag_point_source. cbn [Z.eqb Pos.eqb]. rewrite Es, Eq, E3, Er, Ep. cbn [getp]. f_equal. unfold images3.
      unfold poly_coeffs_triple_CM. rewrite sum_inv_terms, map_map. reflexivity.
    + pose proof (Rmin_l d 1). pose proof (Rmin_r d 1). specialize (Kd t (pr (K t) None) ltac:(apply right_of; lra) Hsol).
      replace (sumR (map h rs0)) with (sumR (map (g2 1e-3) rs) + sumR (map (g2 1e-3) ts)) in Kd; auto. unfold rs0. rewrite map_map, app_assoc, (map_app _ (rs ++ ts)), sumR_app.
      rewrite (map_ext_in (fun x => h (x - X_ 0)%C) (g2 1e-3) (rs ++ ts) Hh), map_app, sumR_app. cbn [map sumR]. replace (h (p3 - X_ 0)%C) with 0; [ring|]. unfold h. destruct (Ceq_dec (p3 - X_ 0 + X_ 0)%C p3) as [_|N]; auto. elim N. ring.
Qed.
End Third.
