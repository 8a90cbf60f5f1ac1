(** The point-source magnification of two and three lenses as a continuous function of all its arguments (C75). *)
From Coq Require Import Reals List Lra Lia Permutation ZArith.
From Coquelicot Require Import Complex.
From Verif Require Import Base_R Base_List Base_C M_Utils M_Coeffs M_PointSource S_PointSource S_Poly
  P_Lens P_Poly P_PolyRoots P_PointSource P_Images P_RootsCont P_MagCont.
Import ListNotations.
Local Open Scope R_scope.

(** ** the ingredients, for parameters that are continuous functions of something *)
Section Ingr.
Context {T : Type} (dist : T -> R) (t0 : T).
Notation rc := (rc dist t0). Notation cc := (cc dist t0). Notation lc := (lc dist t0).
Lemma rc_le u : (forall t, Rabs (u t - u t0) <= dist t) -> rc u.
Proof. intros H e He. exists e. split; auto. intros t Ht. eapply Rle_lt_trans; eauto. Qed.
Lemma cc_le u : (forall t, Cmod (u t - u t0)%C <= dist t) -> cc u.
Proof. intros H e He. exists e. split; auto. intros t Ht. eapply Rle_lt_trans; eauto. Qed.

Section Two.
Variables (a e1 : T -> R) (w z : T -> C).
Hypothesis (Ha : rc a) (He : rc e1) (Hw : cc w) (Hz : cc z).
Lemma coeffs2_cont : lc (fun t => poly_coeffs_binary (w t) (a t) (e1 t)).
Proof. unfold poly_coeffs_binary. cbv zeta. repeat first [assumption | rcc]. Qed.
Hypothesis (N1 : (Cconj (z t0) - RtoC (a t0))%C <> RtoC 0) (N2 : (Cconj (z t0) + RtoC (a t0))%C <> RtoC 0).
Lemma lens2_cont : cc (fun t => lens_eq2 (a t) (e1 t) (z t)).
Proof. unfold lens_eq2. cbv zeta. repeat first [assumption | rcc]. Qed.
Lemma det2_cont : rc (fun t => det_jac2 (a t) (e1 t) (z t)).
Proof. unfold det_jac2. cbv zeta. repeat first [assumption | rcc]; apply Cpow_neq0; assumption. Qed.
End Two.

Section Three.
Variables (a r3 psi e1 e2 : T -> R) (w z : T -> C).
Hypothesis (Ha : rc a) (Hr : rc r3) (Hp : rc psi) (He1 : rc e1) (He2 : rc e2) (Hw : cc w) (Hz : cc z).
Lemma third_cont : cc (fun t => third_lens (r3 t) (psi t)).
Proof. unfold third_lens, cexpi. repeat first [assumption | rcc]. Qed.
Lemma shift_cont : cc (fun t => triple_shift_cm (a t) (third_lens (r3 t) (psi t)) (e1 t) (e2 t)).
Proof. pose proof third_cont. unfold triple_shift_cm. cbv zeta. repeat first [assumption | rcc]. Qed.
Lemma body_cont (ww c1 c2 c3 m1 m2 m3 : T -> C) : cc ww -> cc c1 -> cc c2 -> cc c3 -> cc m1 -> cc m2 -> cc m3 ->
  lc (fun t => triple_cm_body (ww t) (c1 t) (c2 t) (c3 t) (m1 t) (m2 t) (m3 t)).
Proof. intros. unfold triple_cm_body. cbv zeta. repeat first [assumption | rcc]. Qed.
Lemma coeffs3_cont : lc (fun t => fst (poly_coeffs_triple_CM (w t) (a t) (third_lens (r3 t) (psi t)) (e1 t) (e2 t))).
Proof.
  pose proof third_cont as H3. pose proof shift_cont as Hs. unfold poly_coeffs_triple_CM. cbv zeta. cbn [fst].
  apply (body_cont (fun t => w t - triple_shift_cm (a t) (third_lens (r3 t) (psi t)) (e1 t) (e2 t))%C
    (fun t => - RtoC (a t) - triple_shift_cm (a t) (third_lens (r3 t) (psi t)) (e1 t) (e2 t))%C
    (fun t => RtoC (a t) - triple_shift_cm (a t) (third_lens (r3 t) (psi t)) (e1 t) (e2 t))%C
    (fun t => third_lens (r3 t) (psi t) - triple_shift_cm (a t) (third_lens (r3 t) (psi t)) (e1 t) (e2 t))%C
    (fun t => RtoC (e2 t)) (fun t => RtoC (e1 t)) (fun t => RtoC (1 - e1 t - e2 t))); repeat first [assumption | rcc].
Qed.
Hypothesis (N1 : (Cconj (z t0) - RtoC (a t0))%C <> RtoC 0) (N2 : (Cconj (z t0) + RtoC (a t0))%C <> RtoC 0).
Hypothesis N3 : (Cconj (z t0) - Cconj (third_lens (r3 t0) (psi t0)))%C <> RtoC 0.
Lemma lens3_cont : cc (fun t => lens_eq3 (a t) (r3 t) (psi t) (e1 t) (e2 t) (z t)).
Proof. pose proof third_cont as H3. unfold lens_eq3. cbv zeta. repeat first [assumption | rcc]. Qed.
Lemma det3_cont : rc (fun t => det_jac3 (a t) (r3 t) (psi t) (e1 t) (e2 t) (z t)).
Proof. pose proof third_cont as H3. unfold det_jac3. cbv zeta. repeat first [assumption | rcc]; apply Cpow_neq0; assumption. Qed.
End Three.
End Ingr.

(** ** one masked term of the sum *)
Definition term (rho det tol : R) : R := 1 / Rabs det * (if Rltb rho tol then 1 else 0).
Lemma term_cont {T} (dist : T -> R) t0 rho det tol : rc dist t0 rho -> rc dist t0 det -> rho t0 <> tol -> (rho t0 < tol -> det t0 <> 0) -> rc dist t0 (fun t => term (rho t) (det t) tol).
Proof.
  intros Hr Hd Hn H0. destruct (Rlt_dec (rho t0) tol) as [L|G].
  - apply (rc_ext _ _ (fun t => 1 / Rabs (det t))).
    + unfold term. apply Rltb_true in L. rewrite L. ring.
    + eapply nbh_imp; [|exact (rc_below _ _ _ _ Hr L)]. intros t Ht. cbv beta in *. unfold term. apply Rltb_true in Ht. rewrite Ht. ring.
    + specialize (H0 L). repeat first [assumption | rcc]. now apply Rabs_no_R0.
  - assert (L : tol < rho t0) by lra. assert (Z : forall t, tol < rho t -> term (rho t) (det t) tol = 0).
    { intros t Ht. unfold term. destruct (Rltb (rho t) tol) eqn:E; [apply Rltb_true in E; lra|ring]. }
    apply (rc_ext _ _ (fun _ => 0)); [symmetry; auto| |rcc]. eapply nbh_imp; [|exact (rc_above _ _ _ _ Hr L)]. intros t Ht. symmetry. now apply Z.
Qed.
Lemma sum_inv_terms det (lens : C -> C) w tol rs : sum_inv_det det (rs, map (fun z => Rltb (Cmod (lens z - w)%C) tol) rs) = sumR (map (fun z => term (Cmod (lens z - w)%C) (det z) tol) rs).
Proof. unfold sum_inv_det, term; cbn [fst snd]. induction rs as [|r rs IH]; cbn; [reflexivity|]. now rewrite IH. Qed.

(** from a distance on the parameters to one on parameters and position *)
Definition dist2 {T} (dist : T -> R) (z0 : C) (p : T * C) : R := dist (fst p) + Cmod (snd p - z0)%C.
Lemma joint_of {T} (dist : T -> R) t0 g z0 : rc (dist2 dist z0) (t0, z0) (fun p => g (fst p) (snd p)) -> joint_to dist g (g t0) z0.
Proof.
  intros H e He. destruct (H e He) as (d & Hd & K). exists (d / 2). split; [lra|]. intros t z Ht Hz.
  apply (K (t, z)). unfold dist2; cbn. lra.
Qed.

(** ** two lenses *)
Section Binary.
Variables (s0 q0 : R) (w0 : C).
Hypothesis (Hs : s0 <> 0) (Hq : 0 < q0) (Hw : off_lens_positions (binary_lens s0 q0) w0).
Let P2 := (R * R * C)%type.
Let S_ (t : P2) := fst (fst t). Let Q_ (t : P2) := snd (fst t). Let W_ (t : P2) := snd t.
Let d2 (t : P2) := Rabs (S_ t - s0) + Rabs (Q_ t - q0) + Cmod (W_ t - w0)%C.
Let t0 : P2 := (s0, q0, w0).
Let A_ (t : P2) := 0.5 * S_ t. Let E_ (t : P2) := Q_ t / (1 + Q_ t).
Let V_ (t : P2) := (W_ t - RtoC (x_cm (A_ t) (Q_ t)))%C.
Let K (t : P2) := poly_coeffs_binary (V_ t) (A_ t) (E_ t).
Let g (t : P2) (z : C) := term (Cmod (lens_eq2 (A_ t) (E_ t) z - V_ t)%C) (det_jac2 (A_ t) (E_ t) z) 1e-6.

Lemma lift_params z0 : let D := dist2 d2 z0 in let T0 := (t0, z0) in
  rc D T0 (fun p => A_ (fst p)) /\ rc D T0 (fun p => E_ (fst p)) /\ cc D T0 (fun p => V_ (fst p)) /\ cc D T0 (fun p => snd p).
Proof.
  cbv zeta. pose proof (fun x => Rabs_pos (S_ x - s0)) as Ps. pose proof (fun x => Rabs_pos (Q_ x - q0)) as Pq.
  pose proof (fun x => Cmod_ge_0 (W_ x - w0)%C) as Pw. pose proof (fun x : P2 * C => Cmod_ge_0 (snd x - z0)%C) as Pz.
  assert (Hrs : rc (dist2 d2 z0) (t0, z0) (fun p => S_ (fst p))).
  { apply rc_le. intros p. specialize (Ps (fst p)). specialize (Pq (fst p)). specialize (Pw (fst p)). specialize (Pz p). unfold dist2, d2. change (S_ (fst (t0, z0))) with s0. lra. }
  assert (Hrq : rc (dist2 d2 z0) (t0, z0) (fun p => Q_ (fst p))).
  { apply rc_le. intros p. specialize (Ps (fst p)). specialize (Pq (fst p)). specialize (Pw (fst p)). specialize (Pz p). unfold dist2, d2. change (Q_ (fst (t0, z0))) with q0. lra. }
  assert (Hcw : cc (dist2 d2 z0) (t0, z0) (fun p => W_ (fst p))).
  { apply cc_le. intros p. specialize (Ps (fst p)). specialize (Pq (fst p)). specialize (Pw (fst p)). specialize (Pz p). unfold dist2, d2. change (W_ (fst (t0, z0))) with w0. lra. }
  assert (Hcz : cc (dist2 d2 z0) (t0, z0) (fun p => snd p)).
  { apply cc_le. intros p. specialize (Ps (fst p)). specialize (Pq (fst p)). specialize (Pw (fst p)). unfold dist2, d2. cbn [snd]. lra. }
  assert (HA : rc (dist2 d2 z0) (t0, z0) (fun p => A_ (fst p))) by (unfold A_; repeat first [assumption | rcc]).
  assert (N : 1 + Q_ (fst (t0, z0)) <> 0) by (change (1 + q0 <> 0); lra).
  split; [exact HA|]. split; [unfold E_; repeat first [assumption | rcc]|]. split; [|exact Hcz].
  unfold V_, x_cm. repeat first [assumption | rcc].
Qed.
Lemma joint2 z0 : off_masses (binary_mid (A_ t0) (E_ t0)) z0 -> let rho := Cmod (lens_eq2 (A_ t0) (E_ t0) z0 - V_ t0)%C in
  rho <> 1e-6 -> (rho < 1e-6 -> det_jac2 (A_ t0) (E_ t0) z0 <> 0) -> joint_to d2 g (g t0) z0.
Proof.
  intros Ho rho Hn H0. apply joint_of. destruct (lift_params z0) as (HA & HE & HV & HZ). apply off_binary in Ho. destruct Ho as (O1 & O2). destruct (conj_pm _ _ O1 O2) as (O3 & O4).
  unfold g. apply (term_cont (dist2 d2 z0) (t0, z0) (fun p => Cmod (lens_eq2 (A_ (fst p)) (E_ (fst p)) (snd p) - V_ (fst p))%C) (fun p => det_jac2 (A_ (fst p)) (E_ (fst p)) (snd p))); auto.
  - assert (L : cc (dist2 d2 z0) (t0, z0) (fun p => lens_eq2 (A_ (fst p)) (E_ (fst p)) (snd p))) by (apply (lens2_cont _ _ (fun p => A_ (fst p)) (fun p => E_ (fst p)) (fun p => snd p)); auto).
    repeat first [assumption | rcc].
  - apply (det2_cont _ _ (fun p => A_ (fst p)) (fun p => E_ (fst p)) (fun p => snd p)); auto.
Qed.
Lemma lc_drop {T} (dist : T -> R) b0 z0 u : Cmod (z0 - z0)%C = 0 -> lc (dist2 dist z0) (b0, z0) (fun p => u (fst p)) -> lc dist b0 u.
Proof. intros Hz H e He. destruct (H e He) as (d & Hd & Kd). exists d. split; auto. intros t Ht. apply (Kd (t, z0)). unfold dist2; cbn [fst snd]. lra. Qed.
Lemma K_cont : lc d2 t0 K.
Proof.
  assert (Z : Cmod (RtoC 0 - RtoC 0)%C = 0) by (replace (RtoC 0 - RtoC 0)%C with (RtoC 0) by ring; apply Cmod_0).
  apply (lc_drop d2 t0 (RtoC 0) K Z). destruct (lift_params (RtoC 0)) as (HA & HE & HV & HZ). unfold K. apply (coeffs2_cont _ _ (fun p => A_ (fst p)) (fun p => E_ (fst p)) (fun p => V_ (fst p))); auto.
Qed.
Theorem mag2_cont pr rs : splits (K t0) rs ->
  (forall r, In r rs -> let rho := Cmod (lens_eq2 (A_ t0) (E_ t0) r - V_ t0)%C in rho <> 1e-6 /\ (rho < 1e-6 -> det_jac2 (A_ t0) (E_ t0) r <> 0)) ->
  forall eps, 0 < eps -> exists d, 0 < d /\ forall s q w p, Rabs (s - s0) < d -> Rabs (q - q0) < d -> Cmod (w - w0)%C < d ->
    p_s p = Some s -> p_q p = Some q -> splits (K (s, q, w)) (pr (K (s, q, w)) None) ->
    exists A, mag_point_source pr 2 p w = Ok A /\ Rabs (A - sumR (map (g t0) rs)) < eps.
Proof.
  intros Hsp Hr eps He.
  assert (Hs' : splits (poly_coeffs_binary (w0 - RtoC (x_cm (0.5 * s0) q0))%C (0.5 * s0) (q0 / (1 + q0))) ((fun _ _ => rs) (poly_coeffs_binary (w0 - RtoC (x_cm (0.5 * s0) q0))%C (0.5 * s0) (q0 / (1 + q0))) (@None (list C)))) by exact Hsp.
  destruct (sum_tends d2 t0 K g (g t0) 5 rs) with (eps := eps) as (d & Hd & Kd); auto.
  - exact (p0_neq s0 q0 w0 Hq Hw).
  - apply K_cont.
  - intros r Hin. destruct (Hr r Hin) as (R1 & R2). apply joint2; auto. exact (binary_roots_off (fun _ _ => rs) s0 q0 w0 Hs Hq Hw Hs' r Hin).
  - exists (d / 3). split; [lra|]. intros s q w p H1 H2 H3 Es Eq Hsol. exists (sumR (map (g (s, q, w)) (pr (K (s, q, w)) None))). split.
    + unfold mag_point_source. cbn [Z.eqb Pos.eqb]. rewrite Es, Eq. cbn [getp]. f_equal. unfold images2. rewrite sum_inv_terms. reflexivity.
    + apply Kd; [|exact Hsol]. unfold d2, S_, Q_, W_; cbn [fst snd]. lra.
Qed.
End Binary.

(** ** three lenses *)
Section Triple.
Variables (s0 q0 q30 r30 psi0 : R) (w0 : C).
Let p3u := from_midpoint s0 q0 r30 psi0.
Hypothesis (Hs : s0 <> 0) (Hq : 0 < q0) (Hq3 : 0 < q30).
Hypothesis (Hp3 : p3u <> RtoC (- s0 * q0 / (1 + q0))) (Hp3' : p3u <> RtoC (s0 / (1 + q0))).
Hypothesis Hw : off_lens_positions (triple_lens s0 q0 q30 p3u) w0.
Let P3 := (R * R * R * R * R * C)%type.
Let S_ (t : P3) := fst (fst (fst (fst (fst t)))). Let Q_ (t : P3) := snd (fst (fst (fst (fst t)))).
Let G_ (t : P3) := snd (fst (fst (fst t))). Let R_ (t : P3) := snd (fst (fst t)). Let F_ (t : P3) := snd (fst t). Let W_ (t : P3) := snd t.
Let d3 (t : P3) := Rabs (S_ t - s0) + Rabs (Q_ t - q0) + Rabs (G_ t - q30) + Rabs (R_ t - r30) + Rabs (F_ t - psi0) + Cmod (W_ t - w0)%C.
Let t0 : P3 := (s0, q0, q30, r30, psi0, w0).
Let A_ (t : P3) := 0.5 * S_ t. Let E_ (t : P3) := Q_ t / (1 + Q_ t + G_ t). Let H_ (t : P3) := 1 / (1 + Q_ t + G_ t).
Let V_ (t : P3) := (W_ t - RtoC (x_cm (A_ t) (Q_ t)))%C.
Let X_ (t : P3) := triple_shift_cm (A_ t) (third_lens (R_ t) (F_ t)) (E_ t) (H_ t).
Let K (t : P3) := fst (poly_coeffs_triple_CM (V_ t) (A_ t) (third_lens (R_ t) (F_ t)) (E_ t) (H_ t)).
Let lens (t : P3) (z : C) := lens_eq3 (A_ t) (R_ t) (F_ t) (E_ t) (H_ t) z.
Let det (t : P3) (z : C) := det_jac3 (A_ t) (R_ t) (F_ t) (E_ t) (H_ t) z.
Let g (t : P3) (r : C) := term (Cmod (lens t (r + X_ t)%C - V_ t)%C) (det t (r + X_ t)%C) 1e-3.

Lemma lift_params3 z0 : let D := dist2 d3 z0 in let T0 := (t0, z0) in
  rc D T0 (fun p => A_ (fst p)) /\ rc D T0 (fun p => R_ (fst p)) /\ rc D T0 (fun p => F_ (fst p)) /\ rc D T0 (fun p => E_ (fst p)) /\ rc D T0 (fun p => H_ (fst p)) /\
  cc D T0 (fun p => V_ (fst p)) /\ cc D T0 (fun p => snd p).
Proof.
  cbv zeta.
  assert (B : forall p : P3 * C, Rabs (S_ (fst p) - s0) <= dist2 d3 z0 p /\ Rabs (Q_ (fst p) - q0) <= dist2 d3 z0 p /\ Rabs (G_ (fst p) - q30) <= dist2 d3 z0 p /\
     Rabs (R_ (fst p) - r30) <= dist2 d3 z0 p /\ Rabs (F_ (fst p) - psi0) <= dist2 d3 z0 p /\ Cmod (W_ (fst p) - w0)%C <= dist2 d3 z0 p /\ Cmod (snd p - z0)%C <= dist2 d3 z0 p).
  { intros p. unfold dist2, d3. pose proof (Rabs_pos (S_ (fst p) - s0)). pose proof (Rabs_pos (Q_ (fst p) - q0)). pose proof (Rabs_pos (G_ (fst p) - q30)).
    pose proof (Rabs_pos (R_ (fst p) - r30)). pose proof (Rabs_pos (F_ (fst p) - psi0)). pose proof (Cmod_ge_0 (W_ (fst p) - w0)%C). pose proof (Cmod_ge_0 (snd p - z0)%C). repeat split; lra. }
  assert (Hrs : rc (dist2 d3 z0) (t0, z0) (fun p => S_ (fst p))) by (apply rc_le; intros p; apply B).
  assert (Hrq : rc (dist2 d3 z0) (t0, z0) (fun p => Q_ (fst p))) by (apply rc_le; intros p; apply B).
  assert (Hrg : rc (dist2 d3 z0) (t0, z0) (fun p => G_ (fst p))) by (apply rc_le; intros p; apply B).
  assert (Hrr : rc (dist2 d3 z0) (t0, z0) (fun p => R_ (fst p))) by (apply rc_le; intros p; apply B).
  assert (Hrf : rc (dist2 d3 z0) (t0, z0) (fun p => F_ (fst p))) by (apply rc_le; intros p; apply B).
  assert (Hcw : cc (dist2 d3 z0) (t0, z0) (fun p => W_ (fst p))) by (apply cc_le; intros p; apply B).
  assert (Hcz : cc (dist2 d3 z0) (t0, z0) (fun p => snd p)) by (apply cc_le; intros p; apply B).
  assert (HA : rc (dist2 d3 z0) (t0, z0) (fun p => A_ (fst p))) by (unfold A_; repeat first [assumption | rcc]).
  assert (N : 1 + Q_ (fst (t0, z0)) <> 0) by (change (1 + q0 <> 0); lra).
  assert (N' : 1 + Q_ (fst (t0, z0)) + G_ (fst (t0, z0)) <> 0) by (change (1 + q0 + q30 <> 0); lra).
  split; [exact HA|]. split; [exact Hrr|]. split; [exact Hrf|]. split; [unfold E_; repeat first [assumption | rcc]|]. split; [unfold H_; repeat first [assumption | rcc]|]. split; [|exact Hcz].
  unfold V_, x_cm. repeat first [assumption | rcc].
Qed.
Lemma joint3 r0 : let z0 := (r0 + X_ t0)%C in off_masses (triple_mid (A_ t0) (E_ t0) (H_ t0) (third_lens (R_ t0) (F_ t0))) z0 -> let rho := Cmod (lens t0 z0 - V_ t0)%C in
  rho <> 1e-3 -> (rho < 1e-3 -> det t0 z0 <> 0) -> joint_to d3 g (g t0) r0.
Proof.
  intros z0 Ho rho Hn H0. apply joint_of. destruct (lift_params3 r0) as (HA & HR & HF & HE & HH & HV & HZ).
  assert (HX : cc (dist2 d3 r0) (t0, r0) (fun p => X_ (fst p))).
  { unfold X_. apply (shift_cont _ _ (fun p => A_ (fst p)) (fun p => R_ (fst p)) (fun p => F_ (fst p)) (fun p => E_ (fst p)) (fun p => H_ (fst p))); auto. }
  assert (HY : cc (dist2 d3 r0) (t0, r0) (fun p => (snd p + X_ (fst p))%C)) by (apply (cc_plus _ _ (fun p => snd p) (fun p => X_ (fst p))); auto).
  assert (O1 : z0 <> RtoC (A_ t0)) by (apply (Ho (E_ t0)); cbn; auto).
  assert (O2 : z0 <> RtoC (- A_ t0)) by (apply (Ho (H_ t0)); cbn; auto).
  assert (O3 : z0 <> third_lens (R_ t0) (F_ t0)) by (apply (Ho (1 - E_ t0 - H_ t0)); cbn; auto).
  assert (M1 : (Cconj z0 - RtoC (A_ t0))%C <> RtoC 0).
  { intros E. apply O1. apply Cminus_eq_0 in E. rewrite <- (Cconj_conj z0), E. apply Cconj_RtoC. }
  assert (M2 : (Cconj z0 + RtoC (A_ t0))%C <> RtoC 0).
  { intros E. apply O2. rewrite <- (Cconj_conj z0). replace (Cconj z0) with (RtoC (- A_ t0)); [apply Cconj_RtoC|]. rewrite RtoC_opp. symmetry. apply Cminus_eq_0. rewrite <- E. ring. }
  assert (M3 : (Cconj z0 - Cconj (third_lens (R_ t0) (F_ t0)))%C <> RtoC 0).
  { intros E. apply O3. apply Cminus_eq_0 in E. now rewrite <- (Cconj_conj z0), E, Cconj_conj. }
  unfold g. apply (term_cont (dist2 d3 r0) (t0, r0) (fun p => Cmod (lens (fst p) (snd p + X_ (fst p))%C - V_ (fst p))%C) (fun p => det (fst p) (snd p + X_ (fst p))%C)); auto.
  - assert (L : cc (dist2 d3 r0) (t0, r0) (fun p => lens (fst p) (snd p + X_ (fst p))%C))
      by (unfold lens; apply (lens3_cont _ _ (fun p => A_ (fst p)) (fun p => R_ (fst p)) (fun p => F_ (fst p)) (fun p => E_ (fst p)) (fun p => H_ (fst p)) (fun p => (snd p + X_ (fst p))%C)); auto).
    apply (rc_mod _ _ (fun p => lens (fst p) (snd p + X_ (fst p))%C - V_ (fst p))%C), (cc_minus _ _ (fun p => lens (fst p) (snd p + X_ (fst p))%C) (fun p => V_ (fst p))); auto.
  - unfold det; apply (det3_cont _ _ (fun p => A_ (fst p)) (fun p => R_ (fst p)) (fun p => F_ (fst p)) (fun p => E_ (fst p)) (fun p => H_ (fst p)) (fun p => (snd p + X_ (fst p))%C)); auto.
Qed.
Lemma K3_cont : lc d3 t0 K.
Proof.
  assert (Z : Cmod (RtoC 0 - RtoC 0)%C = 0) by (replace (RtoC 0 - RtoC 0)%C with (RtoC 0) by ring; apply Cmod_0).
  apply (lc_drop d3 t0 (RtoC 0) K Z). destruct (lift_params3 (RtoC 0)) as (HA & HR & HF & HE & HH & HV & HZ). unfold K.
  apply (coeffs3_cont _ _ (fun p => A_ (fst p)) (fun p => R_ (fst p)) (fun p => F_ (fst p)) (fun p => E_ (fst p)) (fun p => H_ (fst p)) (fun p => V_ (fst p))); auto.
Qed.
Theorem mag3_cont pr rs : splits (K t0) rs ->
  (forall r, In r rs -> let z := (r + X_ t0)%C in let rho := Cmod (lens t0 z - V_ t0)%C in rho <> 1e-3 /\ (rho < 1e-3 -> det t0 z <> 0)) ->
  forall eps, 0 < eps -> exists d, 0 < d /\ forall s q q3 r3 psi w p, Rabs (s - s0) < d -> Rabs (q - q0) < d -> Rabs (q3 - q30) < d -> Rabs (r3 - r30) < d -> Rabs (psi - psi0) < d -> Cmod (w - w0)%C < d ->
    p_s p = Some s -> p_q p = Some q -> p_q3 p = Some q3 -> p_r3 p = Some r3 -> p_psi p = Some psi -> splits (K (s, q, q3, r3, psi, w)) (pr (K (s, q, q3, r3, psi, w)) None) ->
    exists A, mag_point_source pr 3 p w = Ok A /\ Rabs (A - sumR (map (g t0) rs)) < eps.
Proof.
  intros Hsp Hr eps He.
  assert (Hs' : splits (K t0) ((fun _ _ => rs) (K t0) (@None (list C)))) by exact Hsp.
  destruct (sum_tends d3 t0 K g (g t0) 10 rs) with (eps := eps) as (d & Hd & Kd); auto.
  - exact (tp0 s0 q0 q30 r30 psi0 w0 Hq Hq3 Hw).
  - apply K3_cont.
  - intros r Hin. destruct (Hr r Hin) as (R1 & R2). apply joint3; auto.
    apply (t_off (fun _ _ => rs) s0 q0 q30 r30 psi0 w0 Hs Hq Hq3 Hp3 Hp3' Hw Hs'). apply in_map_iff. exists r. split; auto.
  - exists (d / 6). split; [lra|]. intros s q q3 r3 psi w p H1 H2 H3 H4 H5 H6 Es Eq E3 Er Ep Hsol. exists (sumR (map (g (s, q, q3, r3, psi, w)) (pr (K (s, q, q3, r3, psi, w)) None))). split.
    + unfold mag_point_source. cbn [Z.eqb Pos.eqb]. rewrite Es, Eq, E3, Er, Ep. cbn [getp]. f_equal. unfold images3.
      unfold poly_coeffs_triple_CM. rewrite sum_inv_terms, map_map. reflexivity.
    + apply Kd; [|exact Hsol]. unfold d3, S_, Q_, G_, R_, F_, W_; cbn [fst snd]. lra.
Qed.
End Triple.
