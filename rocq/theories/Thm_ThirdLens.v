(** A third lens that loses its mass: property C79. *)
From Coq Require Import Reals List Lra Lia ZArith.
From Coquelicot Require Import Complex.
From Verif Require Import Base_R Base_List Base_C M_Utils M_Coeffs M_PointSource S_PointSource S_Poly
  P_Lens P_Poly P_PolyRoots P_PointSource P_Images P_RootsCont P_MagCont P_MagLens P_OneLens P_MagJump P_ThirdLens Thm_PointSource Thm_MagCont.
Import ListNotations.
Local Open Scope R_scope.

(** the limit [A0] of the three-lens value when the third mass goes to zero and everything else stays *)
Definition third_fades_to (poly_roots : list C -> option (list C) -> list C) (s q r3 psi : R) (w : C) (A0 : R) : Prop :=
  forall eps, 0 < eps -> exists d, 0 < d /\ forall q3 p, 0 < q3 < d -> p_s p = Some s -> p_q p = Some q -> p_q3 p = Some q3 -> p_r3 p = Some r3 -> p_psi p = Some psi ->
    solved3 poly_roots s q q3 r3 psi w -> exists A, mag_point_source poly_roots 3 p w = Ok A /\ Rabs (A - A0) < eps.

Lemma rho_frame s q w z : 0 < q -> let c := RtoC (x_cm (0.5 * s) q) in
  (lens_map (binary_lens s q) (z + c) - w = lens_eq2 (0.5 * s) (q / (1 + q)) z - (w - c))%C.
Proof.
  intros Hq c. rewrite (frame_lens _ _ c _ (binary_frame s q ltac:(lra))). replace (z + c - c)%C with z by ring. rewrite lens_eq2_map. ring.
Qed.
Lemma off_frame s q z : 0 < q -> let c := RtoC (x_cm (0.5 * s) q) in off_masses (binary_lens s q) (z + c)%C <-> ((z - RtoC (0.5 * s))%C <> RtoC 0 /\ (z + RtoC (0.5 * s))%C <> RtoC 0).
Proof.
  intros Hq c. rewrite (frame_off _ _ c _ (binary_frame s q ltac:(lra))). replace (z + c - c)%C with z by ring. apply off_binary.
Qed.
Lemma det_frame s q z : 0 < q -> let c := RtoC (x_cm (0.5 * s) q) in off_masses (binary_lens s q) (z + c)%C -> jacobian_det (binary_lens s q) (z + c)%C (det_jac2 (0.5 * s) (q / (1 + q)) z).
Proof.
  intros Hq c Ho. rewrite det_jac2_shear. replace (shear (binary_mid (0.5 * s) (q / (1 + q))) z) with (shear (binary_lens s q) (z + c)%C); [now apply jac_det_shear|].
  rewrite (frame_shear _ _ c _ (binary_frame s q ltac:(lra))). f_equal. ring.
Qed.

(** a third lens without mass leaves the value returned for two lenses.  Partial: every root of the two-lens
    polynomial is inside the two-lens tolerance 1e-6 and not degenerate or outside the three-lens tolerance 1e-3; and
    the third lens is neither at a root nor next to an image, which the last two hypotheses say: no point within 1e-3 of it
    is mapped as far from the source, and in the same direction, as it is from the third lens *)
Theorem C79_third_lens_fades_partial : forall poly_roots s q r3 psi w p2 A0, s <> 0 -> 0 < q ->
  let L := binary_lens s q in let p3 := from_midpoint s q r3 psi in
  off_masses L p3 -> off_lens_positions L w -> w <> p3 ->
  p_s p2 = Some s -> p_q p2 = Some q -> solved2 poly_roots s q w -> mag_point_source poly_roots 2 p2 w = Ok A0 ->
  (forall z, In z (candidates2 poly_roots s q w) -> (Cmod (lens_map L z - w)%C < 1e-6 /\ ~ jacobian_det L z 0) \/ 1e-3 < Cmod (lens_map L z - w)%C) ->
  1e-3 < Cmod (lens_map L p3 - w)%C \/ ~ In p3 (candidates2 poly_roots s q w) ->
  (forall z, off_masses L z -> Cmod (z - p3)%C <= 1e-3 -> (lens_map L z - w)%C <> (z - p3)%C) ->
  forall poly_roots3, third_fades_to poly_roots3 s q r3 psi w A0.
Proof.
  intros pr s q r3 psi w p2 A0 Hs Hq L p3 Op Ow Wp Es Eq Hsol EA Hc Hp Hn pr3 eps He.
  set (c := RtoC (x_cm (0.5 * s) q)) in *. assert (M : p3 = (third_lens r3 psi + c)%C) by (apply from_midpoint_value; lra). set (y3 := third_lens r3 psi) in *.
  assert (O := Op). rewrite M in O. apply (off_frame s q y3 Hq) in O. destruct O as (O1 & O2).
  assert (W3 : (w - c - y3)%C <> RtoC 0) by (intros E; apply Wp; rewrite M; apply Cminus_eq_0; rewrite <- E; ring).
  assert (RF : forall z, (lens_map L (z + c) - w = lens_eq2 (0.5 * s) (q / (1 + q)) z - (w - c))%C) by (exact (fun z => rho_frame s q w z Hq)).
  set (cs := poly_coeffs_binary (w - c)%C (0.5 * s) (q / (1 + q))). set (rs := pr cs None). assert (Srs : splits cs rs) by exact Hsol.
  assert (Hq0 : hd (RtoC 0) (quad_coeffs (0.5 * s) (q / (1 + q)) y3 (w - c)%C) <> RtoC 0) by (unfold quad_coeffs; cbn [hd]; now apply Cconj_neq0).
  destruct (splits_exists _ Hq0) as (ts & Sts).
  assert (He1 : 0 < q / (1 + q) < 1). { split; [apply Rdiv_lt_0_compat; lra|]. apply (Rmult_lt_reg_r (1 + q)); [lra|]. unfold Rdiv. rewrite Rmult_assoc, Rinv_l by lra. lra. }
  assert (Tt : forall t, In t ts -> (t - RtoC (0.5 * s))%C <> RtoC 0 /\ (t + RtoC (0.5 * s))%C <> RtoC 0 /\ (lens_eq2 (0.5 * s) (q / (1 + q)) t - (w - c) = t - y3)%C).
  { intros t Hin. apply quad_rho; auto; [lra|]. apply (splits_in _ _ _ Sts Hin). }
  assert (Tr : forall t, In t ts -> 1e-3 < Cmod (lens_eq2 (0.5 * s) (q / (1 + q)) t - (w - c))%C).
  { intros t Hin. destruct (Tt t Hin) as (T1 & T2 & T3). destruct (Rle_lt_dec (Cmod (lens_eq2 (0.5 * s) (q / (1 + q)) t - (w - c))%C) 1e-3) as [Le|]; auto. exfalso. apply (Hn (t + c)%C).
    - apply (off_frame s q t Hq). auto.
    - rewrite T3 in Le. rewrite M. now replace (t + c - (y3 + c))%C with (t - y3)%C by ring.
    - rewrite RF. rewrite T3, M. ring. }
  assert (Rr : forall r, In r rs -> In (r + c)%C (candidates2 pr s q w)) by (intros r Hin; unfold candidates2; cbv zeta; fold c; fold cs; fold rs; apply in_map_iff; exists r; split; auto).
  destruct (third_tends s q r3 psi w Hs Hq O1 O2 Ow W3 pr3 rs ts Srs Sts) with (eps := eps) as (d & Hd & K); auto.
  - destruct Hp as [G|N].
    + left. rewrite M in G. rewrite RF in G. exact G.
    + right. fold y3. intros Hin. apply in_app_or in Hin. destruct Hin as [Hin|Hin].
      * apply N. rewrite M. now apply Rr.
      * pose proof (Tr y3 Hin) as T. destruct (Tt y3 Hin) as (_ & _ & T3). rewrite T3 in T. replace (y3 - y3)%C with (RtoC 0) in T by ring. rewrite Cmod_0 in T. lra.
  - intros z Hin rho. assert (ER : Cmod (lens_eq2 (0.5 * s) (q / (1 + q)) z - (w - c))%C = rho) by reflexivity. clearbody rho. apply in_app_or in Hin. destruct Hin as [Hin|Hin].
    + pose proof (Hc _ (Rr z Hin)) as H. rewrite RF in H. rewrite ER in H. destruct H as [(H1 & H2)|H]; [|split; [intros E; lra|intros E; lra]]. split; [intros E; lra|]. intros _ Z. apply H2. rewrite <- Z. apply det_frame; auto.
      apply (off_frame s q z Hq). apply (off_binary (0.5 * s) (q / (1 + q))). exact (binary_roots_off pr s q w Hs Hq Ow Hsol z Hin).
    + pose proof (Tr z Hin) as H. rewrite ER in H. split; intros E; lra.
  - exists d. split; auto. intros q3 p Hq3 H1 H2 H3 H4 H5 Hs3. destruct (K q3 p Hq3 H1 H2 H3 H4 H5 Hs3) as (A & EA3 & HA). exists A. split; auto.
    unfold mag_point_source in EA. cbn [Z.eqb Pos.eqb] in EA. rewrite Es, Eq in EA. cbn [getp] in EA. injection EA as EA. unfold images2 in EA. rewrite sum_inv_terms in EA. fold c in EA. fold cs in EA. fold rs in EA.
    fold c in HA. match type of HA with Rabs (_ - (?x + ?y)) < _ => replace x with A0 in HA; [replace y with 0 in HA; [now rewrite Rplus_0_r in HA|]|] end.
    + assert (Z : forall t, In t ts -> term (Cmod (lens_eq2 (0.5 * s) (q / (1 + q)) t - (w - c))%C) (det_jac2 (0.5 * s) (q / (1 + q)) t) 1e-3 = 0).
      { intros t Hin. pose proof (Tr t Hin). unfold term. destruct (Rltb (Cmod (lens_eq2 (0.5 * s) (q / (1 + q)) t - (w - c))%C) 1e-3) eqn:E; [apply Rltb_true in E; lra|ring]. }
      rewrite (map_ext_in _ (fun _ => 0) ts Z). clear. induction ts as [|t ts IH]; cbn [map sumR]; [reflexivity|]. rewrite <- IH. ring.
    + rewrite <- EA. f_equal. apply map_ext_in. intros z Hin. pose proof (Hc _ (Rr z Hin)) as H. rewrite RF in H. unfold term.
      set (rho := Cmod (lens_eq2 (0.5 * s) (q / (1 + q)) z - (w - c))%C) in *. destruct (Rltb rho 1e-6) eqn:E1; destruct (Rltb rho 1e-3) eqn:E2; try reflexivity; exfalso.
      * apply Rltb_true in E1. apply Rltb_false in E2. lra.
      * apply Rltb_true in E2. apply Rltb_false in E1. lra.
Qed.
Print Assumptions C79_third_lens_fades_partial.

(** equal masses, source at the centre, the third lens on the axis at [t1 / (t1^2 - b)] with [b = (s/2)^2]: the exact limit *)
Section Centre.
Variables (s t1 : R).
Let b := 0.5 * s * (0.5 * s). Let r3 := t1 / (t1 * t1 - b). Let u := sqrt (b + 1). Let v := sqrt (b - 1).
Hypothesis (Hs : 2 < s) (Ht : 0 < t1 < 100) (Hb : b < t1 * t1).
Hypothesis (Hr : r3 * r3 <> b) (Hu : r3 <> u) (Hv : r3 <> v) (H1 : r3 <> t1).
Hypothesis (Tv : 2 * v <> 1e-3) (Tt : Rabs (t1 - r3) <> 1e-3) (Dt : central_det b t1 <> 0).
Let rpos : 0 < r3. Proof. unfold r3. apply Rdiv_lt_0_compat; lra. Qed.
Lemma third_real x : third_lens x 0 = RtoC x.
Proof. unfold third_lens, cexpi. rewrite cos_0, sin_0. apply Ceq; cbn; ring. Qed.
Lemma centre_quad : splits (quad_coeffs (0.5 * s) (1 / (1 + 1)) (RtoC r3) (RtoC 0)) [RtoC t1; RtoC (- (b / t1))].
Proof.
  intros z. unfold quad_coeffs. cbn [peval length hd map prodC]. replace (2 * (1 / (1 + 1)) - 1) with 0 by field.
  assert (E3 : Cconj (RtoC 0 - RtoC r3)%C = (- RtoC r3)%C) by (rewrite Cconj_minus, !Cconj_RtoC; ring). assert (E4 : (RtoC (0.5 * s) * RtoC (0.5 * s))%C = RtoC b) by (unfold b; now rewrite <- RtoC_mult).
  assert (E1 : RtoC (- (b / t1)) = (- (RtoC b / RtoC t1))%C) by (rewrite RtoC_opp, RtoC_div by lra; reflexivity). assert (E2 : RtoC r3 = (RtoC t1 / (RtoC t1 * RtoC t1 - RtoC b))%C) by (unfold r3; rewrite RtoC_div, RtoC_minus, RtoC_mult by lra; reflexivity).
  rewrite E3, E4, E1, E2. assert (N1 : RtoC t1 <> RtoC 0) by (apply RtoC_neq0; lra).
  assert (N2 : (RtoC t1 * RtoC t1 - RtoC b)%C <> RtoC 0) by (rewrite <- RtoC_mult, <- RtoC_minus; apply RtoC_neq0; lra). field. auto.
Qed.
Definition centre_terms (b tol : R) : R := three b + (if Rltb (2 * sqrt (b - 1)) tol then spurious b else 0).
Lemma centre_sum tol : 0 < tol ->
  sumR (map (fun z => term (Cmod (lens_eq2 (0.5 * s) (1 / (1 + 1)) z - RtoC 0)%C) (det_jac2 (0.5 * s) (1 / (1 + 1)) z) tol) (central_roots b)) = centre_terms b tol.
Proof.
  intros Hto. pose proof (cb s Hs) as B. fold b in B. pose proof (cu s Hs) as U. fold b in U. fold u in U. pose proof (cv s Hs) as V. fold b in V. fold v in V. pose proof (cv0 s Hs) as V0. fold b in V0. fold v in V0.
  unfold central_roots. fold u v. cbn [map sumR]. assert (Eu : (- u) * (- u) = b + 1) by (rewrite <- U; ring). assert (Ev : (- v) * (- v) = b - 1) by (rewrite <- V; ring).
  assert (CT : forall t, t * t <> b -> term (Cmod (lens_eq2 (0.5 * s) (1 / (1 + 1)) (RtoC t) - RtoC 0)%C) (det_jac2 (0.5 * s) (1 / (1 + 1)) (RtoC t)) tol = term (Rabs (t - t / (t * t - b))) (central_det b t) tol).
  { intros t H. rewrite c_lens, c_dj by exact H. rewrite <- RtoC_minus, Rminus_0_r, Cmod_R. reflexivity. }
  rewrite !CT by lra. unfold term, central_det. rewrite U, V, Eu, Ev, Rmult_0_l.
  replace (0 - 0 / (0 - b)) with 0 by (field; lra). replace (u - u / (b + 1 - b)) with 0 by (field; lra). replace (- u - - u / (b + 1 - b)) with 0 by (field; lra).
  replace (v - v / (b - 1 - b)) with (2 * v) by (field; lra). replace (- v - - v / (b - 1 - b)) with (- (2 * v)) by (field; lra).
  rewrite Rabs_Ropp, Rabs_R0, (Rabs_pos_eq (2 * v)) by lra. assert (T0 : Rltb 0 tol = true) by (apply Rltb_true; lra). rewrite T0.
  replace ((0 + b) / (0 - b) ^ 2) with (/ b) by (field; lra). replace ((b + 1 + b) / (b + 1 - b) ^ 2) with (2 * b + 1) by (field; lra). replace ((b - 1 + b) / (b - 1 - b) ^ 2) with (2 * b - 1) by (field; lra).
  assert (I : 0 < / b < 1) by (split; [apply Rinv_0_lt_compat; lra|rewrite <- Rinv_1; apply Rinv_lt_contravar; lra]).
  rewrite (Rabs_pos_eq (1 - (/ b) ^ 2)) by nra. rewrite !(Rabs_left1 (1 - (2 * b + 1) ^ 2)) by nra. rewrite !(Rabs_left1 (1 - (2 * b - 1) ^ 2)) by nra.
  unfold centre_terms, three, spurious. fold v. replace (- (1 - (2 * b + 1) ^ 2)) with ((2 * b + 1) * (2 * b + 1) - 1) by ring. replace (- (1 - (2 * b - 1) ^ 2)) with ((2 * b - 1) * (2 * b - 1) - 1) by ring.
  replace (1 - (/ b) ^ 2) with (1 - / (b * b)) by (rewrite Rinv_mult; ring). destruct (Rltb (2 * v) tol); unfold Rdiv; ring.
Qed.
Lemma centre_third poly_roots : third_fades_to poly_roots s 1 r3 0 (RtoC 0) (centre_terms b 1e-3 + term (Rabs (t1 - r3)) (central_det b t1) 1e-3).
Proof.
  pose proof (cb s Hs) as B. fold b in B. pose proof (cu s Hs) as U. fold b in U. fold u in U. pose proof (cv s Hs) as V. fold b in V. fold v in V. pose proof (cv0 s Hs) as V0. fold b in V0. fold v in V0.
  assert (U0 : 0 <= u) by apply sqrt_pos. assert (X0 : (RtoC 0 - RtoC (x_cm (0.5 * s) 1))%C = RtoC 0) by exact (c_w s). pose proof rpos as R0.
  assert (Lt : forall t, t * t <> b -> Cmod (lens_eq2 (0.5 * s) (1 / (1 + 1)) (RtoC t) - RtoC 0)%C = Rabs (t - t / (t * t - b)) /\ det_jac2 (0.5 * s) (1 / (1 + 1)) (RtoC t) = central_det b t).
  { intros t H. rewrite c_lens, c_dj by exact H. rewrite <- RtoC_minus, Rminus_0_r, Cmod_R. auto. }
  set (t2 := - (b / t1)). assert (Bt : 0 < b / t1) by (apply Rdiv_lt_0_compat; lra).
  assert (E2 : t2 * t2 - b = b * (b - t1 * t1) / (t1 * t1)) by (unfold t2; field; lra). assert (N2 : t2 * t2 - b <> 0). { rewrite E2. apply Rmult_integral_contrapositive_currified; [nra|apply Rinv_neq_0_compat; nra]. }
  assert (F2 : t2 - t2 / (t2 * t2 - b) = - (b / t1 + r3)). { rewrite E2. unfold t2, r3. field. repeat split; lra. }
  assert (F1 : t1 - t1 / (t1 * t1 - b) = t1 - r3) by reflexivity.
  assert (Big : 1e-3 < b / t1 + r3).
  { assert (b / 100 < b / t1) by (apply Rmult_lt_compat_l; [lra|apply Rinv_lt_contravar; nra]). lra. }
  intros eps He. assert (Eq2 : (1 / (1 + 1)) = 1 / (1 + 1)) by reflexivity.
  destruct (third_tends s 1 r3 0 (RtoC 0)) with (pr := poly_roots) (rs := central_roots b) (ts := [RtoC t1; RtoC t2]) (eps := eps) as (d & Hd & K); try lra.
  - rewrite third_real, <- RtoC_minus. apply RtoC_neq0. intros E. apply Hr. unfold b. replace r3 with (0.5 * s) by lra. ring.
  - rewrite third_real, <- RtoC_plus. apply RtoC_neq0. lra.
  - exact (c_source s Hs).
  - rewrite X0, third_real, <- RtoC_minus. apply RtoC_neq0. lra.
  - pose proof (c_splits s Hs) as S. rewrite (c_solver s) in S. exact S.
  - rewrite X0, third_real. apply centre_quad.
  - right. rewrite third_real. unfold central_roots. fold u v. intros [E|[E|[E|[E|[E|[E|[E|[]]]]]]]]; apply RtoC_inj in E; try lra. unfold t2 in E. lra.
  - rewrite X0. unfold central_roots. fold u v. assert (Iv : 0 < / b < 1) by (split; [apply Rinv_0_lt_compat; lra|rewrite <- Rinv_1; apply Rinv_lt_contravar; lra]).
    assert (Go : forall t, t * t <> b -> Rabs (t - t / (t * t - b)) <> 1e-3 -> (Rabs (t - t / (t * t - b)) < 1e-3 -> central_det b t <> 0) ->
       let rho := Cmod (lens_eq2 (0.5 * s) (1 / (1 + 1)) (RtoC t) - RtoC 0)%C in rho <> 1e-3 /\ (rho < 1e-3 -> det_jac2 (0.5 * s) (1 / (1 + 1)) (RtoC t) <> 0)).
    { intros t Nt A1 A2. cbv zeta. destruct (Lt t Nt) as (-> & ->). auto. }
    assert (Eu : (- u) * (- u) = b + 1) by (rewrite <- U; ring). assert (Ev : (- v) * (- v) = b - 1) by (rewrite <- V; ring).
    intros z [<-|[<-|[<-|[<-|[<-|[<-|[<-|[]]]]]]]]; apply Go; try lra.
    + rewrite Rmult_0_l. replace (0 - 0 / (0 - b)) with 0 by (field; lra). rewrite Rabs_R0. lra.
    + intros _. unfold central_det. rewrite Rmult_0_l. replace ((0 + b) / (0 - b) ^ 2) with (/ b) by (field; lra). nra.
    + rewrite U. replace (u - u / (b + 1 - b)) with 0 by (field; lra). rewrite Rabs_R0. lra.
    + intros _. unfold central_det. rewrite U. replace ((b + 1 + b) / (b + 1 - b) ^ 2) with (2 * b + 1) by (field; lra). nra.
    + rewrite Eu. replace (- u - - u / (b + 1 - b)) with 0 by (field; lra). rewrite Rabs_R0. lra.
    + intros _. unfold central_det. rewrite Eu. replace ((b + 1 + b) / (b + 1 - b) ^ 2) with (2 * b + 1) by (field; lra). nra.
    + rewrite V. replace (v - v / (b - 1 - b)) with (2 * v) by (field; lra). rewrite Rabs_pos_eq by lra. exact Tv.
    + intros _. unfold central_det. rewrite V. replace ((b - 1 + b) / (b - 1 - b) ^ 2) with (2 * b - 1) by (field; lra). nra.
    + rewrite Ev. replace (- v - - v / (b - 1 - b)) with (- (2 * v)) by (field; lra). rewrite Rabs_Ropp, Rabs_pos_eq by lra. exact Tv.
    + intros _. unfold central_det. rewrite Ev. replace ((b - 1 + b) / (b - 1 - b) ^ 2) with (2 * b - 1) by (field; lra). nra.
    + exact Tt.
    + rewrite F2, Rabs_Ropp, Rabs_pos_eq by lra. lra.
    + rewrite F2, Rabs_Ropp, Rabs_pos_eq by lra. lra.
  - exists d. split; auto. intros q3 p Hq3 G1 G2 G3 G4 G5 Hs3. destruct (K q3 p Hq3 G1 G2 G3 G4 G5 Hs3) as (A & EA & HA). exists A. split; auto. rewrite X0 in HA. rewrite centre_sum in HA by lra. cbn [map sumR] in HA.
    destruct (Lt t1 ltac:(lra)) as (L1 & L2). destruct (Lt t2 ltac:(lra)) as (L3 & L4). rewrite L1, L2, L3, L4, F1, F2 in HA.
    replace (term (Rabs (- (b / t1 + r3))) (central_det b t2) 1e-3) with 0 in HA; [now rewrite !Rplus_0_r in HA|]. unfold term. rewrite Rabs_Ropp, (Rabs_pos_eq (b / t1 + r3)) by lra. destruct (Rltb (b / t1 + r3) 1e-3) eqn:E; [apply Rltb_true in E; lra|ring].
Qed.
End Centre.

Definition two_masses (s : R) : params := mkparams (Some s) (Some 1) None None None None None None.
Lemma centre_mag s : 2 < s -> 1e-6 <= 2 * sqrt (0.5 * s * (0.5 * s) - 1) -> mag_point_source central_solver 2 (two_masses s) (RtoC 0) = Ok (three (0.5 * s * (0.5 * s))).
Proof.
  intros Hs Hv. rewrite (c_mag s Hs) by reflexivity. do 2 f_equal. destruct (Rltb (2 * sqrt (0.5 * s * (0.5 * s) - 1)) 1e-6) eqn:E; [apply Rltb_true in E; lra|ring].
Qed.
Lemma centre_solved s : 2 < s -> solved2 central_solver s 1 (RtoC 0).
Proof. intros Hs. exact (c_splits s Hs). Qed.
Lemma centre_p3 s r3 : from_midpoint s 1 r3 0 = RtoC r3.
Proof. rewrite from_midpoint_value by lra. rewrite third_real. replace (x_cm (0.5 * s) 1) with 0 by (unfold x_cm; lra). ring. Qed.
Lemma s_near2_b : 0.5 * (2 * sqrt (1 + 1e-8)) * (0.5 * (2 * sqrt (1 + 1e-8))) = 1 + 1e-8.
Proof. transitivity (sqrt (1 + 1e-8) * sqrt (1 + 1e-8)); [lra|]. apply sqrt_sqrt. lra. Qed.
Lemma s_near2 : 2 < 2 * sqrt (1 + 1e-8).
Proof. assert (1 < sqrt (1 + 1e-8)) by (rewrite <- sqrt_1 at 1; apply sqrt_lt_1; lra). lra. Qed.

(** the two tolerances differ: two equal masses just over two apart, the third lens far away and far from any image.
    Two roots that are no images are 2e-4 off; the three-lens call counts them, and doubles the value *)
Theorem C79_tolerances_refuted : exists s r3 A0 A1, 0 < s /\ let L := binary_lens s 1 in let p3 := from_midpoint s 1 r3 0 in
  off_masses L p3 /\ off_lens_positions L (RtoC 0) /\ (forall z, is_image L (RtoC 0) z -> ~ jacobian_det L z 0 /\ 3 < Cmod (z - p3)%C) /\
  1 < Cmod (lens_map L p3 - RtoC 0)%C /\
  solved2 central_solver s 1 (RtoC 0) /\ mag_point_source central_solver 2 (two_masses s) (RtoC 0) = Ok A0 /\
  (forall poly_roots, third_fades_to poly_roots s 1 r3 0 (RtoC 0) A1) /\ A0 + 10 ^ 7 < A1.
Proof.
  set (s := 2 * sqrt (1 + 1e-8)). pose proof s_near2_b as B. fold s in B. pose proof s_near2 as Hs. fold s in Hs.
  assert (Ev : sqrt (1 + 1e-8 - 1) = 1e-4) by (replace (1 + 1e-8 - 1) with (1e-4 * 1e-4) by lra; apply sqrt_square; lra).
  assert (Eu : 0 <= sqrt (1 + 1e-8 + 1) < 2). { split; [apply sqrt_pos|]. replace 2 with (sqrt (2 * 2)) by (apply sqrt_square; lra). apply sqrt_lt_1; lra. }
  set (r3 := 11 / 10 / (11 / 10 * (11 / 10) - (1 + 1e-8))). assert (R3 : 5.2 < r3 < 5.3).
  { unfold r3. split; apply (Rmult_lt_reg_r (11 / 10 * (11 / 10) - (1 + 1e-8))); try lra; unfold Rdiv at 1 2; rewrite ?Rmult_assoc, ?Rinv_l by lra; lra. }
  exists s, r3, (three (1 + 1e-8)), (three (1 + 1e-8) + spurious (1 + 1e-8)). split; [lra|]. intros L p3. assert (P3 : p3 = RtoC r3) by apply centre_p3.
  assert (N : r3 * r3 <> 0.5 * s * (0.5 * s)) by (rewrite B; nra).
  split; [rewrite P3; now apply c_off|]. split; [exact (c_source s Hs)|]. split.
  { intros z I. split; [exact (c_off_caustics s Hs z I)|]. destruct (c_image s Hs z I) as [->|[->|[->|[->| ->]]]]; rewrite P3, <- RtoC_minus, Cmod_R, ?B, ?Ev; apply Rlt_le_trans with (Rabs (5.2 - 2)); try (rewrite Rabs_pos_eq; lra); rewrite (Rabs_pos_eq (5.2 - 2)), Rabs_left by lra; lra. }
  split. { rewrite P3. unfold L. rewrite c_map by auto. rewrite <- RtoC_minus, Cmod_R, B. assert (Q : 0 < r3 / (r3 * r3 - (1 + 1e-8)) < 1). { split; [apply Rdiv_lt_0_compat; nra|]. apply (Rmult_lt_reg_r (r3 * r3 - (1 + 1e-8))); [nra|]. unfold Rdiv. rewrite Rmult_assoc, Rinv_l by nra. nra. } rewrite Rabs_pos_eq; lra. }
  split; [now apply centre_solved|]. split; [rewrite <- B; apply centre_mag; auto; rewrite B, Ev; lra|]. split.
  - intros pr. pose proof (centre_third s (11 / 10)) as H. rewrite B in H. fold r3 in H. rewrite Ev in H.
    assert (D : central_det (1 + 1e-8) (11 / 10) <> 0). { unfold central_det. assert (X : 2 < (11 / 10 * (11 / 10) + (1 + 1e-8)) / (11 / 10 * (11 / 10) - (1 + 1e-8)) ^ 2) by lra. nra. }
    assert (T : Rabs (11 / 10 - r3) = r3 - 11 / 10) by (rewrite Rabs_left; lra). rewrite T in H.
    specialize (H Hs ltac:(lra) ltac:(lra) ltac:(rewrite <- B; exact N) ltac:(lra) ltac:(lra) ltac:(lra) ltac:(lra) ltac:(lra) D pr). unfold centre_terms in H. rewrite Ev in H.
    replace (Rltb (2 * 1e-4) 1e-3) with true in H by (symmetry; apply Rltb_true; lra). unfold term in H. replace (Rltb (r3 - 11 / 10) 1e-3) with false in H by (symmetry; apply Rltb_false; lra). now rewrite Rmult_0_r, Rplus_0_r in H.
  - unfold spurious. assert (X : 2 * / 2e-7 <= 2 * / ((2 * (1 + 1e-8) - 1) * (2 * (1 + 1e-8) - 1) - 1)) by (apply Rmult_le_compat_l; [lra|]; apply Rinv_le_contravar; lra). 
    assert (Y : 2 * / 1e-7 < 2 * / ((2 * (1 + 1e-8) - 1) * (2 * (1 + 1e-8) - 1) - 1)) by (apply Rmult_lt_compat_l; [lra|]; apply Rinv_lt_contravar; lra). lra.
Qed.
Print Assumptions C79_tolerances_refuted.

Lemma s5_b : 0.5 * sqrt 5 * (0.5 * sqrt 5) = 5 / 4.
Proof. assert (sqrt 5 * sqrt 5 = 5) by (apply sqrt_sqrt; lra). lra. Qed.
Lemma s5_gt : 2 < sqrt 5.
Proof. replace 2 with (sqrt (2 * 2)) by (apply sqrt_square; lra). apply sqrt_lt_1; lra. Qed.
Lemma s5_u : sqrt (5 / 4 + 1) = 3 / 2. Proof. replace (5 / 4 + 1) with (3 / 2 * (3 / 2)) by field. apply sqrt_square. lra. Qed.
Lemma s5_v : sqrt (5 / 4 - 1) = 1 / 2. Proof. replace (5 / 4 - 1) with (1 / 2 * (1 / 2)) by field. apply sqrt_square. lra. Qed.
Lemma s5_image : is_image (binary_lens (sqrt 5) 1) (RtoC 0) (RtoC (3 / 2)).
Proof. split; [apply c_off; rewrite s5_b; lra|]. rewrite c_map by (rewrite s5_b; lra). rewrite s5_b. f_equal. field. Qed.

(** next to an image the limit is too large as well: the third lens within 1e-4 of the image at 3/2, not at it.  A root that
    is no image stays within the tolerance for every small third mass, and the image counts twice *)
Theorem C79_near_image_refuted : exists s r3 z A0 A1, 0 < s /\ let L := binary_lens s 1 in let p3 := from_midpoint s 1 r3 0 in
  off_masses L p3 /\ off_lens_positions L (RtoC 0) /\ (forall z, is_image L (RtoC 0) z -> ~ jacobian_det L z 0) /\
  is_image L (RtoC 0) z /\ ~ is_image L (RtoC 0) p3 /\ Cmod (z - p3)%C < 1e-4 /\
  solved2 central_solver s 1 (RtoC 0) /\ mag_point_source central_solver 2 (two_masses s) (RtoC 0) = Ok A0 /\
  (forall poly_roots, third_fades_to poly_roots s 1 r3 0 (RtoC 0) A1) /\ A0 + 8 / 100 < A1.
Proof.
  set (s := sqrt 5). pose proof s5_b as B. fold s in B. pose proof s5_gt as Hs. fold s in Hs. pose proof s5_u as Eu. pose proof s5_v as Ev.
  set (t1 := 3 / 2 + 1e-5). set (r3 := t1 / (t1 * t1 - 5 / 4)). assert (R3 : 3 / 2 - 4e-5 < r3 < 3 / 2 - 3e-5).
  { unfold r3, t1. split; apply (Rmult_lt_reg_r ((3 / 2 + 1e-5) * (3 / 2 + 1e-5) - 5 / 4)); try lra; unfold Rdiv at 1 2; rewrite ?Rmult_assoc, ?Rinv_l by lra; lra. }
  assert (Rr : 2 < r3 * r3 < 2.25) by nra. assert (N : r3 * r3 <> 0.5 * s * (0.5 * s)) by (rewrite B; lra).
  exists s, r3, (RtoC (3 / 2)), (three (5 / 4)), (three (5 / 4) + 1 / Rabs (central_det (5 / 4) t1)). split; [lra|]. intros L p3. assert (P3 : p3 = RtoC r3) by apply centre_p3.
  split; [rewrite P3; now apply c_off|]. split; [exact (c_source s Hs)|]. split; [exact (c_off_caustics s Hs)|]. split; [exact s5_image|]. split.
  { intros (_ & I). rewrite P3 in I. unfold L in I. rewrite c_map in I by auto. rewrite B in I. apply RtoC_inj in I. assert (Q : r3 * (r3 * r3 - 5 / 4) - r3 = 0) by (apply (f_equal (fun x => x * (r3 * r3 - 5 / 4))) in I; field_simplify in I; lra). nra. }
  split. { rewrite P3, <- RtoC_minus, Cmod_R, Rabs_pos_eq; lra. }
  split; [now apply centre_solved|]. split; [rewrite <- B; apply centre_mag; auto; rewrite B, Ev; lra|].
  assert (X : 3 < (t1 * t1 + 5 / 4) / (t1 * t1 - 5 / 4) ^ 2 < 3.5) by (unfold t1; lra).
  assert (Dm : - 11.25 < central_det (5 / 4) t1 < -8) by (unfold central_det; nra). split.
  - intros pr. pose proof (centre_third s t1) as H. rewrite B in H. fold r3 in H. rewrite Eu, Ev in H.
    assert (T : Rabs (t1 - r3) = t1 - r3) by (rewrite Rabs_pos_eq; unfold t1; lra). rewrite T in H.
    specialize (H Hs ltac:(unfold t1; lra) ltac:(unfold t1; lra) ltac:(lra) ltac:(lra) ltac:(lra) ltac:(unfold t1; lra) ltac:(lra) ltac:(unfold t1; lra) ltac:(lra) pr). unfold centre_terms in H. rewrite Ev in H.
    replace (Rltb (2 * (1 / 2)) 1e-3) with false in H by (symmetry; apply Rltb_false; lra). unfold term in H. replace (Rltb (t1 - r3) 1e-3) with true in H by (symmetry; apply Rltb_true; unfold t1; lra). now rewrite Rmult_1_r, Rplus_0_r in H.
  - rewrite Rabs_left by lra. assert (Y : / 11.25 < / - central_det (5 / 4) t1) by (apply Rinv_lt_contravar; [nra|lra]). lra.
Qed.
Print Assumptions C79_near_image_refuted.

Lemma quad_conv a e r3 psi V t : (t - RtoC a)%C <> RtoC 0 -> (t + RtoC a)%C <> RtoC 0 -> (lens_eq2 a e t - V = t - third_lens r3 psi)%C -> peval (quad_coeffs a e (third_lens r3 psi) V) t = RtoC 0.
Proof.
  intros N1 N2 H. set (p3 := third_lens r3 psi) in *. unfold lens_eq2 in H. cbv zeta in H.
  assert (F : (V - p3 + RtoC (1 - e) / (Cconj t + RtoC a) + RtoC e / (Cconj t - RtoC a) = 0)%C).
  { transitivity (t - p3 - (t - RtoC e / (Cconj t - RtoC a) - RtoC (1 - e) / (Cconj t + RtoC a) - V))%C; [ring|]. rewrite H. ring. }
  apply (f_equal Cconj) in F. rewrite !Cconj_plus, !Cconj_div, Cconj_plus, !Cconj_minus, Cconj_conj, !Cconj_RtoC in F. rewrite <- Cconj_minus in F.
  transitivity (((t + RtoC a) * (t - RtoC a)) * (Cconj (V - p3) + RtoC (1 - e) / (t + RtoC a) + RtoC e / (t - RtoC a)))%C; [|rewrite F; ring].
  unfold quad_coeffs. cbn [peval length]. rewrite !RtoC_minus, RtoC_mult. field. auto.
Qed.
(** separation [sqrt 5], source at the centre, the third lens at 120/19: the value stays 133/45, and exact root lists exist *)
Example C79_worked : (forall poly_roots, third_fades_to poly_roots (sqrt 5) 1 (120 / 19) 0 (RtoC 0) (133 / 45)) /\
  mag_point_source central_solver 2 (two_masses (sqrt 5)) (RtoC 0) = Ok (133 / 45) /\
  (forall q3, 0 < q3 -> exists rs, solved3 (fun _ _ => rs) (sqrt 5) 1 q3 (120 / 19) 0 (RtoC 0)).
Proof.
  pose proof s5_b as B. pose proof s5_gt as Hs. pose proof s5_u as Eu. pose proof s5_v as Ev.
  assert (M : mag_point_source central_solver 2 (two_masses (sqrt 5)) (RtoC 0) = Ok (133 / 45)).
  { replace (133 / 45) with (three (0.5 * sqrt 5 * (0.5 * sqrt 5))) by (rewrite B; unfold three; lra). apply centre_mag; auto. rewrite B, Ev. lra. }
  assert (N : 120 / 19 * (120 / 19) <> 0.5 * sqrt 5 * (0.5 * sqrt 5)) by (rewrite B; lra). assert (P3 := centre_p3 (sqrt 5) (120 / 19)).
  split; [|split; auto].
  - apply (C79_third_lens_fades_partial central_solver (sqrt 5) 1 (120 / 19) 0 (RtoC 0) (two_masses (sqrt 5)) (133 / 45)); auto; try lra; try rewrite P3.
    + now apply c_off.
    + exact (c_source _ Hs).
    + intros E. apply RtoC_inj in E. lra.
    + now apply centre_solved.
    + intros z Hin. unfold candidates2 in Hin. cbv zeta in Hin. rewrite (c_w (sqrt 5)) in Hin. replace (x_cm (0.5 * sqrt 5) 1) with 0 in Hin by (unfold x_cm; lra).
      pose proof (c_solver (sqrt 5)) as S. unfold central_coeffs in S. rewrite (c_w (sqrt 5)) in S. rewrite S in Hin. unfold central_roots in Hin. rewrite B, Eu, Ev in Hin. cbn [map] in Hin. rewrite !Cplus_0_r in Hin.
      assert (Go : forall t, t * t <> 5 / 4 -> t - t / (t * t - 5 / 4) = 0 -> Cmod (lens_map (binary_lens (sqrt 5) 1) (RtoC t) - RtoC 0)%C < 1e-6 /\ ~ jacobian_det (binary_lens (sqrt 5) 1) (RtoC t) 0).
      { intros t Nt Z. rewrite c_map by (rewrite B; auto). rewrite B, Z. split; [replace (RtoC 0 - RtoC 0)%C with (RtoC 0) by ring; rewrite Cmod_0; lra|]. apply (c_off_caustics _ Hs). split; [apply c_off; rewrite B; auto|]. rewrite c_map by (rewrite B; auto). now rewrite B, Z. }
      assert (No : forall t, t * t <> 5 / 4 -> 1e-3 < Rabs (t - t / (t * t - 5 / 4)) -> 1e-3 < Cmod (lens_map (binary_lens (sqrt 5) 1) (RtoC t) - RtoC 0)%C).
      { intros t Nt Z. rewrite c_map by (rewrite B; auto). now rewrite <- RtoC_minus, Rminus_0_r, Cmod_R, B. }
      destruct Hin as [<-|[<-|[<-|[<-|[<-|[]]]]]]; [left; apply Go|left; apply Go|left; apply Go|right; apply No|right; apply No]; try lra; try (field; lra).
      * replace (1 / 2 - 1 / 2 / (1 / 2 * (1 / 2) - 5 / 4)) with 1 by field. rewrite Rabs_R1. lra.
      * replace (- (1 / 2) - - (1 / 2) / (- (1 / 2) * - (1 / 2) - 5 / 4)) with (- (1)) by field. rewrite Rabs_Ropp, Rabs_R1. lra.
    + left. rewrite c_map by auto. rewrite B, <- RtoC_minus, Cmod_R, Rabs_pos_eq; lra.
    + intros z Ho Hz E. pose proof (off_frame (sqrt 5) 1 z ltac:(lra)) as OF. cbv zeta in OF. replace (x_cm (0.5 * sqrt 5) 1) with 0 in OF by (unfold x_cm; lra). rewrite Cplus_0_r in OF. apply OF in Ho. destruct Ho as (O1 & O2).
      pose proof (rho_frame (sqrt 5) 1 (RtoC 0) z ltac:(lra)) as RF. cbv zeta in RF. replace (x_cm (0.5 * sqrt 5) 1) with 0 in RF by (unfold x_cm; lra). rewrite Cplus_0_r in RF. rewrite RF in E. replace (RtoC 0 - RtoC 0)%C with (RtoC 0) in E by ring.
      rewrite <- (third_real (120 / 19)) in E. apply quad_conv in E; auto. rewrite third_real in E.
      pose proof (centre_quad (sqrt 5) (6 / 5)) as Q. rewrite B in Q. replace (6 / 5 / (6 / 5 * (6 / 5) - 5 / 4)) with (120 / 19) in Q by field. specialize (Q ltac:(lra) ltac:(lra)). rewrite (Q z) in E.
      assert (Hz' : z = RtoC (6 / 5) \/ z = RtoC (- (5 / 4 / (6 / 5)))).
      { destruct (Ceq_dec (z - RtoC (6 / 5))%C (RtoC 0)) as [Z|Z]; [left; now apply Cminus_eq_0|]. destruct (Ceq_dec (z - RtoC (- (5 / 4 / (6 / 5))))%C (RtoC 0)) as [Z'|Z']; [right; now apply Cminus_eq_0|]. exfalso. revert E. cbn [map prodC hd quad_coeffs]. apply Cmult_neq_0; [apply Cconj_neq0; rewrite <- RtoC_minus; apply RtoC_neq0; lra|].
        apply Cmult_neq_0; auto. apply Cmult_neq_0; auto. apply RtoC_neq0; lra. }
      destruct Hz' as [->| ->]; rewrite <- RtoC_minus, Cmod_R, Rabs_left in Hz by lra; lra.
  - intros q3 Hq3. unfold solved3. cbv zeta. apply splits_exists. apply (tp0 (sqrt 5) 1 q3 (120 / 19) 0 (RtoC 0)); try lra. rewrite P3. intros m x [E|[E|[E|[]]]]; injection E as <- <-; intros E; apply RtoC_inj in E; lra.
Qed.
