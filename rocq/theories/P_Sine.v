(** Euler's product for the sine and the reflection formula of the gamma function. *)
From Coq Require Import Reals List Bool Lra Lia.
From Coquelicot Require Import Coquelicot.
From Verif Require Import Base_R Base_C M_Kernels P_Kernels S_Gamma P_Stirling P_Gamma.
Import ListNotations.
Local Open Scope R_scope.

Lemma clim_plus1 u : clim u 0 -> clim (fun n => u n + RtoC 1)%C 1.
Proof. intros H. pose proof (clim_plus _ _ _ _ H (clim_const (RtoC 1))) as Q. rewrite Cplus_0_l in Q. exact Q. Qed.
Section Prod.
Variables x y : R.
Let ca t := cos (2 * x * t) * cosh (2 * y * t).
Let cb t := - (sin (2 * x * t) * sinh (2 * y * t)).
Let sa t := sin (2 * x * t) * cosh (2 * y * t).
Let sb t := cos (2 * x * t) * sinh (2 * y * t).
Let Ja n : R := RInt (fun t => ca t * cos t ^ n) 0 (PI / 2).
Let Jb n : R := RInt (fun t => cb t * cos t ^ n) 0 (PI / 2).
Lemma d_ca t : is_derive ca t (- 2 * (x * sa t - y * sb t)).
Proof. unfold ca, sa, sb, cosh, sinh. auto_derive; auto. field. Qed.
Lemma d_cb t : is_derive cb t (- 2 * (x * sb t + y * sa t)).
Proof. unfold cb, sa, sb, cosh, sinh. auto_derive; auto. field. Qed.
Lemma d_sa t : is_derive sa t (2 * (x * ca t - y * cb t)).
Proof. unfold sa, ca, cb, cosh, sinh. auto_derive; auto. field. Qed.
Lemma d_sb t : is_derive sb t (2 * (x * cb t + y * ca t)).
Proof. unfold sb, ca, cb, cosh, sinh. auto_derive; auto. field. Qed.
Lemma c_f (f : R -> R) f' t : is_derive f t f' -> continuous f t.
Proof. intros H. apply (@ex_derive_continuous R_AbsRing R_NormedModule). exists f'. exact H. Qed.
Lemma c_mul (f : R -> R) f' n t : is_derive f t f' -> continuous (fun t => f t * cos t ^ n) t.
Proof. intros H. apply (@continuous_mult R_UniformSpace R_AbsRing f); [apply (c_f _ _ _ H)|apply cosn_cont]. Qed.
Lemma int_a n : ex_RInt (fun t => ca t * cos t ^ n) 0 (PI / 2).
Proof. apply (@ex_RInt_continuous R_CompleteNormedModule). intros t _. apply (c_mul _ _ _ _ (d_ca t)). Qed.
Lemma int_b n : ex_RInt (fun t => cb t * cos t ^ n) 0 (PI / 2).
Proof. apply (@ex_RInt_continuous R_CompleteNormedModule). intros t _. apply (c_mul _ _ _ _ (d_cb t)). Qed.
Lemma d_cosn n t : is_derive (fun t => cos t ^ S n) t (- (INR n + 1) * (cos t ^ n * sin t)).
Proof. auto_derive; auto. change (match n with 0%nat => 1 | S _ => INR n + 1 end) with (INR (S n)). rewrite S_INR. cbn [pred]. ring. Qed.
Lemma d_cs n t : is_derive (fun t => cos t ^ S n * sin t) t (cos t ^ n * ((INR n + 2) * (cos t * cos t) - (INR n + 1))).
Proof.
  auto_derive; auto. change (match n with 0%nat => 1 | S _ => INR n + 1 end) with (INR (S n)). rewrite S_INR. cbn [pred]. assert (Q : sin t * sin t = 1 - cos t * cos t) by (pose proof (sin2_cos2 t) as Q; unfold Rsqr in Q; lra).
  rewrite <- ?tech_pow_Rmult. transitivity (cos t ^ n * (cos t * cos t - (INR n + 1) * (sin t * sin t))); [ring|rewrite Q; ring].
Qed.
Lemma lin3 (f g h : R -> R) a b c F0 F1 (F : R -> R) : ex_RInt f 0 (PI / 2) -> ex_RInt g 0 (PI / 2) -> ex_RInt h 0 (PI / 2) ->
  (forall t, is_derive F t (a * f t + b * g t - c * h t)) -> (forall t, continuous f t) -> (forall t, continuous g t) -> (forall t, continuous h t) -> F (PI / 2) = F1 -> F 0 = F0 ->
  a * RInt f 0 (PI / 2) + b * RInt g 0 (PI / 2) - c * RInt h 0 (PI / 2) = F1 - F0.
Proof.
  intros If Ig Ih D Cf Cg Ch E1 E0.
  assert (K : is_RInt (fun t => a * f t + b * g t - c * h t) 0 (PI / 2) (F1 - F0)).
  { rewrite <- E1, <- E0. apply (@is_RInt_derive R_CompleteNormedModule F); [intros t _; apply D|]. intros t _.
    apply (@continuous_minus R_UniformSpace R_AbsRing R_NormedModule); [apply (@continuous_plus R_UniformSpace R_AbsRing R_NormedModule)|]; apply (@continuous_scal_r R_UniformSpace R_AbsRing R_NormedModule); auto. }
  assert (L : is_RInt (fun t => a * f t + b * g t - c * h t) 0 (PI / 2) (a * RInt f 0 (PI / 2) + b * RInt g 0 (PI / 2) - c * RInt h 0 (PI / 2))).
  { apply (@is_RInt_minus R_NormedModule); [apply (@is_RInt_plus R_NormedModule)|]; apply (@is_RInt_scal R_NormedModule); apply (@RInt_correct R_CompleteNormedModule); auto. }
  apply (@is_RInt_unique R_CompleteNormedModule) in K. apply (@is_RInt_unique R_CompleteNormedModule) in L. rewrite <- K, <- L. reflexivity.
Qed.
Lemma rec_a n : ((INR n + 2) ^ 2 - 4 * (x ^ 2 - y ^ 2)) * Ja (n + 2) + 8 * x * y * Jb (n + 2) - (INR n + 2) * (INR n + 1) * Ja n = 0.
Proof.
  unfold Ja, Jb. transitivity (0 - 0); [|ring].
  apply (lin3 (fun t => ca t * cos t ^ (n + 2)) (fun t => cb t * cos t ^ (n + 2)) (fun t => ca t * cos t ^ n) _ _ _ 0 0 (fun t => (INR n + 2) * (ca t * (cos t ^ S n * sin t)) - 2 * ((x * sa t - y * sb t) * cos t ^ S (S n)))); [apply int_a|apply int_b|apply int_a| |intros t; apply (c_mul _ _ _ _ (d_ca t))|intros t; apply (c_mul _ _ _ _ (d_cb t))|intros t; apply (c_mul _ _ _ _ (d_ca t))|try reflexivity|try reflexivity].
  - intros t. evar (l : R). replace (_ - _) with l; subst l.
    + apply (@is_derive_minus R_AbsRing R_NormedModule).
      * apply is_derive_scal. apply (is_derive_mult ca (fun t => cos t ^ S n * sin t)); [apply d_ca|apply d_cs|intros; apply Rmult_comm].
      * apply is_derive_scal. apply (is_derive_mult (fun t => x * sa t - y * sb t) (fun t => cos t ^ S (S n))); [|apply d_cosn|intros; apply Rmult_comm].
        apply (@is_derive_minus R_AbsRing R_NormedModule); apply is_derive_scal; [apply d_sa|apply d_sb].
    + change (match n with 0%nat => 1 | S _ => INR n + 1 end) with (INR (S n)). rewrite ?S_INR. replace (n + 2)%nat with (S (S n)) by lia. unfold plus, minus, opp, scal, mult. cbn -[cos sin ca cb sa sb INR]. unfold mult. cbn -[cos sin ca cb sa sb INR]. ring.
  - rewrite cos_PI2. simpl. ring.
  - unfold sa, sb. rewrite sin_0, !Rmult_0_r, sinh_0, sin_0. ring.
Qed.
Lemma rec_b n : ((INR n + 2) ^ 2 - 4 * (x ^ 2 - y ^ 2)) * Jb (n + 2) + - (8 * x * y) * Ja (n + 2) - (INR n + 2) * (INR n + 1) * Jb n = 0.
Proof.
  unfold Ja, Jb. transitivity (0 - 0); [|ring].
  apply (lin3 (fun t => cb t * cos t ^ (n + 2)) (fun t => ca t * cos t ^ (n + 2)) (fun t => cb t * cos t ^ n) _ _ _ 0 0 (fun t => (INR n + 2) * (cb t * (cos t ^ S n * sin t)) - 2 * ((x * sb t + y * sa t) * cos t ^ S (S n)))); [apply int_b|apply int_a|apply int_b| |intros t; apply (c_mul _ _ _ _ (d_cb t))|intros t; apply (c_mul _ _ _ _ (d_ca t))|intros t; apply (c_mul _ _ _ _ (d_cb t))|try reflexivity|try reflexivity].
  - intros t. evar (l : R). replace (_ - _) with l; subst l.
    + apply (@is_derive_minus R_AbsRing R_NormedModule).
      * apply is_derive_scal. apply (is_derive_mult cb (fun t => cos t ^ S n * sin t)); [apply d_cb|apply d_cs|intros; apply Rmult_comm].
      * apply is_derive_scal. apply (is_derive_mult (fun t => x * sb t + y * sa t) (fun t => cos t ^ S (S n))); [|apply d_cosn|intros; apply Rmult_comm].
        apply (@is_derive_plus R_AbsRing R_NormedModule); apply is_derive_scal; [apply d_sb|apply d_sa].
    + change (match n with 0%nat => 1 | S _ => INR n + 1 end) with (INR (S n)). rewrite ?S_INR. replace (n + 2)%nat with (S (S n)) by lia. unfold plus, minus, opp, scal, mult. cbn -[cos sin ca cb sa sb INR]. unfold mult. cbn -[cos sin ca cb sa sb INR]. ring.
  - rewrite cos_PI2. simpl. ring.
  - unfold sa, sb, cb. rewrite sin_0, !Rmult_0_r, sinh_0, sin_0. ring.
Qed.
Let z : C := (x, y).
Let J n : C := (Ja n, Jb n).
Lemma J_rec n : ((RtoC ((INR n + 2) ^ 2) - RtoC 4 * (z * z)) * J (n + 2) = RtoC ((INR n + 2) * (INR n + 1)) * J n)%C.
Proof.
  pose proof (rec_a n) as A. pose proof (rec_b n) as B. unfold z, J, Cmult, Cminus, Cplus, Copp, RtoC. cbn [fst snd]. f_equal; ring_simplify; ring_simplify in A; ring_simplify in B; lra.
Qed.
Lemma J_0 : (RtoC 2 * z * J 0)%C = ((sin (PI * x) * cosh (PI * y), cos (PI * x) * sinh (PI * y)) : C).
Proof.
  assert (A : 2 * x * Ja 0 + - (2 * y) * Jb 0 - 0 * Ja 0 = sa (PI / 2) - sa 0).
  { unfold Ja, Jb. apply (lin3 (fun t => ca t * cos t ^ 0) (fun t => cb t * cos t ^ 0) (fun t => ca t * cos t ^ 0) _ _ _ _ _ sa); [apply int_a|apply int_b|apply int_a| |intros t; apply (c_mul _ _ _ _ (d_ca t))|intros t; apply (c_mul _ _ _ _ (d_cb t))|intros t; apply (c_mul _ _ _ _ (d_ca t))|try reflexivity|try reflexivity].
    intros t. replace (_ - _) with (2 * (x * ca t - y * cb t)); [apply d_sa|]. simpl. ring. }
  assert (B : 2 * x * Jb 0 + 2 * y * Ja 0 - 0 * Ja 0 = sb (PI / 2) - sb 0).
  { unfold Ja, Jb. apply (lin3 (fun t => cb t * cos t ^ 0) (fun t => ca t * cos t ^ 0) (fun t => ca t * cos t ^ 0) _ _ _ _ _ sb); [apply int_b|apply int_a|apply int_a| |intros t; apply (c_mul _ _ _ _ (d_cb t))|intros t; apply (c_mul _ _ _ _ (d_ca t))|intros t; apply (c_mul _ _ _ _ (d_ca t))|try reflexivity|try reflexivity].
    intros t. replace (_ - _) with (2 * (x * cb t + y * ca t)); [apply d_sb|]. simpl. ring. }
  unfold sa in A. unfold sb in B. rewrite !Rmult_0_r, ?sin_0, ?sinh_0 in A, B. replace (2 * x * (PI / 2)) with (PI * x) in A, B by field. replace (2 * y * (PI / 2)) with (PI * y) in A, B by field.
  unfold z, J, Cmult, RtoC. cbn [fst snd]. pose proof sin_0 as Z1. pose proof sinh_0 as Z2. rewrite Z1 in A. rewrite Z2 in B. f_equal; lra.
Qed.
Let K := 2 * (x ^ 2 + (y * cosh (y * (PI / 2))) ^ 2).
Lemma cosh_sinh u : cosh u * cosh u = 1 + sinh u * sinh u.
Proof. unfold cosh, sinh. pose proof (exp_plus u (- u)) as E. rewrite Rplus_opp_r, exp_0 in E. nra. Qed.
Lemma sinh_le u v : Rabs u <= Rabs v -> sinh u * sinh u <= u * u * (cosh v * cosh v).
Proof.
  intros H. destruct (MVT_gen sinh 0 u cosh) as (c & Hc & E).
  - intros t _. unfold sinh, cosh. auto_derive; auto. field.
  - intros t _. apply continuity_pt_filterlim. apply (ex_derive_continuous sinh). unfold sinh. auto_derive. auto.
  - rewrite sinh_0, !Rminus_0_r in E. rewrite E. replace (cosh c * u * (cosh c * u)) with (u * u * (cosh c * cosh c)) by ring. apply Rmult_le_compat_l; [nra|].
    assert (Hcv : Rabs c <= Rabs v). { unfold Rabs, Rmin, Rmax in *. repeat (destruct Rcase_abs || destruct Rle_dec); lra. }
    assert (M : forall w, cosh w = cosh (Rabs w)). { intros w. unfold Rabs. destruct (Rcase_abs w); auto. unfold cosh. rewrite Ropp_involutive. lra. }
    rewrite (M c), (M v). assert (P : forall w, 0 < cosh w) by (intros w; unfold cosh; pose proof (exp_pos w); pose proof (exp_pos (- w)); lra).
    assert (L : cosh (Rabs c) <= cosh (Rabs v)).
    { destruct (MVT_gen cosh (Rabs c) (Rabs v) sinh) as (d & Hd & E2).
      - intros t _. unfold sinh, cosh. auto_derive; auto. field.
      - intros t _. apply continuity_pt_filterlim. apply (ex_derive_continuous cosh). unfold cosh. auto_derive. auto.
      - assert (0 <= d). { pose proof (Rabs_pos c). rewrite Rmin_left in Hd by auto. lra. }
        assert (0 <= sinh d). { unfold sinh. assert (exp (- d) <= exp d) by (destruct (Req_dec d 0) as [->|N]; [rewrite Ropp_0; lra|left; apply exp_increasing; lra]). lra. }
        nra. }
    pose proof (P (Rabs c)). pose proof (P (Rabs v)). nra.
Qed.
Lemma near_one t : 0 <= t <= PI / 2 -> Rabs (ca t - 1) <= K * t ^ 2 /\ Rabs (cb t) <= K * t ^ 2.
Proof.
  intros H. unfold ca, cb. set (p := x * t). set (q := y * t).
  assert (E1 : cos (2 * x * t) = 1 - 2 * (sin p * sin p)) by (replace (2 * x * t) with (2 * p) by (unfold p; ring); rewrite cos_2a_sin; ring).
  assert (E2 : sin (2 * x * t) = 2 * (sin p * cos p)) by (replace (2 * x * t) with (2 * p) by (unfold p; ring); rewrite sin_2a; ring).
  assert (E3 : cosh (2 * y * t) = 1 + 2 * (sinh q * sinh q)). { unfold cosh, sinh. replace (2 * y * t) with (q + q) by (unfold q; ring). rewrite Ropp_plus_distr, !exp_plus. pose proof (exp_plus q (- q)) as E. rewrite Rplus_opp_r, exp_0 in E. nra. }
  assert (E4 : sinh (2 * y * t) = 2 * (sinh q * cosh q)). { unfold cosh, sinh. replace (2 * y * t) with (q + q) by (unfold q; ring). rewrite Ropp_plus_distr, !exp_plus. pose proof (exp_plus q (- q)) as E. rewrite Rplus_opp_r, exp_0 in E. nra. }
  rewrite E1, E2, E3, E4. pose proof (sin2_cos2 p) as Q. unfold Rsqr in Q. pose proof (cosh_sinh q) as S.
  assert (B : 2 * (sin p * sin p + sinh q * sinh q) <= K * t ^ 2).
  { assert (S1 : sin p * sin p <= p * p). { pose proof (sin_le_abs p) as A. pose proof (Rabs_pos (sin p)). replace (sin p * sin p) with (Rabs (sin p) * Rabs (sin p)) by (rewrite <- Rabs_mult; apply Rabs_pos_eq; apply Rle_0_sqr). replace (p * p) with (Rabs p * Rabs p) by (rewrite <- Rabs_mult; apply Rabs_pos_eq; apply Rle_0_sqr). nra. }
    assert (S2 : sinh q * sinh q <= q * q * (cosh (y * (PI / 2)) * cosh (y * (PI / 2)))). { apply sinh_le. unfold q. rewrite !Rabs_mult. apply Rmult_le_compat_l; [apply Rabs_pos|]. rewrite !Rabs_pos_eq by lra. lra. }
    unfold K. apply Rle_trans with (2 * (p * p + q * q * (cosh (y * (PI / 2)) * cosh (y * (PI / 2))))); [lra|]. unfold p, q. right. ring. }
  assert (N1 : 0 <= (sin p * cosh q - cos p * sinh q) * (sin p * cosh q - cos p * sinh q)) by apply Rle_0_sqr. assert (N2 : 0 <= (sin p * cosh q + cos p * sinh q) * (sin p * cosh q + cos p * sinh q)) by apply Rle_0_sqr.
  assert (T : sin p * cosh q * (sin p * cosh q) + cos p * sinh q * (cos p * sinh q) = sin p * sin p + sinh q * sinh q). { replace (sin p * cosh q * (sin p * cosh q) + cos p * sinh q * (cos p * sinh q)) with (sin p * sin p * (cosh q * cosh q) + cos p * cos p * (sinh q * sinh q)) by ring. rewrite S. replace (cos p * cos p) with (1 - sin p * sin p) by lra. ring. }
  pose proof (Rle_0_sqr (sin p * cosh q)) as M1. pose proof (Rle_0_sqr (cos p * sinh q)) as M2. unfold Rsqr in M1, M2.
  split.
  - replace ((1 - 2 * (sin p * sin p)) * (1 + 2 * (sinh q * sinh q)) - 1) with (2 * (cos p * sinh q * (cos p * sinh q) - sin p * cosh q * (sin p * cosh q))).
    + apply Rabs_le. lra.
    + replace (cos p * sinh q * (cos p * sinh q)) with ((1 - sin p * sin p) * (sinh q * sinh q)) by (replace (1 - sin p * sin p) with (cos p * cos p) by lra; ring). replace (sin p * cosh q * (sin p * cosh q)) with (sin p * sin p * (1 + sinh q * sinh q)) by (rewrite <- S; ring). ring.
  - rewrite Rabs_Ropp. replace (2 * (sin p * cos p) * (2 * (sinh q * cosh q))) with (4 * (sin p * cosh q * (cos p * sinh q))) by ring. apply Rabs_le. lra.
Qed.
Lemma sin_quarter t : 0 <= t <= PI / 2 -> t ^ 2 <= 16 * (sin t * sin t).
Proof.
  intros H. pose proof PI_RGT_0. pose proof PI_4. assert (t / 4 <= sin t); [|nra]. set (h := t / 2). replace t with (2 * h) by (unfold h; field). rewrite sin_2a.
  assert (0 <= h <= PI / 4) by (unfold h; lra). assert (C : 1 / 2 <= cos h). { rewrite <- cos_PI3. apply cos_decr_1; lra. }
  assert (S : h / 2 <= sin h). { destruct (MVT_gen sin 0 h cos) as (c & Hc & E); [intros; apply is_derive_Reals, derivable_pt_lim_sin|intros; apply derivable_continuous_pt, derivable_pt_sin|]. rewrite sin_0, !Rminus_0_r in E. rewrite Rmin_left, Rmax_right in Hc by lra. assert (1 / 2 <= cos c) by (rewrite <- cos_PI3; apply cos_decr_1; lra). rewrite E. nra. }
  nra.
Qed.
Lemma sq_int n : ex_RInt (fun t => 16 * K * (cos t ^ n - cos t ^ (n + 2))) 0 (PI / 2).
Proof. apply (@ex_RInt_continuous R_CompleteNormedModule). intros. apply (@ex_derive_continuous R_AbsRing R_NormedModule). auto_derive. auto. Qed.
Lemma sq_val n : RInt (fun t => 16 * K * (cos t ^ n - cos t ^ (n + 2))) 0 (PI / 2) = 16 * K * (Wi n - Wi (n + 2)).
Proof.
  apply (@is_RInt_unique R_CompleteNormedModule). apply (@is_RInt_scal R_NormedModule (fun t => cos t ^ n - cos t ^ (n + 2))). apply (@is_RInt_minus R_NormedModule (fun t => cos t ^ n)); apply (@RInt_correct R_CompleteNormedModule); apply cosn_int.
Qed.
Lemma K_pos : 0 <= K.
Proof. unfold K. pose proof (pow2_ge_0 x). pose proof (pow2_ge_0 (y * cosh (y * (PI / 2)))). lra. Qed.
Lemma dom_le n t (v : R) : 0 < t < PI / 2 -> Rabs v <= K * t ^ 2 -> Rabs (v * cos t ^ n) <= 16 * K * (cos t ^ n - cos t ^ (n + 2)).
Proof.
  intros H Hv. assert (P : 0 <= cos t ^ n) by (apply pow_le, cos_ge_0; lra). rewrite Rabs_mult, (Rabs_pos_eq (cos t ^ n)) by auto. pose proof (sin_quarter t ltac:(lra)) as S. pose proof K_pos as KP.
  replace (cos t ^ n - cos t ^ (n + 2)) with (sin t * sin t * cos t ^ n). 2:{ rewrite pow_add. pose proof (sin2_cos2 t) as Q. unfold Rsqr in Q. replace (sin t * sin t) with (1 - cos t * cos t) by lra. ring. }
  replace (16 * K * (sin t * sin t * cos t ^ n)) with (K * (16 * (sin t * sin t)) * cos t ^ n) by ring. apply Rmult_le_compat_r; auto. eapply Rle_trans; [exact Hv|]. apply Rmult_le_compat_l; auto.
Qed.
Lemma J_near n : Cmod (J n - RtoC (Wi n))%C <= 32 * K * (Wi n - Wi (n + 2)).
Proof.
  eapply Rle_trans; [apply Cmod_le_sum|]. change (Re (J n - RtoC (Wi n))%C) with (Ja n - Wi n). change (Im (J n - RtoC (Wi n))%C) with (Jb n + - 0). rewrite Ropp_0, Rplus_0_r. pose proof PI_RGT_0.
  assert (A : Rabs (Ja n - Wi n) <= 16 * K * (Wi n - Wi (n + 2))).
  { assert (I : is_RInt (fun t => (ca t - 1) * cos t ^ n) 0 (PI / 2) (Ja n - Wi n)). { apply (is_RInt_ext (fun t => minus (ca t * cos t ^ n) (cos t ^ n))); [intros; unfold minus, plus, opp; simpl; ring|]. apply (@is_RInt_minus R_NormedModule); apply (@RInt_correct R_CompleteNormedModule); [apply int_a|apply cosn_int]. }
    rewrite <- sq_val, <- (@is_RInt_unique R_CompleteNormedModule _ _ _ _ I). eapply Rle_trans; [apply abs_RInt_le; [lra|eexists; exact I]|]. apply RInt_le; [lra| |apply sq_int|].
    - apply (@ex_RInt_continuous R_CompleteNormedModule). intros t _. apply (continuous_comp _ Rabs); [|apply continuous_Rabs]. apply (c_mul (fun t => ca t - 1) (- 2 * (x * sa t - y * sb t) - 0)). apply (@is_derive_minus R_AbsRing R_NormedModule); [apply d_ca|apply (@is_derive_const R_AbsRing R_NormedModule)].
    - intros t Ht. apply dom_le; auto. apply near_one. lra. }
  assert (B : Rabs (Jb n) <= 16 * K * (Wi n - Wi (n + 2))).
  { rewrite <- sq_val. unfold Jb. eapply Rle_trans; [apply abs_RInt_le; [lra|apply int_b]|]. apply RInt_le; [lra| |apply sq_int|].
    - apply (@ex_RInt_continuous R_CompleteNormedModule). intros t _. apply (continuous_comp _ Rabs); [|apply continuous_Rabs]. apply (c_mul _ _ _ _ (d_cb t)).
    - intros t Ht. apply dom_le; auto. apply near_one. lra. }
  lra.
Qed.
Lemma Wi_pos k : 0 < Wi (2 * k).
Proof. destruct (Wi_even k) as [-> _]. pose proof (wp_pos k). pose proof PI_RGT_0. nra. Qed.
Lemma sine_D : exists D : nat -> C, (forall k, D k = (RtoC 1 - z * z / RtoC ((INR k + 1) ^ 2)) * D (S k))%C
  /\ (RtoC PI * z * D 0%nat)%C = ((sin (PI * x) * cosh (PI * y), cos (PI * x) * sinh (PI * y)) : C) /\ clim D 1.
Proof.
  exists (fun k => J (2 * k) / RtoC (Wi (2 * k)))%C. split; [|split].
  - intros k. pose proof (J_rec (2 * k)) as R1. pose proof (Wi_rec (2 * k)) as R2. replace (2 * S k)%nat with (2 * k + 2)%nat by lia. pose proof (Wi_pos k) as P1. pose proof (Wi_pos (S k)) as P2. replace (2 * S k)%nat with (2 * k + 2)%nat in P2 by lia.
    pose proof (pos_INR k) as PK. rewrite !plus_INR, mult_INR in R2. rewrite mult_INR in R1. change (INR 1) with 1 in R2. replace (INR 2) with 2 in R1, R2 by (simpl; ring).
    set (w := Wi (2 * k)) in *. set (w2 := Wi (2 * k + 2)) in *. set (j := J (2 * k)) in *. set (j2 := J (2 * k + 2)) in *.
    assert (E : RtoC w = (RtoC (2 * INR k + 2) * RtoC w2 / RtoC (2 * INR k + 1))%C). { rewrite <- RtoC_mult, <- RtoC_div by lra. f_equal. apply (Rmult_eq_reg_l (2 * INR k + 1)); [|lra]. rewrite <- R2. field. lra. }
    assert (Q : ((RtoC ((INR k + 1) ^ 2) - z * z) * j2 = RtoC ((2 * INR k + 2) * (2 * INR k + 1) / 4) * j)%C).
    { replace ((2 * INR k + 2) * (2 * INR k + 1) / 4) with (/ 4 * ((2 * INR k + 2) * (2 * INR k + 1))) by field. rewrite RtoC_mult, <- Cmult_assoc, <- R1. replace ((2 * INR k + 2) ^ 2) with (4 * (INR k + 1) ^ 2) by ring. rewrite RtoC_mult, RtoC_inv by lra. field. apply RtoC_neq0. lra. }
    assert (N1 : RtoC w2 <> RtoC 0) by (apply RtoC_neq0; lra). assert (N2 : RtoC ((INR k + 1) ^ 2) <> RtoC 0) by (apply RtoC_neq0; nra).
    replace ((RtoC 1 - z * z / RtoC ((INR k + 1) ^ 2)) * (j2 / RtoC w2))%C with ((RtoC ((INR k + 1) ^ 2) - z * z) * j2 / (RtoC ((INR k + 1) ^ 2) * RtoC w2))%C by (field; auto).
    rewrite Q. assert (W : RtoC w = RtoC (4 * (INR k + 1) ^ 2 * w2 / ((2 * INR k + 2) * (2 * INR k + 1)))). { f_equal. apply (Rmult_eq_reg_l (2 * INR k + 1)); [|lra]. rewrite <- R2. field. lra. }
    assert (PP : 0 < (INR k + 1) ^ 2) by nra. assert (PQ : 0 < (2 * INR k + 2) * (2 * INR k + 1)) by nra.
    assert (W' : w = 4 * (INR k + 1) ^ 2 * w2 / ((2 * INR k + 2) * (2 * INR k + 1))) by (apply RtoC_inj; auto).
    transitivity (RtoC (/ w) * j)%C; [rewrite RtoC_inv by lra; field; apply RtoC_neq0; lra|].
    replace (RtoC ((2 * INR k + 2) * (2 * INR k + 1) / 4) * j / (RtoC ((INR k + 1) ^ 2) * RtoC w2))%C with (RtoC ((2 * INR k + 2) * (2 * INR k + 1) / 4 / ((INR k + 1) ^ 2 * w2)) * j)%C.
    + do 2 f_equal. rewrite W'. field. lra.
    + rewrite (RtoC_div _ ((INR k + 1) ^ 2 * w2)) by nra. rewrite (RtoC_mult _ w2). field. auto.
  - rewrite <- J_0. cbv beta. simpl (2 * 0)%nat. rewrite Wi_0. rewrite RtoC_div by lra. assert (RtoC PI <> RtoC 0) by (apply RtoC_neq0, PI_neq0). field. split; [apply RtoC_neq0; lra|auto].
  - apply (clim_ext (fun k => (J (2 * k) - RtoC (Wi (2 * k))) / RtoC (Wi (2 * k)) + RtoC 1)%C).
    { intros k. pose proof (Wi_pos k). field. apply RtoC_neq0. lra. }
    apply clim_plus1.
    apply (clim_le0 _ (fun k => 16 * K * / INR (S k)) 0).
    + intros k _. pose proof (Wi_pos k) as P. rewrite Cmod_div by (apply RtoC_neq0; lra). rewrite (Cmod_R (Wi (2 * k))), Rabs_pos_eq by lra. pose proof (J_near (2 * k)) as N. pose proof (Wi_rec (2 * k)) as R2. pose proof (pos_INR k) as PK. rewrite !plus_INR, mult_INR in R2. change (INR 1) with 1 in R2. replace (INR 2) with 2 in R2 by (simpl; ring).
      replace (Wi (2 * k) - Wi (2 * k + 2)) with (Wi (2 * k) / (2 * INR k + 2)) in N.
      2:{ apply (Rmult_eq_reg_l (2 * INR k + 2)); [|lra]. rewrite Rmult_minus_distr_l, R2. field. lra. }
      rewrite S_INR. apply (Rmult_le_reg_r (Wi (2 * k))); auto. unfold Rdiv at 1. rewrite Rmult_assoc, Rinv_l, Rmult_1_r by lra. eapply Rle_trans; [exact N|]. right. field. lra.
    + replace (Finite 0) with (Rbar_mult (16 * K) 0) by (simpl; f_equal; ring). apply is_lim_seq_scal_l. apply (is_lim_seq_incr_1 (fun n => / INR n)). apply inv_INR_lim.
Qed.
End Prod.

Lemma csin_parts x y : csin ((x, y) : C) = ((sin x * cosh y, cos x * sinh y) : C).
Proof.
  assert (E : (/ (RtoC 2 * Ci))%C = ((0, - / 2) : C)). { unfold Cinv, Ci, Cmult, RtoC. cbn [fst snd]. f_equal; field. }
  unfold csin, Cdiv. rewrite E. assert (E1 : (Ci * (x, y))%C = ((Ropp y, x) : C)) by (unfold Ci, Cmult; cbn [fst snd]; f_equal; ring). rewrite E1. assert (E2 : Copp ((Ropp y, x) : C) = ((y, Ropp x) : C)) by (unfold Copp; cbn [fst snd]; f_equal; ring). rewrite E2.
  unfold cexp, cexpi, cosh, sinh, Cminus, Cplus, Copp, Cmult, RtoC, Re, Im. cbn [fst snd]. rewrite cos_neg, sin_neg. f_equal; field.
Qed.

(** ** limits of quotients *)
Lemma Cinv_neq0 (z : C) : z <> RtoC 0 -> (/ z)%C <> RtoC 0.
Proof. intros H E. apply C1_neq0. transitivity (z * / z)%C; [symmetry; apply Cinv_r; auto|rewrite E; ring]. Qed.
Lemma clim_inv u l : l <> RtoC 0 -> clim u l -> clim (fun n => / u n)%C (/ l)%C.
Proof.
  intros Hl H eps He. pose proof (proj1 (Cmod_gt_0 l) Hl) as P. destruct (H (Cmod l / 2) ltac:(lra)) as [N1 H1]. destruct (H (eps * (Cmod l * Cmod l) / 2)) as [N2 H2]; [apply Rdiv_lt_0_compat; [|lra]; repeat apply Rmult_lt_0_compat; auto|].
  exists (N1 + N2)%nat. intros n Hn. specialize (H1 n ltac:(lia)). specialize (H2 n ltac:(lia)).
  assert (L : Cmod l / 2 < Cmod (u n)). { pose proof (Cmod_triangle (l - u n)%C (u n)) as T. replace (l - u n + u n)%C with l in T by ring. replace (Cmod (l - u n)%C) with (Cmod (u n - l)%C) in T; [lra|]. rewrite <- Cmod_opp. f_equal. ring. }
  assert (Nu : u n <> RtoC 0) by (apply Cmod_gt_0; lra). replace (/ u n - / l)%C with (- (u n - l) / (u n * l))%C by (field; auto). rewrite Cmod_div, Cmod_opp, Cmod_mult by (apply Cmult_neq_0; auto).
  assert (P2 : 0 < Cmod (u n) * Cmod l) by (apply Rmult_lt_0_compat; lra). apply (Rmult_lt_reg_r (Cmod (u n) * Cmod l)); auto. unfold Rdiv. rewrite Rmult_assoc, Rinv_l, Rmult_1_r by lra.
  eapply Rlt_le_trans; [exact H2|]. replace (eps * (Cmod l * Cmod l) / 2) with (eps * (Cmod l / 2 * Cmod l)) by field. apply Rmult_le_compat_l; [lra|]. apply Rmult_le_compat_r; lra.
Qed.
Fixpoint sp (z : C) (n : nat) : C := match n with 0%nat => RtoC 1 | S k => (sp z k * (RtoC 1 - z * z / RtoC ((INR k + 1) ^ 2)))%C end.
Lemma sp_D (D : nat -> C) z : (forall k, D k = (RtoC 1 - z * z / RtoC ((INR k + 1) ^ 2)) * D (S k))%C -> forall n, D 0%nat = (sp z n * D n)%C.
Proof. intros H n. induction n; cbn [sp]; [ring|]. rewrite IHn, (H n). ring. Qed.
Lemma inv_far (w : C) : clim (fun n => RtoC (INR n) / (RtoC (INR n) + w))%C 1.
Proof.
  apply (clim_ext_from (fun n => - (w / (RtoC (INR n) + w)) + RtoC 1)%C _ _ (S (Z.to_nat (up (Cmod w))))).
  - intros n Hn. assert ((RtoC (INR n) + w)%C <> RtoC 0); [|field; auto].
    intros E. assert (Q : Cmod (RtoC (INR n)) = Cmod w). { rewrite <- (Cmod_opp w). f_equal. transitivity (RtoC (INR n) + w - w)%C; [ring|rewrite E; ring]. }
    rewrite Cmod_R, Rabs_pos_eq in Q by apply pos_INR. destruct (archimed (Cmod w)) as [A _]. apply le_INR in Hn. rewrite S_INR, INR_IZR_INZ, Z2Nat.id in Hn; [lra|]. apply le_IZR. pose proof (Cmod_ge_0 w). lra.
  - apply clim_plus1.
    intros eps He. destruct (archimed (Cmod w + Cmod w / eps + 1)) as [A _]. exists (Z.to_nat (up (Cmod w + Cmod w / eps + 1))). intros n Hn. pose proof (Cmod_ge_0 w) as P.
    assert (Q : 0 <= Cmod w / eps) by (apply Rdiv_le_0_compat; auto). apply le_INR in Hn. rewrite INR_IZR_INZ, Z2Nat.id in Hn by (apply le_IZR; lra).
    assert (L : INR n - Cmod w <= Cmod (RtoC (INR n) + w)%C). { pose proof (Cmod_triangle (RtoC (INR n) + w)%C (- w)%C) as T. replace (RtoC (INR n) + w + - w)%C with (RtoC (INR n)) in T by ring. rewrite Cmod_R, Rabs_pos_eq, Cmod_opp in T by apply pos_INR. lra. }
    replace (- (w / (RtoC (INR n) + w)) - RtoC 0)%C with (- (w / (RtoC (INR n) + w)))%C by ring. rewrite Cmod_opp, Cmod_div by (apply Cmod_gt_0; lra).
    apply (Rmult_lt_reg_r (Cmod (RtoC (INR n) + w)%C)); [lra|]. unfold Rdiv. rewrite Rmult_assoc, Rinv_l, Rmult_1_r by lra. apply Rlt_le_trans with (eps * (Cmod w / eps + 1)); [replace (eps * (Cmod w / eps + 1)) with (Cmod w + eps) by (field; lra); lra|]. apply Rmult_le_compat_l; lra.
Qed.

(** ** reflection *)
Lemma fact_sp (z : C) n : (forall k, z <> RtoC (IZR k)) -> (rising n z * pr (RtoC 1 - z)%C n)%C = (z * (RtoC (INR (fact n)) * RtoC (INR (fact n))) * sp z n)%C.
Proof.
  intros Hz. induction n; [cbn [rising pr sp fact]; simpl INR; ring|]. cbn [rising pr sp]. rewrite fact_simpl, mult_INR.
  transitivity (rising n z * pr (RtoC 1 - z)%C n * ((z + RtoC (INR (S n))) * (RtoC 1 - z + RtoC (INR n))))%C; [ring|]. rewrite IHn, S_INR, RtoC_mult.
  assert (RtoC ((INR n + 1) ^ 2) = (RtoC (INR n) + RtoC 1) * (RtoC (INR n) + RtoC 1))%C as -> by (rewrite <- RtoC_plus, <- RtoC_mult; f_equal; ring).
  pose proof (pos_INR n). assert (N : (RtoC (INR n) + RtoC 1)%C <> RtoC 0) by (rewrite <- RtoC_plus; apply RtoC_neq0; lra). rewrite RtoC_plus. field. auto.
Qed.
Lemma rising_neq0 (z : C) n : (forall k, z <> RtoC (IZR k)) -> rising n z <> RtoC 0.
Proof.
  intros Hz. induction n; cbn [rising]; [apply (Hz 0%Z)|]. apply Cmult_neq_0; auto. intros E. apply (Hz (- Z.of_nat (S n))%Z). rewrite opp_IZR, <- INR_IZR_INZ, RtoC_opp. transitivity (z + RtoC (INR (S n)) - RtoC (INR (S n)))%C; [ring|rewrite E; ring].
Qed.
Lemma rpow_plus a z w : (rpow a z * rpow a w)%C = rpow a (z + w)%C.
Proof.
  unfold rpow, Cmult. cbn [fst snd]. change (Re (z + w)%C) with (Re z + Re w). change (Im (z + w)%C) with (Im z + Im w). rewrite !Rmult_plus_distr_r, exp_plus, cos_plus, sin_plus. f_equal; ring.
Qed.
Lemma rpow_1 a : 0 < a -> rpow a (RtoC 1) = RtoC a.
Proof. intros H. unfold rpow, RtoC, Re, Im. cbn [fst snd]. rewrite Rmult_1_l, Rmult_0_l, exp_ln, cos_0, sin_0 by auto. f_equal; ring. Qed.
Lemma gauss_prod (z : C) n : (1 <= n)%nat -> (forall k, z <> RtoC (IZR k)) -> (gauss z n * gauss (RtoC 1 - z)%C n)%C = (RtoC (INR n) / (RtoC (INR n) + (RtoC 1 - z)) * / (z * sp z n))%C.
Proof.
  intros Hn Hz. assert (Hn0 : 0 < INR n) by (apply lt_0_INR; lia). assert (Hz' : forall k, (RtoC 1 - z)%C <> RtoC (IZR k)). { intros k E. apply (Hz (1 - k)%Z). rewrite minus_IZR, RtoC_minus, <- E. ring. }
  pose proof (rising_neq0 z n Hz) as N1. pose proof (rising_neq0 (RtoC 1 - z)%C n Hz') as N2. pose proof (fact_sp z n Hz) as F. unfold gauss.
  transitivity (RtoC (INR (fact n)) * RtoC (INR (fact n)) * (rpow (INR n) z * rpow (INR n) (RtoC 1 - z)%C) / (rising n z * rising n (RtoC 1 - z)%C))%C; [field; auto|].
  rewrite rpow_plus. replace (z + (RtoC 1 - z))%C with (RtoC 1) by ring. rewrite rpow_1 by auto. rewrite (pr_rising (RtoC 1 - z)%C). rewrite pr_rising in N2. cbn [pr] in N2 |- *.
  assert (N3 : (RtoC 1 - z + RtoC (INR n))%C <> RtoC 0) by (intros E; apply N2; rewrite E; ring). assert (N4 : pr (RtoC 1 - z)%C n <> RtoC 0) by (intros E; apply N2; rewrite E; ring).
  assert (N5 : RtoC (INR (fact n)) <> RtoC 0) by (apply RtoC_neq0; apply INR_fact_neq_0). assert (N0 : z <> RtoC 0) by (apply (Hz 0%Z)).
  assert (N6 : sp z n <> RtoC 0). { intros E. rewrite E in F. apply (Cmult_neq_0 _ _ N1 N4). rewrite F. ring. }
  transitivity (RtoC (INR (fact n)) * RtoC (INR (fact n)) * RtoC (INR n) / (rising n z * pr (RtoC 1 - z)%C n * (RtoC (INR n) + (RtoC 1 - z))))%C; [|rewrite F].
  - field. repeat split; auto; intros E; apply N3; rewrite <- E; change (ZtoC 1) with (RtoC 1); ring.
  - field. repeat split; auto; intros E; apply N3; rewrite <- E; change (ZtoC 1) with (RtoC 1); ring.
Qed.
Lemma reflection (z g : C) : (forall k, z <> RtoC (IZR k)) -> is_Gamma (RtoC 1 - z)%C g -> g <> RtoC 0 -> csin (RtoC PI * z)%C <> RtoC 0 -> is_Gamma z (RtoC PI / (csin (RtoC PI * z)%C * g))%C.
Proof.
  intros Hz Hg Ng Ns. destruct z as [x y] eqn:Ez. destruct (sine_D x y) as (D & D1 & D2 & D3). rewrite <- Ez in *.
  assert (S : csin (RtoC PI * z)%C = (RtoC PI * z * D 0%nat)%C). { rewrite D2, <- csin_parts. f_equal. rewrite Ez. unfold Cmult, RtoC. cbn [fst snd]. f_equal; ring. }
  pose proof (sp_D D z D1) as D4. assert (NP : RtoC PI <> RtoC 0) by (apply RtoC_neq0, PI_neq0). assert (N0 : z <> RtoC 0) by (apply (Hz 0%Z)). assert (ND : D 0%nat <> RtoC 0) by (intros E; apply Ns; rewrite S, E; ring).
  assert (Hz' : forall k, (RtoC 1 - z)%C <> RtoC (IZR k)). { intros k E. apply (Hz (1 - k)%Z). rewrite minus_IZR, RtoC_minus, <- E. ring. }
  assert (L : clim (fun n => RtoC (INR n) / (RtoC (INR n) + (RtoC 1 - z)) * (D n / (z * D 0%nat)) * / gauss (RtoC 1 - z)%C n)%C (RtoC 1 * (RtoC 1 * / (z * D 0%nat)) * / g)%C).
  { apply clim_mult; [apply clim_mult; [apply inv_far|apply clim_mult; [exact D3|apply clim_const]]|apply clim_inv; auto]. }
  replace (RtoC PI / (csin (RtoC PI * z)%C * g))%C with (RtoC 1 * (RtoC 1 * / (z * D 0%nat)) * / g)%C by (rewrite S; field; repeat split; auto).
  refine (clim_ext_from _ _ _ 1%nat _ L). intros n Hn.
  assert (NG : gauss (RtoC 1 - z)%C n <> RtoC 0). { unfold gauss. apply Cmult_neq_0; [apply Cmult_neq_0|]. - apply RtoC_neq0, INR_fact_neq_0. - intros E. apply (f_equal Cmod) in E. unfold rpow in E. pose proof (Cmod_sq ((exp (Re (RtoC 1 - z)%C * ln (INR n)) * cos (Im (RtoC 1 - z)%C * ln (INR n)), exp (Re (RtoC 1 - z)%C * ln (INR n)) * sin (Im (RtoC 1 - z)%C * ln (INR n))) : C)) as Q. rewrite E, Cmod_0 in Q. cbn [fst snd] in Q. set (e := exp _) in Q. set (t := Im _ * _) in Q. pose proof (sin2_cos2 t) as T. unfold Rsqr in T. assert (0 < e) by apply exp_pos. nra. - apply Cinv_neq0. apply rising_neq0; auto. }
  assert (NS : sp z n <> RtoC 0) by (intros E; apply ND; rewrite (D4 n), E; ring).
  assert (NDn : D n <> RtoC 0) by (intros E; apply ND; rewrite (D4 n), E; ring).
  transitivity (gauss z n * gauss (RtoC 1 - z)%C n * / gauss (RtoC 1 - z)%C n)%C; [rewrite (gauss_prod z n Hn Hz)|field; auto]. f_equal. f_equal. rewrite (D4 n). field. repeat split; auto.
Qed.

(** ** accuracy off the lines [Re z = 0, -1, -2, ...] *)
Lemma off_nonint (x : R) : x <= 0 -> (forall n, x <> - INR n) -> forall k, x <> IZR k.
Proof.
  intros Hx H k E. apply (H (Z.to_nat (- k))). rewrite INR_IZR_INZ, Z2Nat.id, opp_IZR; [lra|]. assert (k <= 0)%Z by (apply le_IZR; lra). lia.
Qed.
Lemma csin_neq0 (z : C) : (forall k, Re z <> IZR k) -> csin (RtoC PI * z)%C <> RtoC 0.
Proof.
  intros H. destruct z as [x y]. replace (RtoC PI * (x, y))%C with ((PI * x, PI * y) : C) by (unfold Cmult, RtoC; cbn [fst snd]; f_equal; ring). rewrite csin_parts. intros E. apply (f_equal Re) in E. unfold Re, RtoC in E. cbn [fst] in E.
  assert (P : 0 < cosh (PI * y)) by (unfold cosh; pose proof (exp_pos (PI * y)); pose proof (exp_pos (- (PI * y))); lra). apply Rmult_integral in E. destruct E as [E|E]; [|lra].
  destruct (sin_eq_0_0 _ E) as [k K]. apply (H k). cbn [Re fst]. apply (Rmult_eq_reg_l PI); [|apply PI_neq0]. rewrite K. ring.
Qed.
Lemma inv_err (s v g : C) e : 0 <= e <= 1 / 2 -> s <> RtoC 0 -> v <> RtoC 0 -> g <> RtoC 0 -> Cmod (v - g)%C <= e * Cmod g -> Cmod (RtoC PI * / (s * v) - RtoC PI / (s * g))%C <= e / (1 - e) * Cmod (RtoC PI / (s * g))%C.
Proof.
  intros He Hs Hv Hg H. pose proof (proj1 (Cmod_gt_0 g) Hg) as P. pose proof (proj1 (Cmod_gt_0 v) Hv) as Pv.
  assert (L : (1 - e) * Cmod g <= Cmod v). { pose proof (Cmod_triangle (g - v)%C v) as T. replace (g - v + v)%C with g in T by ring. replace (Cmod (g - v)%C) with (Cmod (v - g)%C) in T; [lra|]. rewrite <- Cmod_opp. f_equal. ring. }
  replace (RtoC PI * / (s * v) - RtoC PI / (s * g))%C with (RtoC PI / (s * g) * (- (v - g) / v))%C by (field; auto). rewrite Cmod_mult, (Rmult_comm (Cmod _)). apply Rmult_le_compat_r; [apply Cmod_ge_0|].
  rewrite Cmod_div, Cmod_opp by auto. apply (Rmult_le_reg_r (Cmod v)); auto. unfold Rdiv at 1. rewrite Rmult_assoc, Rinv_l, Rmult_1_r by lra. eapply Rle_trans; [exact H|]. replace (e / (1 - e) * Cmod v) with (e * (Cmod v / (1 - e))) by (field; lra). apply Rmult_le_compat_l; [lra|].
  apply (Rmult_le_reg_r (1 - e)); [lra|]. unfold Rdiv. rewrite Rmult_assoc, Rinv_l, Rmult_1_r by lra. lra.
Qed.
Lemma near_neq0 (v g : C) e : e <= 1 / 2 -> g <> RtoC 0 -> Cmod (v - g)%C <= e * Cmod g -> v <> RtoC 0.
Proof.
  intros He H M E. subst v. pose proof (proj1 (Cmod_gt_0 g) H). replace (RtoC 0 - g)%C with (- g)%C in M by ring. rewrite Cmod_opp in M. nra.
Qed.
Lemma cinv_some z : z <> RtoC 0 -> cinv z = Some (/ z)%C.
Proof. intros H. unfold cinv. destruct (Reqb_spec (Cmod z) 0) as [E|E]; [|reflexivity]. exfalso. apply H. apply Cmod_eq_0. auto. Qed.
Lemma gamma_accuracy_off (z : C) : (forall n, Re z <> - INR n) -> exists g v, is_Gamma z g /\ gamma_ z = Some v /\ g <> RtoC 0 /\ Cmod (v - g)%C <= 2.2e-11 * Cmod g.
Proof.
  intros H. destruct (Rlt_le_dec 0 (Re z)) as [P|P].
  - destruct (gamma_accuracy z P) as (g & v & A1 & A2 & A3 & A4). exists g, v. repeat split; auto. eapply Rle_trans; [exact A4|]. apply Rmult_le_compat_r; [apply Cmod_ge_0|lra].
  - pose proof (off_nonint (Re z) P H) as I. assert (R1 : 0 < Re (RtoC 1 - z)%C) by (change (0 < 1 - Re z); lra).
    destruct (gamma_accuracy _ R1) as (g & v & A1 & A2 & A3 & A4). rewrite gamma_right in A2 by auto. pose proof (csin_neq0 z I) as S. pose proof (near_neq0 v g 2.1e-11 ltac:(lra) A3 A4) as Nv.
    exists (RtoC PI / (csin (RtoC PI * z)%C * g))%C, (RtoC PI * / (csin (RtoC PI * z)%C * v))%C. split; [|split; [|split]].
    + apply reflection; auto. intros k E. apply (I k). rewrite E. reflexivity.
    + unfold gamma_. destruct (Rleb_spec (Re z) 0); [|exfalso; lra]. destruct (Reqb_spec (Re z) (IZR (Int_part (Re z)))) as [E|E]; [exfalso; apply (I (Int_part (Re z))); auto|]. unfold gamma_reflection. rewrite A2. cbn [cbind]. rewrite (cinv_some _ (Cmult_neq_0 _ _ S Nv)). reflexivity.
    + apply Cmult_neq_0; [apply RtoC_neq0, PI_neq0|]. apply Cinv_neq0, Cmult_neq_0; auto.
    + eapply Rle_trans; [apply (inv_err _ v g 2.1e-11); auto; lra|]. apply Rmult_le_compat_r; [apply Cmod_ge_0|lra].
Qed.
