(** C71: the derivative rule of the gamma function of special.py. *)
From Coq Require Import Reals Lra Lia Arith List.
From Coquelicot Require Import Complex.
From Verif Require Import Base_R Base_C M_Fftlog M_Kernels P_Kernels S_Gamma P_Stirling P_Gamma P_Sine P_GammaKer S_Digamma M_Digamma P_Digamma P_DigammaDer.
Local Open Scope R_scope.

(** In full: wherever the gamma function is differentiable, the rule returns its derivative times the tangent, to 4e-11 relative to the
    sizes of the derivative and of the function.  Missing: the vertical lines through the poles ([C71_lines_refuted]), where [gamma_] is NaN. *)
Theorem C71_jvp_partial : forall z x_dot : C, (forall n, Re z <> - INR n) ->
  exists v w g d, gamma_jvp z x_dot = Some (v, w) /\ gamma_ z = Some v /\ is_Gamma z g /\ Gamma_derivative z d
    /\ Cmod (w - d * x_dot)%C <= 4e-11 * (Cmod d + Cmod g) * Cmod x_dot.
Proof. exact jvp_accuracy. Qed.
(** the gamma function has at most one derivative at a point, and has one off the poles *)
Theorem C71_derivative_exists : forall z : C, ~ pole z -> exists d, Gamma_derivative z d.
Proof. intros z H. destruct (Gamma_exists z H) as (g & G & _). destruct (Digamma_exists z H) as (p & P). eauto using gamma_derivative. Qed.
Theorem C71_derivative_unique : forall z d d', Gamma_derivative z d -> Gamma_derivative z d' -> d = d'.
Proof. exact derivative_unique. Qed.
(** [digamma_] itself: Gauss's limit to 3.8e-11 at every point that is not a pole *)
Theorem C71_digamma : forall z : C, ~ pole z -> exists v p, digamma_ z = Some v /\ is_Digamma z p /\ Cmod (v - p)%C <= 3.8e-11.
Proof. exact digamma_accuracy. Qed.
(** Gauss's limit for the digamma function is the logarithmic derivative of the gamma function *)
Theorem C71_log_derivative : forall z g p, ~ pole z -> is_Gamma z g -> is_Digamma z p -> Gamma_derivative z (g * p)%C.
Proof. exact gamma_derivative. Qed.
(** on the lines [Re z = 0, -1, -2, ...] the rule returns NaN although the derivative exists and [digamma_] is finite *)
Theorem C71_lines_refuted : forall n y (x_dot : C), y <> 0 -> gamma_jvp ((- INR n, y) : C) x_dot = None
  /\ (exists d, Gamma_derivative ((- INR n, y) : C) d) /\ (exists v, digamma_ ((- INR n, y) : C) = Some v).
Proof.
  intros n y x_dot H. assert (NP : ~ pole ((- INR n, y) : C)) by (intros (m & E); apply (f_equal Im) in E; cbn [Im snd RtoC] in E; auto).
  split; [unfold gamma_jvp; rewrite gamma_lines; reflexivity|]. split; [apply C71_derivative_exists; auto|]. destruct (C71_digamma _ NP) as (v & _ & A & _). eauto.
Qed.
(** the differences at 1 and 2, and the reflection of 3/2 into -1/2, come out right; at a pole there is no value *)
Example C71_case : (exists v1 v2, digamma_ (RtoC 1) = Some v1 /\ digamma_ (RtoC 1 + RtoC 1)%C = Some v2 /\ Cmod (v2 - v1 - RtoC 1)%C <= 8e-11)
  /\ (exists v w, digamma_ (RtoC (- 1 / 2)) = Some v /\ digamma_ (RtoC 1 - RtoC (- 1 / 2))%C = Some w /\ Cmod (v - w)%C <= 8e-11) /\ digamma_ (RtoC 0) = None.
Proof.
  assert (P1 : ~ pole (RtoC 1)) by (intros (n & E); apply (f_equal Re) in E; cbn [Re fst RtoC] in E; pose proof (pos_INR n); lra).
  assert (NI : forall k, RtoC (- 1 / 2) <> RtoC (IZR k)).
  { intros k E. apply (f_equal Re) in E. cbn [Re fst RtoC] in E. assert (E2 : IZR (2 * k) = IZR (- 1)) by (rewrite mult_IZR; lra). apply eq_IZR in E2. lia. }
  split; [|split].
  - destruct (C71_digamma _ P1) as (v1 & p1 & A1 & B1 & D1). destruct (C71_digamma _ (pole_step _ P1)) as (v2 & p2 & A2 & B2 & D2).
    exists v1, v2. split; auto. split; auto. rewrite (Digamma_unique _ _ _ B1 (Digamma_step _ _ P1 B2)) in D1.
    replace (v2 - v1 - RtoC 1)%C with ((v2 - p2) - (v1 - (p2 - / RtoC 1)))%C by (field; apply RtoC_neq0; lra). eapply Rle_trans; [apply Cmod_sub_le; [exact D2|exact D1]|]. lra.
  - destruct (proj1 (nonint_poles _) NI) as [Q1 Q2]. destruct (C71_digamma _ Q1) as (v & p & A & B & D). destruct (C71_digamma _ Q2) as (w & q & A2 & B2 & D2).
    exists v, w. split; auto. split; auto. pose proof (Digamma_unique _ _ _ B (digamma_reflection _ q NI B2)) as E.
    assert (C0 : ccos (RtoC PI * RtoC (- 1 / 2))%C = RtoC 0).
    { rewrite <- RtoC_mult. unfold ccos, cexp, cexpi. cbn [Re Im fst snd Cmult Copp Ci RtoC]. replace (0 * (PI * (- 1 / 2)) - 1 * 0) with 0 by ring. replace (0 * 0 + 1 * (PI * (- 1 / 2))) with (- (PI / 2)) by field. rewrite !Ropp_0, !Ropp_involutive, exp_0, cos_neg, sin_neg, cos_PI2, sin_PI2.
      unfold Cdiv. apply Ceq; cbn; field. }
    rewrite C0 in E. replace (q - RtoC PI * (RtoC 0 / csin (RtoC PI * RtoC (- 1 / 2))))%C with q in E by (unfold Cdiv; ring). subst p. replace (v - w)%C with ((v - q) - (w - q))%C by ring. eapply Rle_trans; [apply Cmod_sub_le; [exact D|exact D2]|]. lra.
  - unfold digamma_, digamma_body. cbn [Re fst RtoC]. destruct (Rltb_spec 0 0); [lra|]. destruct (Rltb_spec 0 8); [|lra]. cbn [seq inv_sum]. unfold cinv. simpl INR. rewrite Cplus_0_r, Cmod_0. destruct (Reqb_spec 0 0); [reflexivity|lra].
Qed.

Print Assumptions C71_jvp_partial.
Print Assumptions C71_derivative_exists.
Print Assumptions C71_derivative_unique.
Print Assumptions C71_digamma.
Print Assumptions C71_log_derivative.
Print Assumptions C71_lines_refuted.
