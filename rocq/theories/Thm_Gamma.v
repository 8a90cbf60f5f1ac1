(** C69, C70: the gamma function of special.py and the FFTLog kernels against Gauss's limit. *)
From Coq Require Import Reals Lra Lia Arith List.
From Coquelicot Require Import Complex.
From Verif Require Import Base_R Base_C M_Fftlog M_Kernels P_Kernels S_Gamma P_Stirling P_Gamma P_Sine P_GammaKer.
Local Open Scope R_scope.

(** ** C69: [gamma_] is the gamma function *)
(** In full: for every [z] that is not a pole the value is the gamma function of [z] to the documented 1e-10.
    Missing: the vertical lines through the poles ([C69_lines_refuted]). *)
Theorem C69_accuracy_partial : forall z : C, (forall n, Re z <> - INR n) ->
  exists g v, is_Gamma z g /\ gamma_ z = Some v /\ g <> RtoC 0 /\ Cmod (v - g)%C <= 2.2e-11 * Cmod g.
Proof. exact gamma_accuracy_off. Qed.
(** Gauss's limit determines its value, so the theorem above speaks about one number *)
Theorem C69_limit_unique : forall z g g', is_Gamma z g -> is_Gamma z g' -> g = g'.
Proof. exact Gamma_unique. Qed.
(** on the lines [Re z = 0, -1, -2, ...] the mask looks at the real part only, so the value is NaN although the gamma function is finite there *)
Theorem C69_lines_refuted : forall n y, y <> 0 -> gamma_ ((- INR n, y) : C) = None /\ exists g, is_Gamma ((- INR n, y) : C) g /\ g <> RtoC 0.
Proof. intros n y H. split; [apply gamma_lines|apply lines_finite; auto]. Qed.
(** at positive integers the value is the factorial *)
Theorem C69_factorial : forall n, exists v, gamma_ (RtoC (INR n + 1)) = Some v /\ Cmod (v - RtoC (INR (fact n)))%C <= 2.2e-11 * INR (fact n).
Proof.
  intros n. destruct (gamma_accuracy_off (RtoC (INR n + 1))) as (g & v & A & B & _ & D).
  - intros k E. change (INR n + 1 = - INR k) in E. pose proof (pos_INR n). pose proof (pos_INR k). lra.
  - exists v. split; auto. rewrite (Gamma_unique _ _ _ A (is_Gamma_fact n)) in D. rewrite (Cmod_R (INR (fact n))), Rabs_pos_eq in D by apply pos_INR. exact D.
Qed.
Example C69_case : (exists v, gamma_ (RtoC 5) = Some v /\ Cmod (v - RtoC 24)%C <= 1e-9) /\ (forall g, is_Gamma (RtoC (1 / 2)) g -> (g * g)%C = RtoC PI)
  /\ (exists v, gamma_ (RtoC (- 1 / 2)) = Some v /\ v <> RtoC 0) /\ gamma_ ((- 1, 2) : C) = None.
Proof.
  split; [|split; [|split]].
  - destruct (C69_factorial 4) as (v & A & B). replace (INR 4 + 1) with 5 in A by (simpl; lra). replace (INR (fact 4)) with 24 in B by (simpl; lra). exists v. split; auto. lra.
  - exact is_Gamma_half.
  - destruct (C69_accuracy_partial (RtoC (- 1 / 2))) as (g & v & _ & B & C & D).
    + intros n E. change (- 1 / 2 = - INR n) in E. rewrite INR_IZR_INZ in E. assert (E2 : IZR (2 * Z.of_nat n) = IZR 1) by (rewrite mult_IZR; lra). apply eq_IZR in E2. lia.
    + exists v. split; auto. apply (near_neq0 v g 2.2e-11); auto; lra.
  - pose proof (gamma_lines 1 2) as G. simpl in G. exact G.
Qed.

(** ** C70: the kernels are the documented quotients of gamma functions *)
(** In full: for every order and bias for which both gamma functions are finite, the kernels are the quotients in their docstrings to 1e-10.
    Missing: orders and frequencies with |l + 1/2| + |Im z| > 200 and a bias further than 2.5 from 1.5, 2.5 or 3.5 or with an argument in the left half plane;
    there Stirling's series is used at arguments that can be small ([C70_small_argument_refuted]). *)
Theorem C70_kernel_partial : forall l (z : C), off_lines ((RtoC l + z) / RtoC 2)%C -> off_lines ((RtoC (3 + l) - z) / RtoC 2)%C -> kernel_range l 1.5 z ->
  exists v, g_l gamma_ l z = Some v /\ gamma_ratio_by (rpow 2 z) ((RtoC l + z) / RtoC 2)%C ((RtoC (3 + l) - z) / RtoC 2)%C 1e-10 v.
Proof. exact g_l_accuracy. Qed.
Theorem C70_kernel_d_partial : forall l (z : C), off_lines ((RtoC (l - 1) + z) / RtoC 2)%C -> off_lines ((RtoC (4 + l) - z) / RtoC 2)%C -> kernel_range l 2.5 z ->
  exists v, g_l_1 gamma_ l z = Some v /\ gamma_ratio_by (- rpow 2 (z - RtoC 1) * (z - RtoC 1))%C ((RtoC (l - 1) + z) / RtoC 2)%C ((RtoC (4 + l) - z) / RtoC 2)%C 1e-10 v.
Proof. exact g_l_1_accuracy. Qed.
Theorem C70_kernel_dd_partial : forall l (z : C), off_lines ((RtoC (l - 2) + z) / RtoC 2)%C -> off_lines ((RtoC (5 + l) - z) / RtoC 2)%C -> kernel_range l 3.5 z ->
  exists v, g_l_2 gamma_ l z = Some v /\ gamma_ratio_by (rpow 2 (z - RtoC 2) * (z - RtoC 1) * (z - RtoC 2))%C ((RtoC (l - 2) + z) / RtoC 2)%C ((RtoC (5 + l) - z) / RtoC 2)%C 1e-10 v.
Proof. exact g_l_2_accuracy. Qed.
Theorem C70_kernel_sq_partial : forall l (z : C), off_lines (RtoC l + z / RtoC 2)%C -> off_lines (RtoC (2 + l) - z / RtoC 2)%C -> off_lines ((RtoC 2 - z) / RtoC 2)%C -> off_lines ((RtoC 3 - z) / RtoC 2)%C ->
  Rabs (Im z) + Rabs (2 * l + 1) <= 200 \/ (- 1 / 2 <= l /\ - 1 / 2 <= Re z < 2 /\ - 2 * l < Re z) ->
  exists v g1 g2 g3 g4, h_l gamma_ l z = Some v /\ is_Gamma (RtoC l + z / RtoC 2)%C g1 /\ is_Gamma ((RtoC 2 - z) / RtoC 2)%C g2 /\ is_Gamma ((RtoC 3 - z) / RtoC 2)%C g3 /\ is_Gamma (RtoC (2 + l) - z / RtoC 2)%C g4
    /\ g3 <> RtoC 0 /\ g4 <> RtoC 0 /\ Cmod (v - g1 * g2 / g3 / g4)%C <= 1e-10 * Cmod (g1 * g2 / g3 / g4)%C.
Proof. exact h_l_accuracy. Qed.
(** the bias used by the magnification classes and the default one, for all orders from -1/2 on and all frequencies *)
Theorem C70_default_bias : forall l t, - 1 / 2 <= l -> (exists v, g_l gamma_ l (1.5, t) = Some v /\ gamma_ratio_by (rpow 2 (1.5, t)) ((RtoC l + (1.5, t)) / RtoC 2)%C ((RtoC (3 + l) - (1.5, t)) / RtoC 2)%C 1e-10 v)
  /\ (exists v, g_l gamma_ l (1.1, t) = Some v /\ gamma_ratio_by (rpow 2 (1.1, t)) ((RtoC l + (1.1, t)) / RtoC 2)%C ((RtoC (3 + l) - (1.1, t)) / RtoC 2)%C 1e-10 v).
Proof.
  intros l t H. split; (apply C70_kernel_partial; [apply right_off; rewrite half_Re; cbn [Re Cplus Cminus Copp RtoC fst snd]; lra|apply right_off; rewrite half_Re; cbn [Re Cplus Cminus Copp RtoC fst snd]; lra|]); right; cbn [Re fst]; (split; [lra|split; [apply Rabs_le; lra|apply Rabs_def1; lra]]).
Qed.
(** order 300 with a bias of -299.8, inside the range (-l, 2) asked for by the comment in [hankel]: the relative error is above one *)
Theorem C70_small_argument_refuted : exists v, g_l gamma_ 300 (RtoC (- 299.8)) = Some v /\
  ~ gamma_ratio_by (rpow 2 (RtoC (- 299.8))) ((RtoC 300 + RtoC (- 299.8)) / RtoC 2)%C ((RtoC 303 - RtoC (- 299.8)) / RtoC 2)%C 1 v.
Proof. exact kernel_small. Qed.
(** order 5/2 (cylindrical order 3) with bias 7/2: 2^3.5 Gamma (3) / Gamma (1) *)
Example C70_case : exists v, g_l gamma_ 2.5 (RtoC 3.5) = Some v /\ Cmod (v - rpow 2 (RtoC 3.5) * RtoC 2)%C <= 1e-10 * Cmod (rpow 2 (RtoC 3.5) * RtoC 2)%C.
Proof.
  destruct (C70_kernel_partial 2.5 (RtoC 3.5)) as (v & A & (ga & gb & G1 & G2 & _ & _ & B)).
  - apply right_off. rewrite half_Re. change (0 < (2.5 + 3.5) / 2). lra.
  - apply right_off. rewrite half_Re. change (0 < (3 + 2.5 - 3.5) / 2). lra.
  - left. change (Im (RtoC 3.5)) with 0. rewrite Rabs_R0, Rabs_pos_eq by lra. lra.
  - exists v. split; auto. replace ((RtoC 2.5 + RtoC 3.5) / RtoC 2)%C with (RtoC (INR 2 + 1)) in G1 by (rewrite <- RtoC_plus, <- RtoC_div by lra; f_equal; simpl; lra).
    replace ((RtoC (3 + 2.5) - RtoC 3.5) / RtoC 2)%C with (RtoC (INR 0 + 1)) in G2 by (rewrite <- RtoC_minus, <- RtoC_div by lra; f_equal; simpl; lra).
    rewrite (Gamma_unique _ _ _ G1 (is_Gamma_fact 2)), (Gamma_unique _ _ _ G2 (is_Gamma_fact 0)) in B. replace (RtoC (INR (fact 2)) / RtoC (INR (fact 0)))%C with (RtoC 2) in B; [exact B|]. rewrite <- RtoC_div by (simpl; lra). f_equal. simpl. field.
Qed.

Print Assumptions C69_accuracy_partial.
Print Assumptions C69_limit_unique.
Print Assumptions C69_lines_refuted.
Print Assumptions C69_factorial.
Print Assumptions C70_kernel_partial.
Print Assumptions C70_kernel_d_partial.
Print Assumptions C70_kernel_dd_partial.
Print Assumptions C70_kernel_sq_partial.
Print Assumptions C70_default_bias.
Print Assumptions C70_small_argument_refuted.
