(** Kernels of FFTLog: property C62. *)
From Coq Require Import Reals List Bool Arith ZArith Lia Lra.
From Coquelicot Require Import Coquelicot.
From Verif Require Import Base_R Base_C Base_List M_Fftlog M_Kernels S_Fftlog P_Fftlog P_FftConv P_Kernels P_Deriv.
Import ListNotations.
Local Open Scope R_scope.

(** ** C62: the derivative transforms return derivatives *)
(** for every input: the plain transform of [f] samples a combination of powers of [y], and the first-derivative transform of [x f] samples its derivative *)
Theorem C62_first_derivative : forall gamma nu width ell x0 r L (F : list R), (forall t, g_l gamma ell (nu, t) <> None) ->
  0 < x0 -> 0 < r -> r <> 1 -> 0 < ell + 1 -> (0 < L)%nat -> length F = (2 * L)%nat -> cut_of width (2 * L) <> 1%nat ->
  exists s s1 y Fo F1 a, fftlog_init (geom x0 r (2 * L)) (map Some F) 0 0 0 = Ok s /\
    fftlog_init (geom x0 r (2 * L)) (map Some (times (rgeom x0 r (2 * L)) F)) 0 0 0 = Ok s1 /\
    fftlog_0 gamma nu width ell s = (map Some y, map Some Fo) /\ fftlog_dj gamma (nu + 1) width ell s1 = (map Some y, map Some F1) /\
    length y = (2 * L)%nat /\ length Fo = (2 * L)%nat /\ length F1 = (2 * L)%nat /\
    forall j, (j < 2 * L)%nat -> let phi := power_sum a nu (2 * PI / (INR (2 * L) * ln r)) L in
      nth j y 0 = (ell + 1) / (x0 * Rpower r (INR (2 * L - 1 - j))) /\ nth j Fo 0 = phi (nth j y 0) /\ is_derive phi (nth j y 0) (nth j F1 0).
Proof. intros gamma nu width ell x0 r L F HK. unfold fftlog_0, fftlog_dj. apply derivative; auto. intros t. apply parts_1. Qed.
Print Assumptions C62_first_derivative.
Theorem C62_second_derivative : forall gamma nu width ell x0 r L (F : list R), (forall t, g_l_1 gamma ell (nu, t) <> None) ->
  0 < x0 -> 0 < r -> r <> 1 -> 0 < ell + 1 -> (0 < L)%nat -> length F = (2 * L)%nat -> cut_of width (2 * L) <> 1%nat ->
  exists s s1 y F1 F2 a, fftlog_init (geom x0 r (2 * L)) (map Some F) 0 0 0 = Ok s /\
    fftlog_init (geom x0 r (2 * L)) (map Some (times (rgeom x0 r (2 * L)) F)) 0 0 0 = Ok s1 /\
    fftlog_dj gamma nu width ell s = (map Some y, map Some F1) /\ fftlog_ddj gamma (nu + 1) width ell s1 = (map Some y, map Some F2) /\
    length y = (2 * L)%nat /\ length F1 = (2 * L)%nat /\ length F2 = (2 * L)%nat /\
    forall j, (j < 2 * L)%nat -> let phi := power_sum a nu (2 * PI / (INR (2 * L) * ln r)) L in
      nth j y 0 = (ell + 1) / (x0 * Rpower r (INR (2 * L - 1 - j))) /\ nth j F1 0 = phi (nth j y 0) /\ is_derive phi (nth j y 0) (nth j F2 0).
Proof. intros gamma nu width ell x0 r L F HK. unfold fftlog_dj, fftlog_ddj. apply derivative; auto. intros t. apply parts_2. Qed.
Print Assumptions C62_second_derivative.
(** with jax's gamma function there is no NaN as long as the integral over the Bessel function converges at the bias *)
Theorem C62_kernel_defined : forall ell nu t, 0 < ell + nu -> nu < ell + 3 -> g_l gamma_ ell (nu, t) <> None /\ g_l_1 gamma_ ell (nu + 1, t)%R <> None.
Proof.
  intros ell nu t H1 H2. pose proof (kernel_defined ell nu t H1 H2) as K. split; auto. rewrite parts_1. destruct (g_l gamma_ ell (nu, t)); [discriminate|contradiction].
Qed.
Print Assumptions C62_kernel_defined.
Example C62_case : (forall t, g_l gamma_ 1 (1.1, t) <> None) /\ 0 < 1 + 1 /\ 2 <> 1 /\ cut_of 0.25 (2 * 16) <> 1%nat.
Proof.
  split; [intros t; apply kernel_defined; lra|]. split; [lra|]. split; [lra|]. rewrite cut_default. change (2 * 16 / 8)%nat with 4%nat. lia.
Qed.
