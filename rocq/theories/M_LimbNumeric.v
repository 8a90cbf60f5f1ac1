(** Model of the jax classes of src/microjax/fastlens/mag_fft_jax.py whose profile is transformed numerically: [mag_limb] (on the base class [mag_]) and
    [mag_limb1] (on [magnification]). *)
From Coq Require Import Reals List.
From Coquelicot Require Import Complex.
From Verif Require Import Base_R Base_List M_Fftlog M_MagFft M_MagCurve.
Import ListNotations.
Local Open Scope R_scope.

(** mag_fft_jax.py:107-111 and 299-303: [A0]; the division by [1 - a1] is of jax arrays *)
Definition mag_limb_centre (ellipk ellipe : R -> R) (rho a1 : R) : num :=
  if Reqb (1 - a1) 0 then None else Some (mag_limb_A0 ellipk ellipe rho a1).
(** mag_fft_jax.py:12-34 [mag_.__init__] *)
Definition construct_mag (g : C -> C) (lo hi : R) (N : nat) : res (list num * list num) := init_Apk g lo hi N 0.
(** mag_fft_jax.py:44-74 with [mag_limb.sk] and [mag_limb.A0] *)
Definition eval_mag_limb (g : C -> C) (ellipk ellipe : R -> R) (lo hi : R) (N : nat) (st : list num * list num) (u rho a1 : R) : res num :=
  A_jax_plain g (sk_numeric g (su_limb a1) lo hi N) (fun rho => mag_limb_centre ellipk ellipe rho a1) (mkcurve (fst st) (snd st) []) u rho.
(** mag_fft_jax.py:225-244 with [mag_limb1.sk] and [mag_limb1.A0] *)
Definition eval_mag_limb1 (g : C -> C) (ellipk ellipe : R -> R) (lo hi : R) (N : nat) (a1 rho_switch u_switch : R) (st : curve) (u rho : R) : res num :=
  A_jax g (sk_numeric g (su_limb1 a1) lo hi N) (fun rho => mag_limb_centre ellipk ellipe rho a1) rho_switch u_switch st u rho.
