(** Model of parts of src/microjax/fastlens/mag_fft.py and mag_fft_jax.py: the point-source magnification and the
    closed-form central magnifications. *)
From Coq Require Import Reals.
From Verif Require Import Base_R.
Local Open Scope R_scope.

(** mag_fft.py:12-13 [A_point] *)
Definition A_point (u : R) : R := (u ^ 2 + 2) / Rabs u / sqrt (u ^ 2 + 4).

(** mag_fft.py:157-161 [magnification_disk.A0]; mag_fft_jax.py:84-85 and 254-255 *)
Definition disk_A0 (rho : R) : R := sqrt (rho ^ 2 + 4) / rho.
(** mag_fft.py:191; mag_fft_jax.py:318-319 [magnification_limb1.A0].  The elliptic integrals are arguments: scipy's in
    mag_fft.py, those of special.py in mag_fft_jax.py *)
Definition limb1_A0 (ellipk ellipe : R -> R) (rho : R) : R :=
  (2 + 1) * (2 * (rho ^ 2 + 2) * ellipe (- rho ^ 2 / 4) - (rho ^ 2 + 4) * ellipk (- rho ^ 2 / 4)) / 3 / rho ^ 3.
(** mag_fft.py:193; mag_fft_jax.py:333-334 *)
Definition limb2_A0 (rho : R) : R :=
  (2 + 2) * (rho * (2 + rho ^ 2) * sqrt (4 + rho ^ 2) - 8 * arcsinh (rho / 2)) / 4 / rho ^ 4.
(** mag_fft.py:186-195 [magnification_limb.A0]; [Ok None] is Python's implicit [None] for [n_limb] 0 *)
Definition limb_A0 (ellipk ellipe : R -> R) (n_limb : nat) (rho : R) : res (option R) :=
  match n_limb with
  | 1%nat => Ok (Some (limb1_A0 ellipk ellipe rho))
  | 2%nat => Ok (Some (limb2_A0 rho))
  | 0%nat => Ok None
  | _ => Raise NotImplementedError
  end.
(** mag_fft_jax.py:107-111 [mag_limb.A0] and 299-303 [mag_limb1.A0] *)
Definition mag_limb_A0 (ellipk ellipe : R -> R) (rho a1 : R) : R :=
  let A0_disk := sqrt (rho ^ 2 + 4) / rho in
  let A0_term1 := (2 + 1) * (2 * (rho ^ 2 + 2) * ellipe (- rho ^ 2 / 4) - (rho ^ 2 + 4) * ellipk (- rho ^ 2 / 4)) / 3 / rho ^ 3 in
  let norm := 1 - a1 in
  (A0_disk - a1 * A0_term1) / norm.
