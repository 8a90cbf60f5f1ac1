(** Model of [magnification_limb.sk] of src/microjax/fastlens/mag_fft.py for every order of the limb-darkening law. *)
From Coq Require Import Reals List Bool.
From Verif Require Import Base_R M_Fftlog M_MagCurve.
Local Open Scope R_scope.

(** mag_fft.py:174-184 [magnification_limb.sk]; [gam] and [jn] are scipy's [gamma] and [jn] *)
Definition sk_limb (gam : R -> R) (jn : R -> R -> R) (n_limb : nat) : list num -> R -> list num :=
  let nu := 1 + INR n_limb / 2 in
  per_k (fun x => if Rltb 0 x then Some (Rpower 2 nu * gam nu * jn nu x / Rpower x nu * nu) else Some (1 / (INR n_limb + 2))).
