(** Model of the digamma function and of the derivative rule of src/microjax/fastlens/special.py.
    [None] is NaN or infinity. *)
From Coq Require Import Reals List Bool.
From Coquelicot Require Import Complex.
From Verif Require Import Base_R Base_C M_Fftlog M_Kernels.
Import ListNotations.
Local Open Scope R_scope.
Local Open Scope C_scope.

(** jnp.cos of a complex number *)
Definition ccos (z : C) : C := (cexp (Ci * z) + cexp (- (Ci * z))) / RtoC 2.
(** special.py:76-88 [coeffs] *)
Definition digamma_coeffs : list C :=
  map RtoC [0.08333333333333333%R; (-0.008333333333333333)%R; 0.003968253968253968%R; (-0.004166666666666667)%R;
            0.007575757575757576%R; (-0.021092796092796094)%R; 0.08333333333333333%R; (-0.4432598039215686)%R].
(** special.py:95 [jnp.pi / jnp.tan(jnp.pi * z)]; zero where the tangent is infinite *)
Definition pi_over_tan (z : C) : option C :=
  cbind (cinv (csin (RtoC PI * z))) (fun i => Some (RtoC PI * (ccos (RtoC PI * z) * i))).
(** special.py:103 [jnp.sum(1.0 / (z[:, None] + jnp.arange(X)), axis=-1)], X = 8 *)
Fixpoint inv_sum (z : C) (l : list nat) : option C :=
  match l with
  | [] => Some (RtoC 0)
  | i :: rest => cbind (cinv (z + RtoC (INR i))) (fun v => cbind (inv_sum z rest) (fun s => Some (v + s)))
  end.
(** special.py:99-111, after the reflection: [psi] is the contribution of the reflection *)
Definition digamma_body (z psi : C) : option C :=
  let small := Rltb (Re z) 8 in
  cbind (if small then inv_sum z (seq 0 8) else Some (RtoC 0)) (fun n_add =>
  let z := if small then z + RtoC 8 else z in
  cbind (cinv z) (fun t => cbind (clog z) (fun l =>
  Some (psi - n_add + (l - RtoC 0.5 * t) - t * t * polyval (rev digamma_coeffs) (t * t))))).
(** special.py:67-113 [digamma_], one element *)
Definition digamma_ (z : C) : option C :=
  if Rltb (Re z) 0 then cbind (pi_over_tan z) (fun r => digamma_body (RtoC 1 - z) (- r))
  else digamma_body z (RtoC 0).
(** special.py:116-122 [gamma_jvp] *)
Definition gamma_jvp (x x_dot : C) : option (C * C) :=
  match gamma_ x, digamma_ x with
  | Some primal_out, Some d => Some (primal_out, primal_out * d * x_dot)
  | _, _ => None
  end.
