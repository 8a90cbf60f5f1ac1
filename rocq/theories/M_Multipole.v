(** Model of src/microjax/multipole.py. The image arrays are lists; W_k are the five arrays of one image. *)
From Coq Require Import Reals List Bool ZArith Factorial.
From Coquelicot Require Import Complex.
From Verif Require Import Base_R Base_List Base_C M_Utils M_Coeffs M_PointSource.
Import ListNotations.
Local Open Scope R_scope.
Local Open Scope C_scope.

(** multipole.py:24-235 [_mag_hexadecapole_cassan] for one image *)
Section Cassan.
Variables W2 W3 W4 W5 W6 : C.
(** multipole.py:52 mu0 *)
Definition mu0 : R := (1 / (1 - Cmod W2 ^ 2))%R.
(** multipole.py:49 akl *)
Definition akl (Q : C) : C := RtoC mu0 * (Cconj Q + Cconj W2 * Q).
(** multipole.py:55-56 *)
Definition a10 : C := RtoC mu0 * (1 + Cconj W2).
Definition a01 : C := RtoC mu0 * Ci * (1 - Cconj W2).
(** multipole.py:59-64 order 2 *)
Definition Q20 : C := W3 * a10 * a10.
Definition Q11 : C := W3 * a10 * a01.
Definition Q02 : C := W3 * a01 * a01.
Definition a20 : C := akl Q20.
Definition a11 : C := akl Q11.
Definition a02 : C := akl Q02.
(** multipole.py:67-74 order 3 *)
Definition Q30 : C := W3 * RtoC 3 * a20 * a10 + W4 * a10 * a10 * a10.
Definition Q21 : C := W3 * (RtoC 2 * a11 * a10 + a01 * a20) + W4 * a01 * a10 * a10.
Definition Q12 : C := W3 * (RtoC 2 * a11 * a01 + a10 * a02) + W4 * a10 * a01 * a01.
Definition Q03 : C := W3 * RtoC 3 * a02 * a01 + W4 * a01 * a01 * a01.
Definition a30 : C := akl Q30.
Definition a21 : C := akl Q21.
Definition a12 : C := akl Q12.
Definition a03 : C := akl Q03.
(** multipole.py:77-106 order 4 *)
Definition Q40 : C := W3 * (RtoC 4 * a30 * a10 + RtoC 3 * a20 * a20) + W4 * RtoC 6 * a20 * a10 * a10 + W5 * a10 * a10 * a10 * a10.
Definition Q31 : C := W3 * (RtoC 3 * a21 * a10 + RtoC 3 * a11 * a20 + a01 * a30) + W4 * RtoC 3 * (a11 * a10 * a10 + a01 * a20 * a10) + W5 * a01 * a10 * a10 * a10.
Definition Q22 : C := W3 * (RtoC 2 * a12 * a10 + RtoC 2 * a11 * a11 + a02 * a20 + RtoC 2 * a21 * a01) + W4 * (a02 * a10 * a10 + RtoC 4 * a11 * a01 * a10 + a01 * a01 * a20) + W5 * a01 * a01 * a10 * a10.
Definition Q13 : C := W3 * (RtoC 3 * a12 * a01 + RtoC 3 * a11 * a02 + a10 * a03) + W4 * RtoC 3 * (a11 * a01 * a01 + a10 * a02 * a01) + W5 * a10 * a01 * a01 * a01.
Definition Q04 : C := W3 * (RtoC 4 * a03 * a01 + RtoC 3 * a02 * a02) + W4 * RtoC 6 * a02 * a01 * a01 + W5 * a01 * a01 * a01 * a01.
Definition a40 : C := akl Q40.
Definition a31 : C := akl Q31.
Definition a22 : C := akl Q22.
Definition a13 : C := akl Q13.
Definition a04 : C := akl Q04.
(** multipole.py:109-202 order 5 *)
Definition Q50 : C := W3 * (RtoC 5 * a40 * a10 + RtoC 10 * a20 * a30) + W4 * (RtoC 10 * a30 * a10 * a10 + RtoC 15 * a20 * a20 * a10) + W5 * RtoC 10 * a20 * a10 * a10 * a10 + W6 * a10 * a10 * a10 * a10 * a10.
Definition Q41 : C := W3 * (RtoC 4 * a31 * a10 + RtoC 4 * a11 * a30 + RtoC 6 * a21 * a20 + a01 * a40) + W4 * ( RtoC 6 * a21 * a10 * a10 + RtoC 12 * a11 * a20 * a10 + RtoC 3 * a01 * a20 * a20 + RtoC 4 * a01 * a10 * a30 ) + W5 * (RtoC 4 * a11 * a10 * a10 * a10 + RtoC 6 * a01 * a10 * a10 * a20) + W6 * a01 * a10 * a10 * a10 * a10.
Definition Q32 : C := W3 * ( RtoC 3 * a22 * a10 + RtoC 6 * a11 * a21 + RtoC 3 * a12 * a20 + a02 * a30 + RtoC 2 * a31 * a01 ) + W4 * ( RtoC 3 * a12 * a10 * a10 + RtoC 6 * a11 * a11 * a10 + RtoC 3 * a02 * a20 * a10 + RtoC 6 * a01 * a11 * a20 + RtoC 6 * a01 * a21 * a10 + a01 * a01 * a30 ) + W5 * ( a02 * a10 * a10 * a10 + RtoC 6 * a11 * a01 * a10 * a10 + RtoC 3 * a01 * a01 * a10 * a20 ) + W6 * a01 * a01 * a10 * a10 * a10.
Definition Q23 : C := W3 * ( RtoC 3 * a22 * a01 + RtoC 6 * a11 * a12 + RtoC 3 * a21 * a02 + a20 * a03 + RtoC 2 * a13 * a10 ) + W4 * ( RtoC 3 * a21 * a01 * a01 + RtoC 6 * a11 * a11 * a01 + RtoC 3 * a20 * a02 * a01 + RtoC 6 * a10 * a11 * a02 + RtoC 6 * a10 * a12 * a01 + a10 * a10 * a03 ) + W5 * ( a20 * a01 * a01 * a01 + RtoC 6 * a11 * a10 * a01 * a01 + RtoC 3 * a10 * a10 * a01 * a02 ) + W6 * a10 * a10 * a01 * a01 * a01.
Definition Q14 : C := W3 * (RtoC 4 * a13 * a01 + RtoC 4 * a11 * a03 + RtoC 6 * a12 * a02 + a10 * a04) + W4 * ( RtoC 6 * a12 * a01 * a01 + RtoC 12 * a11 * a02 * a01 + RtoC 3 * a10 * a02 * a02 + RtoC 4 * a10 * a01 * a03 ) + W5 * (RtoC 4 * a11 * a01 * a01 * a01 + RtoC 6 * a10 * a01 * a01 * a02) + W6 * a10 * a01 * a01 * a01 * a01.
Definition Q05 : C := W3 * (RtoC 5 * a04 * a01 + RtoC 10 * a02 * a03) + W4 * (RtoC 10 * a03 * a01 * a01 + RtoC 15 * a02 * a02 * a01) + W5 * RtoC 10 * a02 * a01 * a01 * a01 + W6 * a01 * a01 * a01 * a01 * a01.
Definition a50 : C := akl Q50.
Definition a41 : C := akl Q41.
Definition a32 : C := akl Q32.
Definition a23 : C := akl Q23.
Definition a14 : C := akl Q14.
Definition a05 : C := akl Q05.
(** multipole.py:205-214 *)
Definition mu2 : R :=
  (1 / 4 * Im (a01 * Cconj (a12 + a30) + Cconj a10 * (a03 + a21) + RtoC 2 * a02 * Cconj a11 + RtoC 2 * a11 * Cconj a20)%C)%R.
(** multipole.py:215-229 *)
Definition mu4 : R :=
  (1 / 8 * Im ((a05 + RtoC 2 * a23 + a41) * Cconj a10 + RtoC 4 * a04 * Cconj a11 + RtoC 4 * (a13 + a31) * Cconj a20
    + RtoC 6 * a12 * Cconj a21 + RtoC 6 * a21 * Cconj a30 + a03 * (RtoC 6 * Cconj a12 + RtoC 2 * Cconj a30)
    + RtoC 4 * a02 * Cconj (a13 + a31) + RtoC 4 * a11 * Cconj a40 + a01 * Cconj (a14 + RtoC 2 * a32 + a50))%C)%R.
(** multipole.py:46,231-235: (mu_ps, delta_mu_quad, delta_mu_hex) *)
Definition cassan (rho u1 : R) : R * R * R :=
  (let Gamma := 2 * u1 / (3 - u1) in
   (mu0, 1 / 2 * mu2 * (1 - 1 / 5 * Gamma) * rho ^ 2, 1 / 24 * mu4 * (1 - 11 / 35 * Gamma) * rho ^ 4))%R.
End Cassan.

(** multipole.py:281 factorial(n) = exp(gammaln(n+1)), and the common factor (-1)**(k-1) * factorial(k-1) *)
Definition wfac (k : nat) : C := RtoC ((-1) ^ (k - 1) * INR (fact (k - 1)))%R.
(** multipole.py:283-304 the functions W(k) *)
Definition W_one (z : C) (k : nat) : C := wfac k * 1 / z ^ k.
Definition W_two (a e1 : R) (z : C) (k : nat) : C := wfac k * (e1 / (z - a) ^ k + (1 - e1)%R / (z + a) ^ k).
(** r3 enters as the real parameter, without the phase psi *)
Definition W_three (a r3 e1 e2 : R) (z : C) (k : nat) : C :=
  wfac k * (e1 / (z - a) ^ k + e2 / (z + a) ^ k + (1 - e1 - e2)%R / (z - r3) ^ k).

(** multipole.py:306-316 *)
Definition cassan_of (W : nat -> C) (rho u1 : R) : R * R * R := cassan (W 2%nat) (W 3%nat) (W 4%nat) (W 5%nat) (W 6%nat) rho u1.
Definition hex_sum (W : C -> nat -> C) (z : list C) (z_mask : list bool) (rho u1 : R) : R * R :=
  let per := map (fun zi => cassan_of (W zi) rho u1) z in
  let b (m : bool) : R := if m then 1%R else 0%R in
  let mu_multi := sumR (map (fun p => let '((mu, dq), dh) := fst p in (b (snd p) * Rabs (mu + dq + dh))%R) (combine per z_mask)) in
  let quad_abs := sumR (map (fun p => let '((mu, dq), dh) := fst p in (b (snd p) * Rabs dq)%R) (combine per z_mask)) in
  let hex_abs := sumR (map (fun p => let '((mu, dq), dh) := fst p in (b (snd p) * Rabs dh)%R) (combine per z_mask)) in
  (mu_multi, (quad_abs + hex_abs)%R).

(** multipole.py:237-316 [mag_hexadecapole] *)
Definition mag_hexadecapole (nlenses : Z) (p : params) (z : list C) (z_mask : list bool) (rho u1 : R) : res (R * R) :=
  if (nlenses =? 1)%Z then Ok (hex_sum W_one z z_mask rho u1)
  else if (nlenses =? 2)%Z then
    getp (p_a p) (fun a => getp (p_e1 p) (fun e1 => Ok (hex_sum (W_two a e1) z z_mask rho u1)))
  else if (nlenses =? 3)%Z then
    getp (p_a p) (fun a => getp (p_r3 p) (fun r3 => getp (p_e1 p) (fun e1 => getp (p_e2 p) (fun e2 =>
      Ok (hex_sum (W_three a r3 e1 e2) z z_mask rho u1)))))
  else Raise ValueError.
