(** Model of the gamma function of src/microjax/fastlens/special.py and of the kernels of fftlog.py / fftlog_jax.py.
    [None] is NaN or infinity.  [fftlog.py] uses scipy's gamma function, which is an argument here. *)
From Coq Require Import Reals List Bool.
From Coquelicot Require Import Complex.
From Verif Require Import Base_R Base_C M_Fftlog.
Import ListNotations.
Local Open Scope R_scope.
Local Open Scope C_scope.

(** complex [exp], [sin], principal [log] and powers of 2 *)
Definition cexp (z : C) : C := RtoC (exp (Re z)) * cexpi (Im z).
Definition csin (z : C) : C := (cexp (Ci * z) - cexp (- (Ci * z))) / (RtoC 2 * Ci).
Definition carg (z : C) : R :=
  (if Rltb 0 (Re z) then atan (Im z / Re z)
   else if Rltb (Re z) 0 then (if Rltb (Im z) 0 then atan (Im z / Re z) - PI else atan (Im z / Re z) + PI)
   else if Rltb (Im z) 0 then - (PI / 2) else PI / 2)%R.
Definition clog (z : C) : option C := if Reqb (Cmod z) 0 then None else Some (ln (Cmod z), carg z).
Definition cpow2 (z : C) : C := RtoC (Rpower 2 (Re z)) * cexpi (Im z * ln 2).
Definition cbind (a : option C) (f : C -> option C) : option C := match a with Some z => f z | None => None end.
Definition cinv (z : C) : option C := if Reqb (Cmod z) 0 then None else Some (/ z).
Definition coeff (n d : R) : C := RtoC (n / d).

(** special.py:25 *)
Definition gamma_a : list C := [coeff 1 12; coeff (-1) 360; coeff 1 1260; coeff (-1) 1680; coeff 1 1188].
(** special.py:35-39: [gam = a[0] / t] and then [t *= t_squared; gam += a[k] / t] *)
Fixpoint gamma_series (a : list C) (t t2 : C) : C :=
  match a with [] => RtoC 0 | ak :: rest => ak / t + gamma_series rest (t * t2) t2 end.
(** special.py:34-43 [compute_case] *)
Definition gamma_case (z : C) : option C :=
  let N := 16%nat in
  let t := z + RtoC (INR N) in
  let u := prodC (map (fun i => z + RtoC (INR i)) (seq 0 N)) in
  cbind (clog t) (fun logt => cbind (clog u) (fun logu =>
    Some (cexp (RtoC (ln (2 * PI) / 2) - t + (t - RtoC 0.5) * logt - logu + gamma_series gamma_a t (t * t))))).
(** special.py:45-49 [compute_reflection] *)
Definition gamma_reflection (z : C) : option C :=
  cbind (gamma_case (RtoC 1 - z)) (fun gr => cbind (cinv (csin (RtoC PI * z) * gr)) (fun i => Some (RtoC PI * i))).
(** special.py:13-64 [gamma_], one element; the mask of line 58-61 looks at the real part only *)
Definition gamma_ (z : C) : option C :=
  if Rleb (Re z) 0 then (if Reqb (Re z) (IZR (Int_part (Re z))) then None else gamma_reflection z)
  else gamma_case z.

(** fftlog.py:198-200, fftlog_jax.py:196-200: the asymptotic ratio *)
Definition stirling_ratio (ap am q : C) : option C :=
  cbind (clog ap) (fun lp => cbind (clog am) (fun lm => Some (cexp
    ((ap - RtoC 0.5) * lp - (am - RtoC 0.5) * lm - q + coeff 1 12 * (/ ap - / am)
     + coeff 1 360 * (/ Cpow am 3 - / Cpow ap 3) + coeff 1 1260 * (/ Cpow ap 5 - / Cpow am 5))))).
(** fftlog.py:172-203, fftlog_jax.py:173-206 [g_m_vals], one element; numpy's exit for a vanishing
    [mu + 1 + Re q] is not modelled *)
Definition g_m_vals (gamma : C -> option C) (mu : R) (q : C) : option C :=
  let ap := (RtoC (mu + 1) + q) / RtoC 2 in
  let am := (RtoC (mu + 1) - q) / RtoC 2 in
  if (Reqb (Re q) (mu + 1) && Reqb (Im q) 0)%bool then Some (RtoC 0)
  else if Rltb 200 (Rabs (Im q) + Rabs mu) then stirling_ratio ap am q
  else cbind (gamma ap) (fun gp => cbind (gamma am) (fun gm => cbind (cinv gm) (fun i => Some (gp * i)))).
(** fftlog.py:205-228, fftlog_jax.py:209-236 [g_m_ratio] *)
Definition g_m_ratio (gamma : C -> option C) (a : C) : option C :=
  let ap := a + RtoC 0.5 in
  if Rltb 100 (Rabs (Im a)) then
    cbind (clog a) (fun la => cbind (clog ap) (fun lp => Some (cexp
      ((a - RtoC 0.5) * la - a * lp + RtoC 0.5 + coeff 1 12 * (/ a - / ap)
       + coeff 1 360 * (/ Cpow ap 3 - / Cpow a 3) + coeff 1 1260 * (/ Cpow a 5 - / Cpow ap 5)))))
  else cbind (gamma a) (fun gn => cbind (gamma ap) (fun gd => cbind (cinv gd) (fun i => Some (gn * i)))).
(** fftlog.py:230-239, fftlog_jax.py:238-247 [g_l] *)
Definition g_l (gamma : C -> option C) (l : R) (z : C) : option C :=
  cbind (g_m_vals gamma (l + 0.5) (z - RtoC 1.5)) (fun v => Some (cpow2 z * v)).
(** fftlog.py:241-249, fftlog_jax.py:249-257 [g_l_1]: [-2.**(z-1)] is [-(2.**(z-1))] *)
Definition g_l_1 (gamma : C -> option C) (l : R) (z : C) : option C :=
  cbind (g_m_vals gamma (l + 0.5) (z - RtoC 2.5)) (fun v => Some (- cpow2 (z - RtoC 1) * (z - RtoC 1) * v)).
(** fftlog.py:251-259, fftlog_jax.py:259-267 [g_l_2] *)
Definition g_l_2 (gamma : C -> option C) (l : R) (z : C) : option C :=
  cbind (g_m_vals gamma (l + 0.5) (z - RtoC 3.5)) (fun v => Some (cpow2 (z - RtoC 2) * (z - RtoC 1) * (z - RtoC 2) * v)).
(** fftlog.py:261-268, fftlog_jax.py:269-276 [h_l] *)
Definition h_l (gamma : C -> option C) (l : R) (z : C) : option C :=
  cbind (g_m_vals gamma (2 * l + 1) (z - RtoC 2)) (fun v =>
  cbind (g_m_ratio gamma ((RtoC 2 - z) / RtoC 2)) (fun w => Some (v * w))).

(** fftlog.py:70-128, fftlog_jax.py [fftlog], [fftlog_dj], [fftlog_ddj], [fftlog_jsqr]: the four methods differ in the kernel only;
    a NaN in the kernel or in the frequencies makes every output NaN *)
Definition fftlog_with (kernel : C -> option C) (nu width ell : R) (s : fft) : list num * list num :=
  let y := slice s (y_array ell s) in
  match f_dlnx s with
  | Some d =>
      if (negb (Reqb d 0) && all_c (fun m => kernel (nu, (2 * PI / (INR (f_N s) * d) * INR m)%R)) (f_N s / 2 + 1))%bool
      then fftlog (fun z => match kernel z with Some v => v | None => RtoC 0 end) nu width ell s
      else (y, repeat None (length y))
  | None => (y, repeat None (length y))
  end.
Definition fftlog_0 (gamma : C -> option C) (nu width ell : R) (s : fft) := fftlog_with (g_l gamma ell) nu width ell s.
Definition fftlog_dj (gamma : C -> option C) (nu width ell : R) (s : fft) := fftlog_with (g_l_1 gamma ell) nu width ell s.
Definition fftlog_ddj (gamma : C -> option C) (nu width ell : R) (s : fft) := fftlog_with (g_l_2 gamma ell) nu width ell s.
Definition fftlog_jsqr (gamma : C -> option C) (nu width ell : R) (s : fft) := fftlog_with (h_l gamma ell) nu width ell s.
