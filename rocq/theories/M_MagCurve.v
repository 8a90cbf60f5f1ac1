(** Model of the light curves of src/microjax/fastlens/mag_fft.py and mag_fft_jax.py: source profiles, transforms,
    interpolation and the choice of branch.  [None] is NaN or infinity; [g] is the kernel [g_l (-1/2)], the Bessel functions
    [J1], [J2] and the elliptic integrals are arguments.  Calls are modelled for one impact parameter. *)
From Coq Require Import Reals List Bool.
From Coquelicot Require Import Complex.
From Verif Require Import Base_R Base_List M_Fftlog M_Special M_MagFft.
Import ListNotations.
Local Open Scope R_scope.

Definition lg (x : R) : R := ln x / ln 10.
(** [np.logspace], [jnp.logspace] *)
Definition logspace (a b : R) (n : nat) : list R :=
  map (fun i => Rpower 10 (a + INR i * ((b - a) / INR (n - 1)))) (seq 0 n).
Definition nmap (f : R -> R) (x : num) : num := option_map f x.

(** ** interpolation *)
Definition line (x1 : R) (f1 : num) (x2 : R) (f2 : num) (x : R) : num :=
  nbind f1 (fun f1 => nbind f2 (fun f2 => Some ((f2 - f1) / (x2 - x1) * (x - x1) + f1))).
(** [np.interp] for increasing knots: the last knot not above [x]; an exact hit returns the sample *)
Fixpoint seg_np (x : R) (kn : list (R * num)) : num :=
  match kn with
  | [] => None
  | (x1, f1) :: tl =>
      match tl with
      | [] => f1
      | (x2, f2) :: _ => if Rltb x x2 then (if Reqb x x1 then f1 else line x1 f1 x2 f2 x) else seg_np x tl
      end
  end.
Definition interp_np (x : R) (kn : list (R * num)) (right : num) : num :=
  match kn with
  | [] => None
  | (x0, f0) :: _ => if Rltb x x0 then f0 else if Rltb (fst (last kn (x0, f0))) x then right else seg_np x kn
  end.
(** [jnp.interp]: [searchsorted (side = right)] clipped to [1, len - 1]; equal knots give the left sample
    (in jax: knots closer than [spacing (eps)], about 5e-32) *)
Fixpoint seg_jax (x : R) (kn : list (R * num)) : num :=
  match kn with
  | [] => None
  | (x1, f1) :: tl =>
      match tl with
      | [] => f1
      | (x2, f2) :: tl' =>
          if (Rltb x x2 || match tl' with [] => true | _ => false end)%bool
          then (if Reqb x2 x1 then f1 else line x1 f1 x2 f2 x)
          else seg_jax x tl
      end
  end.
Definition interp_jax (x : R) (kn : list (R * num)) (right : num) : num :=
  match kn with
  | [] => None
  | (x0, f0) :: _ => if Rltb x x0 then f0 else if Rltb (fst (last kn (x0, f0))) x then right else seg_jax x kn
  end.

(** ** what a curve object holds *)
Record curve := mkcurve { c_k : list num; c_apk : list num; c_aext : list (R * num) }.
(** mag_fft.py:49, mag_fft_jax.py:30 and 146 *)
Definition u2Au (u : R) : R := ((u ^ 2 + 2) / sqrt (u ^ 2 + 4) / u - 1) * u ^ 2.
(** mag_fft.py:44-52, mag_fft_jax.py:25-34 and 141-150 [init_Apk]; numpy extrapolates by 512 points at both ends, jax does not *)
Definition init_Apk (g : C -> C) (lo hi : R) (N next : nat) : res (list num * list num) :=
  let u := logspace lo hi N in
  bind (hankel g 1.5 0.25 0 (map Some u) (map (fun u => Some (u2Au u)) u) next next 0) (fun '(k, apk) =>
  Ok (k, map (nmap (fun a => a * 2 * PI)) apk)).
Definition knots (u a : list num) : list (R * num) :=
  flat_map (fun '(u, a) => match u with Some u => [(u, a)] | None => [] end) (combine u a).
(** mag_fft.py:54-63 (grid -5, 5, 1024 and padding 1024), mag_fft_jax.py:152-166 (the FFT grid and padding [N_fft]) [init_Aext0];
    numpy drops knots at NaN positions only in this model (there are none) *)
Definition init_Aext0 (g : C -> C) (sk : list num -> R -> list num) (lo hi : R) (N pad : nat) : res (list (R * num)) :=
  let x := logspace lo hi N in
  let fx := map (fun '(x, s) => nmul (Some x) (nmul s (Some (exp (- (x / 100) ^ 2))))) (combine x (sk (map Some x) 1)) in
  bind (hankel g 1.5 0.25 0 (map Some x) fx 0 0 pad) (fun '(u, a) => Ok (knots u a)).
Definition init_np (g : C -> C) (sk : list num -> R -> list num) (lo hi : R) (N : nat) : res curve :=
  bind (init_Apk g lo hi N 512) (fun '(k, apk) =>
  bind (init_Aext0 g sk (-5) 5 1024 1024) (fun ext => Ok (mkcurve k apk ext))).
Definition init_jax (g : C -> C) (sk : list num -> R -> list num) (lo hi : R) (N : nat) : res curve :=
  bind (init_Apk g lo hi N 0) (fun '(k, apk) =>
  bind (init_Aext0 g sk lo hi N N) (fun ext => Ok (mkcurve k apk ext))).

(** ** evaluation *)
Definition A_point_n (u : R) : num := if Reqb u 0 then None else Some (A_point u).
(** mag_fft.py:73-91, mag_fft_jax.py:176-192 [_A_for_small_rho], for [u >= 0] *)
Definition A_small (interp : R -> list (R * num) -> num -> num) (ext : list (R * num)) (u_switch u rho : R) : num :=
  if Rltb u (u_switch * rho)
  then nmap (fun a => a / rho + 1) (interp (u / rho) ext (snd (last ext (0, None))))
  else A_point_n u.
(** mag_fft.py:102-112, mag_fft_jax.py:203-213: the samples of the magnification on the FFT grid *)
Definition fft_samples (g : C -> C) (sk : list num -> R -> list num) (k apk : list num) (rho : R) : res (list num * list num) :=
  let k_rho := 2 * PI / rho in
  let cj := map (fun '(ka, s) => let '(k, apk) := ka in
                   nmul (nmul (nmul apk (nmap (fun k => k ^ 2) k)) s) (nmap (fun k => exp (- (k / k_rho / 20) ^ 2)) k))
                (combine (combine k apk) (sk k rho)) in
  bind (hankel g 1.5 0.25 0 k cj 0 0 512) (fun '(u, a) => Ok (u, map (nmap (fun a => a / 2 / PI + 1)) a)).
(** mag_fft.py:114-117: samples below 100, then the knot (100, 1) *)
Definition trunc_np (u a : list num) : list (R * num) :=
  filter (fun p => Rltb (fst p) 100) (knots u a) ++ [(100, Some 1)].
(** mag_fft_jax.py:65-68 and 214-217: samples from 100 on are moved to (100, 1) *)
Definition trunc_jax (u a : list num) : list (R * num) :=
  map (fun '(u, a) => match u with Some u => if Rltb u 100 then (u, a) else (100, Some 1) | None => (100, Some 1) end) (combine u a).
Definition log_knots (kn : list (R * num)) : list (R * num) := map (fun '(u, a) => (lg u, a)) kn.
(** mag_fft.py:93-124, mag_fft_jax.py:194-223 [_A_for_large_rho], for [u >= 0] *)
Definition A_large (interp : R -> list (R * num) -> num -> num) (trunc : list num -> list num -> list (R * num))
    (g : C -> C) (sk : list num -> R -> list num) (A0 : R -> num) (k apk : list num) (u rho : R) : res num :=
  bind (fft_samples g sk k apk rho) (fun '(uf, af) =>
  Ok (if Rltb 0 u then interp (lg u) (log_knots (trunc uf af)) (Some 1) else A0 rho)).
(** mag_fft.py:126-142, mag_fft_jax.py:225-244 [A] (jax evaluates both branches and selects) *)
Definition A_curve (interp : R -> list (R * num) -> num -> num) (trunc : list num -> list num -> list (R * num))
    (g : C -> C) (sk : list num -> R -> list num) (A0 : R -> num) (rho_switch u_switch : R) (st : curve) (u rho : R) : res num :=
  let u := Rabs u in
  if Rltb rho rho_switch then Ok (A_small interp (c_aext st) u_switch u rho)
  else A_large interp trunc g sk A0 (c_k st) (c_apk st) u rho.
Definition A_np := A_curve interp_np trunc_np.
Definition A_jax := A_curve interp_jax trunc_jax.
(** mag_fft_jax.py:44-74 [mag_.A]: no small-source branch *)
Definition A_jax_plain (g : C -> C) (sk : list num -> R -> list num) (A0 : R -> num) (st : curve) (u rho : R) : res num :=
  A_large interp_jax trunc_jax g sk A0 (c_k st) (c_apk st) (Rabs u) rho.

(** ** source profiles in Fourier space *)
Definition per_k (f : R -> num) (k : list num) (rho : R) : list num := map (fun k => nbind k (fun k => f (k * rho))) k.
(** mag_fft.py:146-155, mag_fft_jax.py:77-82 and 247-252 *)
Definition sk_disk (J1 : R -> R) : list num -> R -> list num :=
  per_k (fun x => if Rltb 0 x then Some (2 * J1 x / x) else Some 1).
(** mag_fft_jax.py:310-316 [magnification_limb1.sk], mag_fft.py:174-184 with [n_limb = 1]; [gam15] is [gamma 1.5] *)
Definition sk_limb1 (gam15 : R) : list num -> R -> list num :=
  per_k (fun x => if Rltb 0 x then nmap (fun j => 1.5 * Rpower 2 1.5 * gam15 * j / Rpower x 1.5) (j1p5_ x) else Some (1 / (1 + 2))).
(** mag_fft_jax.py:325-331 [magnification_limb2.sk], mag_fft.py:174-184 with [n_limb = 2]; [gam2] is [gamma 2] *)
Definition sk_limb2 (J2 : R -> R) (gam2 : R) : list num -> R -> list num :=
  per_k (fun x => if Rltb 0 x then Some (2 ^ 2 * gam2 * J2 x / x ^ 2 * 2) else Some (1 / (2 + 2))).
(** mag_fft_jax.py:277-284 [mag_limb1.sk__] and 287-297 [mag_limb1.sk_]; [NaN] of the unused branch does not matter; division by
    [1 - a1] *)
Definition sk_linear__ (J1 : R -> R) (a1 : R) : list num -> R -> list num :=
  per_k (fun x => if Rltb 0 x then ndiv (Some (2 * J1 x / x - a1 * (3 * (sin x - x * cos x) / x ^ 3))) (Some (1 - a1)) else Some 1).
Definition sk_linear_ (J1 : R -> R) (gam15 a1 : R) : list num -> R -> list num :=
  per_k (fun x => if Rltb 0 x
                  then ndiv (nbind (j1p5_ x) (fun j => Some (2 * J1 x / x - a1 * (1.5 * Rpower 2 1.5 * gam15 * j / Rpower x 1.5)))) (Some (1 - a1))
                  else Some (1 / (1 + 2))).
(** mag_fft_jax.py:91-97 [mag_limb.su] and 262-266 [mag_limb1.su]: the latter divides by its first value *)
Definition su_linear (a1 rho u : R) : R := if Rltb u rho then 1 - a1 * (1 - sqrt (Rabs (1 - u ^ 2 / rho ^ 2))) else 0.
Definition su_limb (a1 rho : R) (u : list R) : list num := map (fun u => Some (su_linear a1 rho u)) u.
Definition su_limb1 (a1 rho : R) (u : list R) : list num :=
  map (fun v => ndiv (Some v) (Some (nth 0 (map (su_linear a1 rho) u) 0))) (map (su_linear a1 rho) u).
(** mag_fft_jax.py:99-105 [mag_limb.sk], 268-275 [mag_limb1.sk]: the argument [k] is overwritten; an exception of [hankel] is
    not modelled (there is none for two or more points) *)
Definition sk_numeric (g : C -> C) (su : R -> list R -> list num) (lo hi : R) (N : nat) (k : list num) (rho : R) : list num :=
  let u := logspace lo hi N in
  match hankel g 1.5 0.25 0 (map Some u) (map (fun '(u, s) => nmul (Some (u ^ 2)) s) (combine u (su rho u))) 0 0 0 with
  | Ok (_, s) => map (fun v => ndiv v (nth 0 s None)) s
  | Raise _ => []
  end.
