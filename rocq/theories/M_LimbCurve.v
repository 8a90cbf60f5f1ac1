(** Model of the source-profile classes of src/microjax/fastlens/mag_fft.py and mag_fft_jax.py as objects: a method may return
    Python's [None] or raise.  Arithmetic of an array with [None] raises TypeError. *)
From Coq Require Import Reals List Bool.
From Coquelicot Require Import Complex.
From Verif Require Import Base_R Base_List M_Fftlog M_Special M_MagFft M_MagCurve M_ProfileOrder.
Import ListNotations.
Local Open Scope R_scope.

(** the two methods a class supplies; the inner [None] is Python's [None] *)
Record source_class := mkclass { m_sk : list num -> R -> option (list num); m_A0 : R -> res (option R) }.
(** mag_fft.py:65-71, mag_fft_jax.py:168-174 (the base class), mag_fft.py:197-219, mag_fft_jax.py:336-349 [magnification_log]:
    [sk] and [A0] are [pass] *)
Definition unfinished_class : source_class := mkclass (fun _ _ => None) (fun _ => Ok None).
(** mag_fft.py:145-161, mag_fft_jax.py:246-255 [magnification_disk] *)
Definition disk_class (J1 : R -> R) : source_class := mkclass (fun k rho => Some (sk_disk J1 k rho)) (fun rho => Ok (Some (disk_A0 rho))).
(** mag_fft.py:163-195 [magnification_limb] *)
Definition limb_class (gam : R -> R) (jn : R -> R -> R) (ellipk ellipe : R -> R) (n_limb : nat) : source_class :=
  mkclass (fun k rho => Some (sk_limb gam jn n_limb k rho)) (limb_A0 ellipk ellipe n_limb).
(** mag_fft_jax.py:306-319 [magnification_limb1] and 321-334 [magnification_limb2] *)
Definition limb1_class (gam15 : R) (ellipk ellipe : R -> R) : source_class :=
  mkclass (fun k rho => Some (sk_limb1 gam15 k rho)) (fun rho => Ok (Some (limb1_A0 ellipk ellipe rho))).
Definition limb2_class (J2 : R -> R) (gam2 : R) : source_class :=
  mkclass (fun k rho => Some (sk_limb2 J2 gam2 k rho)) (fun rho => Ok (Some (limb2_A0 rho))).

(** [array * v] for the value [v] of a method *)
Definition times {A B} (v : option A) (f : A -> res B) : res B := match v with None => Raise TypeError | Some s => f s end.
(** mag_fft.py:40-63 [__init__], grid -5, 5, 1024 for the table; mag_fft_jax.py:137-166 *)
Definition construct_np (g : C -> C) (c : source_class) (lo hi : R) (N : nat) : res curve :=
  bind (init_Apk g lo hi N 512) (fun '(k, apk) =>
  times (m_sk c (map Some (logspace (-5) 5 1024)) 1) (fun s =>
  bind (init_Aext0 g (fun _ _ => s) (-5) 5 1024 1024) (fun ext => Ok (mkcurve k apk ext)))).
Definition construct_jax (g : C -> C) (c : source_class) (lo hi : R) (N : nat) : res curve :=
  bind (init_Apk g lo hi N 0) (fun '(k, apk) =>
  times (m_sk c (map Some (logspace lo hi N)) 1) (fun s =>
  bind (init_Aext0 g (fun _ _ => s) lo hi N N) (fun ext => Ok (mkcurve k apk ext)))).
(** mag_fft.py:93-142: the central value is computed for every impact parameter, after the samples *)
Definition eval_np (g : C -> C) (c : source_class) (rho_switch u_switch : R) (st : curve) (u rho : R) : res num :=
  let u := Rabs u in
  if Rltb rho rho_switch then Ok (A_small interp_np (c_aext st) u_switch u rho)
  else times (m_sk c (c_k st) rho) (fun s => bind (fft_samples g (fun _ _ => s) (c_k st) (c_apk st) rho) (fun '(uf, af) =>
       bind (m_A0 c rho) (fun a => times a (fun a0 =>
       Ok (if Rltb 0 u then interp_np (lg u) (log_knots (trunc_np uf af)) (Some 1) else Some a0))))).
(** mag_fft_jax.py:194-244: both branches are evaluated, the central value before the samples *)
Definition eval_jax (g : C -> C) (c : source_class) (rho_switch u_switch : R) (st : curve) (u rho : R) : res num :=
  let u := Rabs u in
  let small := A_small interp_jax (c_aext st) u_switch u rho in
  bind (m_A0 c rho) (fun a => times a (fun a0 => times (m_sk c (c_k st) rho) (fun s =>
  bind (fft_samples g (fun _ _ => s) (c_k st) (c_apk st) rho) (fun '(uf, af) =>
  let large := if Rltb 0 u then interp_jax (lg u) (log_knots (trunc_jax uf af)) (Some 1) else Some a0 in
  Ok (if Rltb rho rho_switch then small else large))))).

(** mag_fft.py:201-208, mag_fft_jax.py:337-343 [magnification_log.su]: the profile is computed and then dropped.  [None]: log 0, 0 log 0 *)
Definition su_log (u : list R) (rho : R) : list num :=
  map (fun u => let x := u / rho in if Rltb 0 x then Some (x * ln x) else None) u.
