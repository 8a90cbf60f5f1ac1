(** Model of src/microjax/inverse_ray/cond_extended.py, inverse_ray/lightcurve.py and
    caustics/lightcurve.py (whose two tests differ from the inverse_ray ones only in the triple branch).
    [None] is a non-finite number; a comparison with it is false.  A quotient by zero and a lens position
    inside a denominator are taken as non-finite. *)
From Coq Require Import Reals List Bool Arith ZArith.
From Coquelicot Require Import Complex.
From Verif Require Import Base_R Base_List Base_C M_Utils M_Assembly M_Coeffs M_PointSource M_Limb M_Multipole
  M_MergeArea M_ExtSource.
Import ListNotations.
Local Open Scope R_scope.
Local Open Scope C_scope.

(** the closures f, f_p, f_pp of one branch, with the positions where they divide by zero *)
Record closures := mkclos { cl_f : C -> C; cl_fp : C -> C; cl_fpp : C -> C; cl_pos : list C }.
(** cond_extended.py:62-68, caustics/lightcurve.py:68-74 *)
Definition closures2 (a e1 : R) : closures :=
  let e2 := RtoC (1 - e1)%R in
  mkclos (fun z => - (e1 / (z - a)) - e2 / (z + a))
         (fun z => e1 / (z - a) ^ 2 + e2 / (z + a) ^ 2)
         (fun z => RtoC 2 * (e1 / (a - z) ^ 3 - e2 / (a + z) ^ 3))
         [RtoC a; RtoC (- a)%R].
(** cond_extended.py:70-82 with the real r3; caustics/lightcurve.py:76-93 with r3 * exp(1j * psi) *)
Definition closures3 (a e1 e2 : R) (r3 : C) : closures :=
  let e3 := RtoC (1 - e1 - e2)%R in
  mkclos (fun z => - (e1 / (z - a)) - e2 / (z + a) - e3 / (z + r3))
         (fun z => e1 / (z - a) ^ 2 + e2 / (z + a) ^ 2 + e3 / (z + r3) ^ 2)
         (fun z => RtoC 2 * (e1 / (a - z) ^ 3 - e2 / (a + z) ^ 3) + e3 / (z + r3) ^ 3)
         [RtoC a; RtoC (- a)%R; - r3].

Definition at_pole (cl : closures) (z : C) : bool := existsb (fun p => if Ceq_dec z p then true else false) (cl_pos cl).

Section Proximity.
Variable cl : closures.
(** cond_extended.py:83-91 *)
Definition cond_J (z : C) : R := (1 - Cmod (cl_fp cl z * cl_fp cl (Cconj z))%C)%R.
Definition cond_zhat (w z : C) : C := Cconj w - cl_f cl z.
Definition cond_Jhat (w z : C) : R := (1 - Cmod (cl_fp cl z * cl_fp cl (cond_zhat w z))%C)%R.
(** cond_extended.py:94-95, one image *)
Definition mu_cusp (rho rho_min : R) (z : C) : option R :=
  if at_pole cl z || at_pole cl (Cconj z) || Reqb (cond_J z) 0 then None
  else Some (Rabs (6 * Im (RtoC 3 * cl_fp cl (Cconj z) ^ 3 * cl_fpp cl z ^ 2)%C / cond_J z ^ 5 * (rho + rho_min) ^ 2))%R.
(** cond_extended.py:99-102, one image; Jhat is real, so its conjugate is itself *)
Definition false_factor (w z : C) : option R :=
  let J := RtoC (cond_J z) in let Jhat := RtoC (cond_Jhat w z) in
  let den := Jhat * cl_fpp cl (Cconj z) * cl_fp cl z
             - Jhat * cl_fpp cl z * cl_fp cl (Cconj z) * cl_fp cl (cond_zhat w z) in
  if at_pole cl z || at_pole cl (Cconj z) || at_pole cl (cond_zhat w z) then None
  else if Ceq_dec den 0 then None else Some (Cmod (J * Jhat ^ 2 / den)).
(** sum over the images of value * weight; a non-finite value survives a zero weight *)
Definition weighted (wt : bool -> R) (vals : list (option R)) (mask : list bool) : option R :=
  osum (map (fun p => option_map (fun v => v * wt (snd p))%R (fst p)) (combine vals mask)).
(** cond_extended.py:41-107 [_caustics_proximity_test] from line 83 on, one source position *)
Definition proximity_test (c_m gamma c_f rho_min : R) (w : C) (z : list C) (z_mask : list bool) (rho : R)
    (delta_mu_multi : option R) : bool :=
  let test_multipole_and_cusp :=
    match weighted b2R (map (mu_cusp rho rho_min) z) z_mask, delta_mu_multi with
    | Some mc, Some d => Rltb (gamma * mc + d) c_m
    | _, _ => false
    end in
  let test_false_images :=
    if (length (filter negb z_mask) =? 0)%nat then true
    else match weighted (fun m => b2R (negb m)) (map (false_factor w) z) z_mask with
         | Some sm => Rltb (c_f * (rho + rho_min)) (0.5 * sm)
         | None => false
         end in
  test_false_images && test_multipole_and_cusp.
End Proximity.

(** cond_extended.py:41-107 with the default constants; [third] is how the branch for three lenses places the
    third lens.  Other lens counts leave the names unbound. *)
Definition caustics_proximity_test (third : R -> params -> res C) (nlenses : Z) (p : params) (w : C) (z : list C)
    (z_mask : list bool) (rho : R) (delta : option R) : res bool :=
  let run cl := Ok (proximity_test cl 1e-2 0.02 4 1e-3 w z z_mask rho delta) in
  if (nlenses =? 2)%Z then getp (p_a p) (fun a => getp (p_e1 p) (fun e1 => run (closures2 a e1)))
  else if (nlenses =? 3)%Z then
    getp (p_a p) (fun a => getp (p_r3 p) (fun r3 => res_bind (third r3 p) (fun r => getp (p_e1 p) (fun e1 => getp (p_e2 p) (fun e2 =>
      run (closures3 a e1 e2 r))))))
  else Raise NameError.
Definition third_inverse_ray (r3 : R) (p : params) : res C := Ok (RtoC r3).
Definition third_caustics (r3 : R) (p : params) : res C := getp (p_psi p) (fun psi => Ok (third_lens r3 psi)).

(** cond_extended.py:109-117, caustics/lightcurve.py:122-129 [_planetary_caustic_test] *)
Definition planetary_test (c_p a e1 : R) (w : C) (rho : R) : bool :=
  let s := (2 * a)%R in
  let q := (e1 / (1 - e1))%R in
  let w_pc := RtoC (- 1 / s)%R in
  let delta_pc := (3 * sqrt q / s)%R in
  Rltb (c_p * (rho ^ 2 + delta_pc ^ 2)) (Re (w_pc - w)%C ^ 2 + Im (w_pc - w)%C ^ 2)%R.
Definition planetary_caustic_test (p : params) (w : C) (rho : R) : res bool :=
  getp (p_e1 p) (fun e1 => getp (p_a p) (fun a => Ok (planetary_test 2 a e1 w rho))).

(** the multipole sums of [mag_hexadecapole], non-finite when an image sits on a lens or has |W2| = 1 *)
Definition hex_values (nlenses : Z) (p : params) (cl : closures) (z : list C) (z_mask : list bool) (rho u1 : R)
  : res (option R * option R) :=
  res_map (fun md => if existsb (fun zi => at_pole cl zi || Reqb (cond_J cl zi) 0) z then (None, None)
                     else (Some (fst md), Some (snd md)))
    (mag_hexadecapole nlenses p z z_mask rho u1).

Section WithSolver.
Variable poly_roots : list C -> option (list C) -> list C.

(** one position of the binary tests: (mu_multi, test); lightcurve.py:171-176, caustics/lightcurve.py:227-265 *)
Definition binary_point (p : params) (a e1 q rho u1 : R) (w_shifted : C) : res (option R * bool) :=
  res_bind (images_point_source poly_roots 2 p None w_shifted) (fun '(z, z_mask) =>
  res_bind (hex_values 2 p (closures2 a e1) z z_mask rho u1) (fun '(mu, delta) =>
  res_bind (caustics_proximity_test third_inverse_ray 2 p w_shifted z z_mask rho delta) (fun test1 =>
  res_map (fun test2 => (mu, if Rltb q 0.01 then test1 && test2 else test1))
    (planetary_caustic_test p w_shifted rho)))).

(** cond_extended.py:19-38 [test_full], one position (it does not pass a limb-darkening coefficient) *)
Definition test_full (nlenses : Z) (p : params) (rho : R) (w_shifted : C) : res bool :=
  getp (p_e1 p) (fun e1 =>
    if (nlenses =? 2)%Z then
      getp (p_a p) (fun a => res_map snd (binary_point p a e1 (e1 / (1 - e1)) rho 0 w_shifted))
    else Ok false).

(** inverse_ray/lightcurve.py:178-187, 336-345 [_mag_full] *)
Definition mag_full (nlenses : Z) (p : params) (cfg : ext_cfg) (u1 delta_c rho : R) (w : C) : res (option R) :=
  if Reqb u1 0 then mag_uniform poly_roots nlenses p cfg rho w
  else mag_limb_dark poly_roots nlenses p cfg u1 delta_c rho w.

(** inverse_ray/lightcurve.py:64-218 [mag_binary].  An exception of the integrator surfaces where the integrator is
    called (python would raise it while tracing, even for an empty batch). *)
Definition mag_binary (p : params) (cfg : ext_cfg) (u1 delta_c : R) (max_full : Z) (chunk_size : nat)
    (w_points : list C) (rho : R) : res (list (option R)) :=
  match p_s p, p_q p with
  | Some s, Some q =>
    let a := (0.5 * s)%R in
    let e1 := (q / (1 + q))%R in
    let p' := with_a_e1 p a e1 in
    res_bind (res_mapM (fun w => binary_point p' a e1 q rho u1 (w - x_cm a q)) w_points) (fun pts =>
    res_bind (assemble (RtoC 0) (Ok None) (mag_full 2 p' cfg u1 delta_c rho) w_points
                (map (fun r => Ok (fst r)) pts) (map snd pts) max_full chunk_size) (fun mags =>
    res_mapM (fun m => m) mags))
  | _, _ => Raise ValueError
  end.

(** inverse_ray/lightcurve.py:220-361 [mag_triple] *)
Definition mag_triple (p : params) (cfg : ext_cfg) (u1 delta_c : R) (max_full : Z) (chunk_size : nat)
    (w_points : list C) (rho : R) : res (list (option R)) :=
  getp (p_s p) (fun s => getp (p_q p) (fun q => getp (p_q3 p) (fun q3 =>
    let a := (0.5 * s)%R in
    let e1 := (q / (1 + q + q3))%R in let e2 := (1 / (1 + q + q3))%R in
    let p' := with_a_e1_e2 p a e1 e2 in
    res_bind (res_mapM (fun w => res_bind (images_point_source poly_roots 3 p' None (w - x_cm a q)) (fun '(z, z_mask) =>
        getp (p_r3 p') (fun r3 => res_map fst (hex_values 3 p' (closures3 a e1 e2 (RtoC (- r3)%R)) z z_mask rho u1)))) w_points)
      (fun mu_multi =>
    res_bind (assemble (RtoC 0) (Ok None) (mag_full 3 p' cfg u1 delta_c rho) w_points
                (map (fun m => Ok m) mu_multi) (all_false w_points) max_full chunk_size) (fun mags =>
    res_mapM (fun m => m) mags))))).

(** [w > r] of a complex and a real number: lexicographic *)
Definition complex_gtb (w : C) (r : R) : bool := Rltb r (Re w) || (Reqb (Re w) r && Rltb 0 (Im w)).

(** caustics/lightcurve.py:140-293 [magnifications]; [full] is the contour integrator with the parameters of the
    call; the multipole calls of lines 242 and 247 do not pass u1 *)
Definition magnifications (full : C -> res (option R)) (nlenses : Z) (p : params) (w_points : list C) (rho : R)
  : res (list (option R)) :=
  let finish pts := res_mapM (fun m => m) (cond_map full (map snd pts) (map (fun r => Ok (fst r)) pts) w_points) in
  if (nlenses =? 1)%Z then
    res_bind (res_mapM (fun w => let '(z, z_mask) := images1 w in
       res_map (fun md => ((if existsb (fun zi => Reqb (Cmod zi) 0 || Reqb (Cmod zi) 1) z then None else Some (fst md)),
                           complex_gtb w (2 * rho)))
         (mag_hexadecapole 1 no_params z z_mask rho 0)) w_points) finish
  else if (nlenses =? 2)%Z then
    getp (p_s p) (fun s => getp (p_q p) (fun q =>
      let a := (0.5 * s)%R in let e1 := (q / (1 + q))%R in
      let p' := mkparams None None None None None (Some a) (Some e1) None in
      res_bind (res_mapM (fun w => binary_point p' a e1 q rho 0 (w - x_cm a q)) w_points) finish))
  else if (nlenses =? 3)%Z then
    getp (p_s p) (fun _ => getp (p_q p) (fun _ => getp (p_q3 p) (fun _ => getp (p_r3 p) (fun _ => getp (p_psi p) (fun _ =>
      finish (map (fun _ => (Some 0%R, false)) w_points))))))
  else Raise ValueError.
End WithSolver.
