(** Model of src/microjax/inverse_ray/extended_source.py.  [None] means that an inf/nan value appeared. *)
From Coq Require Import Reals List Bool Arith ZArith.
From Coquelicot Require Import Complex.
From Verif Require Import Base_R Base_List Base_C M_Utils M_PointSource M_Limb M_MergeArea.
Import ListNotations.
Local Open Scope R_scope.

(** [jnp.clip(x, 0.0, 1.0)] *)
Definition clip01 (x : R) : R := Rmin (Rmax x 0) 1.
(** quotient, undefined at 0 *)
Definition odiv (n d : R) : option R := if Reqb d 0 then None else Some (n / d).
Definition olift2 (f : R -> R -> R) (a b : option R) : option R :=
  match a, b with Some x, Some y => Some (f x y) | _, _ => None end.
(** [jnp.sum]: undefined when an entry is *)
Fixpoint osum (l : list (option R)) : option R :=
  match l with [] => Some 0 | x :: t => olift2 Rplus x (osum t) end.

Definition four := (R * R * R * R)%type.
Definition entries (l : list four) : list R := flat_map (fun '(a, b, c, d) => [a; b; c; d]) l.
(** extended_source.py:376-378: the window is shared by all entries of the batch *)
Definition interp_window (nodes : list four) (epsilon : R) : R * R :=
  let x_min := jmin (entries nodes) in
  let x_max := jmax (entries nodes) in
  (x_min, Rmax (x_max - x_min) epsilon).
(** extended_source.py:379-389, one entry *)
Definition interp_at (x_min scale epsilon x : R) (nd : four) (y0 y1 y2 y3 : R) : option R :=
  let '(x0, x1, x2, x3) := nd in
  let h u := (u - x_min) / scale in
  let x_hat := h x in let x0h := h x0 in let x1h := h x1 in let x2h := h x2 in let x3h := h x3 in
  let L0 := odiv ((x_hat - x1h) * (x_hat - x2h) * (x_hat - x3h))
                 ((x0h - x1h + epsilon) * (x0h - x2h + epsilon) * (x0h - x3h + epsilon)) in
  let L1 := odiv ((x_hat - x0h) * (x_hat - x2h) * (x_hat - x3h))
                 ((x1h - x0h + epsilon) * (x1h - x2h + epsilon) * (x1h - x3h + epsilon)) in
  let L2 := odiv ((x_hat - x0h) * (x_hat - x1h) * (x_hat - x3h))
                 ((x2h - x0h + epsilon) * (x2h - x1h + epsilon) * (x2h - x3h + epsilon)) in
  let L3 := odiv ((x_hat - x0h) * (x_hat - x1h) * (x_hat - x2h))
                 ((x3h - x0h + epsilon) * (x3h - x1h + epsilon) * (x3h - x2h + epsilon)) in
  let m y := option_map (fun v => y * v) in
  olift2 Rplus (olift2 Rplus (olift2 Rplus (m y0 L0) (m y1 L1)) (m y2 L2)) (m y3 L3).
(** extended_source.py:332-389 [cubic_interp] with scalar x and y and arrays x0 .. x3; scale = 0 (all nodes equal
    and epsilon <= 0) is a division by zero *)
Definition cubic_interp (x : R) (nodes : list four) (y0 y1 y2 y3 epsilon : R) : list (option R) :=
  let '(x_min, scale) := interp_window nodes epsilon in
  map (fun nd => if Reqb scale 0 then None else interp_at x_min scale epsilon x nd y0 y1 y2 y3) nodes.

(** d[i], d[i+1], d[i+2], d[i+3] for i in range(n) *)
Definition windows (n : nat) (d : list R) : list four :=
  map (fun i => (nth i d 0, nth (i + 1) d 0, nth (i + 2) d 0, nth (i + 3) d 0)) (seq 0 n).
Definition zero_term : R := 1e-10.

(** extended_source.py:286-297 (mag_uniform._process_r), the cell between d1 and d2 *)
Definition uniform_cell (rho r0 dth d1 d2 th_est : R) : R :=
  let in1 := in_source d1 rho in
  let in2 := in_source d2 rho in
  let num_inside := in1 * in2 in
  let num_in2out := in1 * (1 - in2) in
  let num_out2in := (1 - in1) * in2 in
  let frac_in2out := clip01 (th_est - 1) in
  let frac_out2in := clip01 (2 - th_est) in
  r0 * dth * num_inside + r0 * dth * (num_in2out * frac_in2out + num_out2in * frac_out2in).
(** extended_source.py:274-297 from the distances on; fewer than four samples: jnp.min of an empty array raises *)
Definition process_r_uniform (rho r0 dth : R) (distances : list R) : res (option R) :=
  if (length distances <? 4)%nat then Raise ValueError else
  let w := windows (length distances - 3) distances in
  let th_est := cubic_interp rho w 0 1 2 3 zero_term in
  Ok (osum (map (fun p => let '((_, d1, d2, _), te) := p in option_map (uniform_cell rho r0 dth d1 d2) te)
                (combine w th_est))).

(** extended_source.py:141-156 (mag_limb_dark._process_r), the cell at the centre of d0 .. d4 *)
Definition limb_cell (rho r0 dth delta_c d1 d2 d3 Is2 te1 te2 : R) : R :=
  let in1 := in_source d1 rho in
  let in2 := in_source d2 rho in
  let in3 := in_source d3 rho in
  let num_inside := in1 * in2 * in3 in
  let num_B1 := (1 - in1) * in2 * in3 in
  let num_B2 := in1 * in2 * (1 - in3) in
  let delta_B1 := clip01 (2 - te1) + zero_term in
  let delta_B2 := clip01 (te2 - 1) + zero_term in
  let fac_B1 := calc_facB delta_B1 delta_c in
  let fac_B2 := calc_facB delta_B2 delta_c in
  r0 * dth * Is2 * num_inside + r0 * dth * Is2 * fac_B1 * num_B1 + r0 * dth * Is2 * fac_B2 * num_B2.
(** extended_source.py:126-156 from the distances on *)
Definition process_r_limb (rho u1 delta_c r0 dth : R) (d : list R) : res (option R) :=
  if (length d <? 5)%nat then Raise ValueError else
  let n := (length d - 4)%nat in
  let B1 := cubic_interp rho (windows n d) 0 1 2 3 zero_term in
  let B2 := cubic_interp rho (windows n (tl d)) 0 1 2 3 zero_term in
  Ok (osum (map (fun p => let '(i, (te1, te2)) := p in
        match te1, te2, Is_limb_1st (nth (i + 2) d 0 / rho) u1 with
        | Some t1, Some t2, Some Is2 =>
          Some (limb_cell rho r0 dth delta_c (nth (i + 1) d 0) (nth (i + 2) d 0) (nth (i + 3) d 0) Is2 t1 t2)
        | _, _, _ => None end)
      (combine (seq 0 n) (combine B1 B2)))).

(** monadic map over [res] *)
Fixpoint res_mapM {A B} (f : A -> res B) (l : list A) : res (list B) :=
  match l with [] => Ok [] | x :: t => res_bind (f x) (fun y => res_map (cons y) (res_mapM f t)) end.

(** extended_source.py:159-175, 300-312 [_compute_for_range]; [dist r th] is the distance from the source centre of
    the mapped grid point, [proc r dth distances] the angular sum *)
Definition compute_for_range (dist : R -> R -> res R) (proc : R -> R -> list R -> res (option R))
    (r_resolution th_resolution : nat) (g : region) : res (option R) :=
  let '((r_lo, r_hi), (th_lo, th_hi)) := g in
  let r_values := linspace r_lo r_hi r_resolution in
  let th_values := linspace th_lo th_hi th_resolution in
  let dth := nth 1 th_values 0 - nth 0 th_values 0 in
  let dr := nth 1 r_values 0 - nth 0 r_values 0 in
  res_map (fun area_r => option_map (fun v => dr * v) (osum area_r))
    (res_mapM (fun r0 => res_bind (res_mapM (dist r0) th_values) (proc r0 dth)) r_values).
(** extended_source.py:177-184, 317-324: lax.scan over the regions *)
Definition scan_regions (compute : region -> res (option R)) (scan : list region) : res (option R) :=
  fold_left (fun acc g => res_bind acc (fun a => res_map (olift2 Rplus a) (compute g))) scan (Ok (Some 0)).

Section WithSolver.
Variable poly_roots : list C -> option (list C) -> list C.
Local Open Scope C_scope.

(** extended_source.py:107-118, 254-265: the parameter dictionary handed on; other lens counts leave the local
    names unbound *)
Definition ext_params {A} (nlenses : Z) (p : params) (k : R -> R -> params -> res A) : res A :=
  if (nlenses =? 2)%Z then
    getp (p_q p) (fun q => getp (p_s p) (fun s =>
      k s q (mkparams (Some s) (Some q) None None None (Some (0.5 * s)%R) (Some (q / (1 + q))%R) None)))
  else if (nlenses =? 3)%Z then
    getp (p_s p) (fun s => getp (p_q p) (fun q => getp (p_q3 p) (fun q3 => getp (p_r3 p) (fun r3 => getp (p_psi p) (fun psi =>
      let tm := (1 + q + q3)%R in
      k s q (mkparams (Some s) (Some q) (Some q3) (Some r3) (Some psi) (Some (0.5 * s)%R) (Some (q / tm)%R) (Some (1 / tm)%R)))))))
  else Raise NameError.

Record ext_cfg := mkcfg { c_rres : nat; c_thres : nat; c_nlimb : nat; c_binsr : nat; c_binsth : nat;
  c_marr : R; c_marth : R }.

(** extended_source.py:192-330 [mag_uniform] *)
Definition mag_uniform (nlenses : Z) (p : params) (cfg : ext_cfg) (rho : R) (w_center : C) : res (option R) :=
  ext_params nlenses p (fun s q p' =>
    let shifted := ((0.5 * s) * (1 - q) / (1 + q))%R in
    let wcs := w_center - shifted in
    res_bind (calc_source_limb poly_roots nlenses p' w_center rho (c_nlimb cfg)) (fun '(image_limb, mask_limb) =>
    res_bind (define_regions image_limb mask_limb rho (c_binsr cfg) (c_binsth cfg) (c_marr cfg) (c_marth cfg) nlenses)
      (fun regions => match regions with
       | None => Ok None
       | Some scan =>
         res_map (option_map (fun v => v / rho ^ 2 / PI)%R)
           (scan_regions (compute_for_range (fun r th => distance_from_source nlenses p' r th wcs shifted)
              (process_r_uniform rho) (c_rres cfg) (c_thres cfg)) scan)
       end))).

(** extended_source.py:41-189 [mag_limb_dark]; line 122 does not pass nlenses to calc_source_limb, whose default is 2 *)
Definition mag_limb_dark (nlenses : Z) (p : params) (cfg : ext_cfg) (u1 delta_c rho : R) (w_center : C) : res (option R) :=
  ext_params nlenses p (fun s q p' =>
    let shifted := (0.5 * s * (1 - q) / (1 + q))%R in
    let wcs := w_center - shifted in
    res_bind (calc_source_limb poly_roots 2 p' w_center rho (c_nlimb cfg)) (fun '(image_limb, mask_limb) =>
    res_bind (define_regions image_limb mask_limb rho (c_binsr cfg) (c_binsth cfg) (c_marr cfg) (c_marth cfg) nlenses)
      (fun regions => match regions with
       | None => Ok None
       | Some scan =>
         res_map (option_map (fun v => v / rho ^ 2)%R)
           (scan_regions (compute_for_range (fun r th => distance_from_source nlenses p' r th wcs shifted)
              (process_r_limb rho u1 delta_c) (c_rres cfg) (c_thres cfg)) scan)
       end))).
End WithSolver.
