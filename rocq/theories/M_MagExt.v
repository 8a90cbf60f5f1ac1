(** Model of src/microjax/caustics/extended_source/mag.py: [mag_extended_source], putting together
    limb.py (M_SourceLimb), segments.py (M_Segments, M_SegMerge), contours.py and integrate.py
    (M_Contour). *)
From Coq Require Import Reals Bool List Arith ZArith.
From Coquelicot Require Import Complex.
From Verif Require Import Base_R Base_List Base_C M_Utils M_PointSource M_Contour M_Segments M_SegMerge M_SourceLimb.
Import ListNotations.
Local Open Scope R_scope.

(** rows of the arrays z, z_mask, z_parity of shape (n_images, n_samples) *)
Definition n_images (l : list lsample) : nat := length (s_z (hd no_limb_sample l)).
Definition z_row (l : list lsample) (i : nat) : list C := map (fun s => nth i (s_z s) (RtoC 0)) l.
Definition mask_row (l : list lsample) (i : nat) : list bool := map (fun s => nth i (s_mask s) false) l.
Definition par_row (l : list lsample) (i : nat) : list R := map (fun s => nth i (s_par s) 0) l.

(** mag.py:129-135 *)
Definition total_n1 (integrate : list C -> nat -> R) (l : list lsample) (rho : R) : R :=
  mag_ext_n1 integrate (map (fun i => (z_row l i, par_row l i)) (seq 0 (n_images l))) rho.
(** mag.py:137-163 with contours.py:45-80 ([max_nr_of_contours] = 3,
    [max_nr_of_segments_in_contour] = 20) *)
Definition total_n23 (integrate : list C -> nat -> R) (nlenses : nat) (l : list lsample) (rho : R) : R :=
  let tracks := map (fun i => mask_track (z_row l i) (mask_row l i) (par_row l i)) (seq 0 (n_images l)) in
  let '(closed, opened, all_closed) := get_segments tracks nlenses in
  mag_ext_n23 integrate closed (fst (merge_open_segments opened 3 20)) all_closed rho.

Section Mag.
Variable poly_roots : list C -> option (list C) -> list C.
Variable kick : nat -> nat -> C.
Variable jitter : nat -> nat -> R.
Variables gl1 gl2 : list (R * R).   (* Gauss-Legendre nodes for [npts_ld], integrate.py *)

(** mag.py:113-127: the integrator *)
Definition integrator (lens : C -> C) (limb_darkening : bool) (u1 : R) (w0 : C) (rho : R) (z : list C) (tidx : nat) : R :=
  if limb_darkening then integrate_ld lens gl1 gl2 z tidx w0 rho u1 else integrate_unif z tidx.

(** mag.py:35-166 [mag_extended_source]; [niter] keeps its default 10 *)
Definition mag_extended_source (nlenses : Z) (npts_limb : nat) (limb_darkening : bool) (u1 : R) (p : params) (w0 : C) (rho : R) : res R :=
  if (nlenses =? 1)%Z then
    res_map (fun l => total_n1 (integrator lens_eq1 limb_darkening u1 w0 rho) l rho)
      (images_of_source_limb (fun _ w => images1 w) det_jac1 w0 rho kick jitter npts_limb 10)
  else if (nlenses =? 2)%Z then
    getp (p_s p) (fun s => getp (p_q p) (fun q =>
      let a := 0.5 * s in let e1 := q / (1 + q) in
      let w := (w0 - RtoC (x_cm a q))%C in
      res_map (fun l => total_n23 (integrator (lens_eq2 a e1) limb_darkening u1 w rho) 2 l rho)
        (images_of_source_limb (fun init w => images2 poly_roots a e1 w init) (det_jac2 a e1) w rho kick jitter npts_limb 10)))
  else if (nlenses =? 3)%Z then
    getp (p_s p) (fun s => getp (p_q p) (fun q => getp (p_q3 p) (fun q3 =>
    getp (p_r3 p) (fun r3 => getp (p_psi p) (fun psi =>
      let a := 0.5 * s in
      let e1 := q / (1 + q + q3) in let e2 := (1 - q3) / (1 + q + q3) in
      let w := (w0 - RtoC (x_cm a q))%C in
      res_map (fun l => total_n23 (integrator (lens_eq3 a r3 psi e1 e2) limb_darkening u1 w rho) 3 l rho)
        (images_of_source_limb (fun _ w => images3 poly_roots a r3 psi e1 e2 w) (det_jac3 a r3 psi e1 e2) w rho kick jitter npts_limb 10))))))
  else Raise ValueError.
End Mag.
