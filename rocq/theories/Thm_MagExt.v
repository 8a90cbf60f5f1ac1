(** The extended-source magnification by contour integration, from end to end: property C60. *)
From Coq Require Import Reals List Bool Arith ZArith Lia Lra Permutation.
From Coquelicot Require Import Complex.
From Verif Require Import Base_R Base_List Base_C M_Utils M_PointSource M_Contour M_SourceLimb M_MagExt
  S_PointSource S_Contour S_SourceLimb S_MagExt P_MagExt.
Import ListNotations.
Local Open Scope R_scope.

(** binary lens: whatever the root finder, the value is the signed area of the sampled image curves *)
Theorem C60_binary_partial : forall poly_roots kick jitter gl1 gl2 nb npts u1 p w0 rho s q l closeds opens runs,
  (forall cs i, length (poly_roots cs i) = nb) -> (forall i j, Rabs (jitter i j) <= 1e-9) ->
  p_s p = Some s -> p_q p = Some q ->
  let a := s / 2 in let e1 := q / (1 + q) in
  images_of_source_limb (fun init w => images2 poly_roots a e1 w init) (det_jac2 a e1)
    (w0 - RtoC (a * (1 - q) / (1 + q)))%C rho kick jitter npts 10 = Ok l ->
  contours_fit (row (RtoC 0) (map s_z l)) (row false (map s_mask l)) (row 0 (map s_par l)) nb 15 (4 * length l) closeds opens runs ->
  exists A, mag_extended_source poly_roots kick jitter gl1 gl2 2 npts false u1 p w0 rho = Ok A /\
    contour_magnification (row (RtoC 0) (map s_z l)) (row 0 (map s_par l)) closeds opens runs rho A.
Proof. exact ext_binary. Qed.
(** triple lens, with the masses the code uses *)
Theorem C60_triple_partial : forall poly_roots kick jitter gl1 gl2 nb npts u1 p w0 rho s q q3 r3 psi l closeds opens runs,
  (forall cs i, length (poly_roots cs i) = nb) -> (forall i j, Rabs (jitter i j) <= 1e-9) ->
  p_s p = Some s -> p_q p = Some q -> p_q3 p = Some q3 -> p_r3 p = Some r3 -> p_psi p = Some psi ->
  let a := s / 2 in let e1 := q / (1 + q + q3) in let e2 := (1 - q3) / (1 + q + q3) in
  images_of_source_limb (fun _ w => images3 poly_roots a r3 psi e1 e2 w) (det_jac3 a r3 psi e1 e2)
    (w0 - RtoC (a * (1 - q) / (1 + q)))%C rho kick jitter npts 10 = Ok l ->
  contours_fit (row (RtoC 0) (map s_z l)) (row false (map s_mask l)) (row 0 (map s_par l)) nb 30 (4 * length l) closeds opens runs ->
  exists A, mag_extended_source poly_roots kick jitter gl1 gl2 3 npts false u1 p w0 rho = Ok A /\
    contour_magnification (row (RtoC 0) (map s_z l)) (row 0 (map s_par l)) closeds opens runs rho A.
Proof. exact ext_triple. Qed.
(** the runs always exist *)
Theorem C60_runs_exist : forall z par m n, length z = n -> length par = n -> length m = n -> (0 < n)%nat ->
  exists L, NoDup L /\ forall a b, In (a, b) L <-> is_run z par m a b.
Proof. exact runs_exist. Qed.
(** no caustic crossing: rows that go all the way around and rows that are never real; no budgets *)
Theorem C60_no_crossing : forall (l : list lsample) nb nlenses rho (closeds ghosts : list nat),
  let Z := row (RtoC 0) (map s_z l) in let M := row false (map s_mask l) in let P := row 0 (map s_par l) in
  l <> [] -> List.Forall (fun s => length (s_z s) = nb /\ length (s_mask s) = nb /\ length (s_par s) = nb) l ->
  Permutation (closeds ++ ghosts) (seq 0 nb) ->
  (forall i, In i closeds -> full_circle (Z i) (M i)) -> (forall i b, In i ghosts -> In b (M i) -> b = false) ->
  total_n23 integrate_unif nlenses l rho =
    Rabs (sumR (map (fun i => enclosed (Z i) * nth 0 (P i) 0) closeds)) / (PI * rho ^ 2).
Proof. exact no_crossing_total. Qed.
(** single lens: the two open polygons, without the closing chords *)
Theorem C60_single_partial : forall poly_roots kick jitter gl1 gl2 npts u1 p w0 rho l, (forall i j, Rabs (jitter i j) <= 1e-9) ->
  images_of_source_limb (fun _ w => images1 w) det_jac1 w0 rho kick jitter npts 10 = Ok l ->
  mag_extended_source poly_roots kick jitter gl1 gl2 1 npts false u1 p w0 rho =
    Ok (Rabs (shoelace (row (RtoC 0) (map s_z l) 0) * nth 0 (row 0 (map s_par l) 0) 0 +
              shoelace (row (RtoC 0) (map s_z l) 1) * nth 0 (row 0 (map s_par l) 1) 0) / (PI * rho ^ 2)).
Proof. exact ext_single. Qed.
(** the third mass: every accepted image misses the lens equation of the masses 1 : q : q3 by at least
    this much (less the acceptance tolerance) *)
Theorem C60_triple_masses_refuted : forall poly_roots s q q3 r3 psi w0 rho th zs ms ps k,
  let a := s / 2 in let T := 1 + q + q3 in let p3 := from_com r3 psi in
  solver_column (fun _ w => images3 poly_roots a r3 psi (q / T) ((1 - q3) / T) w) (det_jac3 a r3 psi (q / T) ((1 - q3) / T)) w0 rho th zs ms ps ->
  nth k ms false = true -> let z := nth k zs (RtoC 0) in z <> RtoC (- a) -> z <> p3 ->
  Rabs (q3 / T) * (Cmod (p3 + RtoC a)%C / (Cmod (z + RtoC a)%C * Cmod (z - p3)%C)) - 1e-3 <
  Cmod (lens_map (triple_mid a (q / T) (1 / T) p3) z - limb_at w0 rho th)%C.
Proof. exact triple_images_off. Qed.
Theorem C60_errors : forall poly_roots kick jitter gl1 gl2 npts ld u1 p w0 rho,
  (forall n, n <> 1%Z -> n <> 2%Z -> n <> 3%Z -> mag_extended_source poly_roots kick jitter gl1 gl2 n npts ld u1 p w0 rho = Raise ValueError) /\
  (p_s p = None \/ p_q p = None -> mag_extended_source poly_roots kick jitter gl1 gl2 2 npts ld u1 p w0 rho = Raise KeyError) /\
  (p_s p = None \/ p_q p = None \/ p_q3 p = None \/ p_r3 p = None \/ p_psi p = None ->
     mag_extended_source poly_roots kick jitter gl1 gl2 3 npts ld u1 p w0 rho = Raise KeyError) /\
  ((npts < 2)%nat -> forall n A, mag_extended_source poly_roots kick jitter gl1 gl2 n npts ld u1 p w0 rho <> Ok A).
Proof. exact ext_errors. Qed.

(** one image around a square, a second real on two of four samples *)
Example C60_case : contours_fit (row (RtoC 0) (map s_z case_limb)) (row false (map s_mask case_limb)) (row 0 (map s_par case_limb))
  2 15 16 [0%nat] [1%nat] (fun _ => [(0, 1)%nat]).
Proof. exact case_fit. Qed.
Example C60_case_total : forall rho,
  contour_magnification (row (RtoC 0) (map s_z case_limb)) (row 0 (map s_par case_limb)) [0%nat] [1%nat] (fun _ => [(0, 1)%nat])
    rho (total_n23 integrate_unif 2 case_limb rho).
Proof. exact case_total. Qed.

Print Assumptions C60_binary_partial.
Print Assumptions C60_triple_partial.
Print Assumptions C60_runs_exist.
Print Assumptions C60_no_crossing.
Print Assumptions C60_single_partial.
Print Assumptions C60_triple_masses_refuted.
Print Assumptions C60_errors.
