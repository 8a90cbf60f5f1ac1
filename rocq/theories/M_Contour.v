(** Model of the contour integrals: src/microjax/caustics/integrate.py and
    src/microjax/caustics/extended_source/contours.py.
    A contour is the list of its sampled points; the parity row is real. *)
From Coq Require Import Reals Bool List Arith ZArith.
From Coquelicot Require Import Complex.
From Verif Require Import Base_R Base_List M_Utils.
Import ListNotations.
Local Open Scope R_scope.

(** integrate.py:29-33 [_integrate_unif] *)
Definition integrate_unif (z : list C) (tidx : nat) : R :=
  let I1 := trapz_zero_avoiding (map (fun p : C => 0.5 * Re p) z) (map (fun p : C => Im p) z) tidx in
  let I2 := trapz_zero_avoiding (map (fun p : C => -0.5 * Im p) z) (map (fun p : C => Re p) z) tidx in
  I1 + I2.

(** integrate.py:24-27 [_integrate_gauss_legendre], for one pair of limits; [gl] is the list of
    (node, weight) pairs returned by numpy's [leggauss] (an input of the model). *)
Definition integrate_gl (gl : list (R * R)) (f : R -> R) (a b : R) : R :=
  sumR (map (fun pw => 0.5 * (b - a) * f (0.5 * (b - a) * fst pw + 0.5 * (b + a)) * snd pw) gl).

(** integrate.py:35-50 [_brightness_profile]; [w] is the source-plane position [lens_eq z].
    [safe_for_grad_sqrt] and both branches of the [where] are evaluated as written. *)
Definition safe_sqrt (x : R) : R := sqrt (if Rltb 0 x then x else 0).
Definition profile_B (r : R) : R :=
  if Rleb r 1 then 1 + safe_sqrt (1 - r ^ 2) else 1 - safe_sqrt (1 - 1 / r ^ 2).
Definition brightness_profile (lens : C -> C) (rho : R) (w0 : C) (u1 : R) (z : C) : R :=
  let w := lens z in
  let r := Cmod (w - w0)%C / rho in
  3 / (3 - u1) * (u1 * profile_B r + 1 - 2 * u1).

(** integrate.py:57-71, 88-102: where the one dimensional integrals are split *)
Definition ld_split (rho a b : R) : R :=
  let abs_delta := Rabs (b - a) in
  let sp := if Rltb a b then b - 2 * rho else b + 2 * rho in
  if Rleb (0.5 * abs_delta) (2 * rho) then a + 0.5 * abs_delta else sp.

(** integrate.py:55-84, 86-115 [P], [Q] at one contour point *)
Definition ld_P (lens : C -> C) (gl1 gl2 : list (R * R)) (rho : R) (w0 : C) (u1 y0 : R) (p : C) : R :=
  let a := y0 in let b := Im p in let sp := ld_split rho a b in
  let f := fun y => brightness_profile lens rho w0 u1 (Re p, y) in
  -0.5 * (integrate_gl gl1 f a sp + integrate_gl gl2 f sp b).
Definition ld_Q (lens : C -> C) (gl1 gl2 : list (R * R)) (rho : R) (w0 : C) (u1 x0 : R) (p : C) : R :=
  let a := x0 in let b := Re p in let sp := ld_split rho a b in
  let f := fun x => brightness_profile lens rho w0 u1 (x, Im p) in
  0.5 * (integrate_gl gl1 f a sp + integrate_gl gl2 f sp b).

Fixpoint sumC (l : list C) : C := match l with [] => RtoC 0 | a :: t => (a + sumC t)%C end.

(** integrate.py:53-127 [_integrate_ld]; [gl1], [gl2] are the Gauss-Legendre rules with
    [npts/2] and [npts - npts/2] nodes. *)
Definition integrate_ld (lens : C -> C) (gl1 gl2 : list (R * R)) (z : list C) (tidx : nat)
    (w0 : C) (rho u1 : R) : R :=
  let z0 := (sumC z / RtoC (INR (tidx + 1)))%C in
  let P := map (ld_P lens gl1 gl2 rho w0 u1 (Im z0)) z in
  let Q := map (ld_Q lens gl1 gl2 rho w0 u1 (Re z0)) z in
  trapz_zero_avoiding P (map (fun p : C => Re p) z) tidx + trapz_zero_avoiding Q (map (fun p : C => Im p) z) tidx.

(** a segment buffer: row of positions, row of parities *)
Definition seg : Type := (list C * list R)%type.

(** contours.py:21-42 [_contours_from_closed_segments], one row *)
Definition contour_of_closed (s : seg) : list C * R :=
  (fst s ++ [nth 0 (fst s) (RtoC 0)], nth 0 (snd s) 0).

(** contours.py:75-80: closing a merged open segment; out-of-range writes are dropped by JAX *)
Definition close_contour (c : list C) : list C :=
  upd c (last_nonzero (map (fun p : C => Re p) c) + 1) (nth 0 c (RtoC 0)).
Definition contour_of_open (s : seg) : list C * R := (close_contour (fst s), nth 0 (snd s) 0).

(** mag.py:129-135: the single-lens total; the tail index is that of the un-closed buffer *)
Definition mag_ext_n1 (integrate : list C -> nat -> R) (tracks : list seg) (rho : R) : R :=
  let npts := match tracks with s :: _ => length (fst s) | [] => 0%nat end in
  let cs := map contour_of_closed tracks in
  Rabs (sumR (map (fun c => integrate (fst c) (npts - 1)%nat * snd c) cs)) / (PI * rho ^ 2).

(** mag.py:137-161: the binary/triple total from closed tracks and merged open buffers *)
Definition mag_ext_n23 (integrate : list C -> nat -> R) (closed merged : list seg) (all_closed : bool) (rho : R) : R :=
  let mags1 := map (fun s => let c := contour_of_closed s in
                    integrate (fst c) (length (fst c) - 1)%nat * snd c) closed in
  let mags2 := if all_closed then [] else
                 map (fun s => let c := contour_of_open s in
                    integrate (fst c) (last_nonzero (map (fun p : C => Re p) (fst c))) * snd c) merged in
  Rabs (sumR mags1 + sumR mags2) / (PI * rho ^ 2).
