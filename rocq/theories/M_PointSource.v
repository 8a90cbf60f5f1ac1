(** Model of src/microjax/point_source.py.  Arrays of source positions are handled by [map]
    in python (vectorisation); the model treats one position at a time. *)
From Coq Require Import Reals List Bool Arith ZArith.
From Coquelicot Require Import Complex.
From Verif Require Import Base_R Base_List Base_C M_Utils M_Coeffs.
Import ListNotations.
Local Open Scope R_scope.
Local Open Scope C_scope.

(** The keyword dictionary [**params]; a missing key is [None]. *)
Record params := mkparams {
  p_s : option R; p_q : option R; p_q3 : option R; p_r3 : option R; p_psi : option R;
  p_a : option R; p_e1 : option R; p_e2 : option R }.
Definition no_params : params := mkparams None None None None None None None None.
Definition getp {A} (o : option R) (f : R -> res A) : res A :=
  match o with Some x => f x | None => Raise KeyError end.
Definition with_a_e1 (p : params) (a e1 : R) : params :=
  mkparams (p_s p) (p_q p) (p_q3 p) (p_r3 p) (p_psi p) (Some a) (Some e1) (p_e2 p).
Definition with_a_e1_e2 (p : params) (a e1 e2 : R) : params :=
  mkparams (p_s p) (p_q p) (p_q3 p) (p_r3 p) (p_psi p) (Some a) (Some e1) (Some e2).

(** r3 * exp(1j * psi) *)
Definition third_lens (r3 psi : R) : C := RtoC r3 * cexpi psi.

(** point_source.py:72-121 [lens_eq], the three arithmetic branches *)
Definition lens_eq1 (z : C) : C := z - 1 / Cconj z.
Definition lens_eq2 (a e1 : R) (z : C) : C :=
  let zbar := Cconj z in z - e1 / (zbar - a) - (1 - e1)%R / (zbar + a).
Definition lens_eq3 (a r3 psi e1 e2 : R) (z : C) : C :=
  let zbar := Cconj z in
  z - e1 / (zbar - a) - e2 / (zbar + a) - (1 - e1 - e2)%R / (zbar - Cconj (third_lens r3 psi)).
Definition lens_eq (nlenses : Z) (p : params) (z : C) : res C :=
  if (nlenses =? 1)%Z then Ok (lens_eq1 z)
  else if (nlenses =? 2)%Z then
    getp (p_a p) (fun a => getp (p_e1 p) (fun e1 => Ok (lens_eq2 a e1 z)))
  else if (nlenses =? 3)%Z then
    getp (p_a p) (fun a => getp (p_r3 p) (fun r3 => getp (p_psi p) (fun psi =>
    getp (p_e1 p) (fun e1 => getp (p_e2 p) (fun e2 => Ok (lens_eq3 a r3 psi e1 e2 z))))))
  else Raise ValueError.

(** point_source.py:125-177 [lens_eq_det_jac] *)
Definition det_jac1 (z : C) : R := (1 - 1 / Cmod ((Cconj z) ^ 2)%C)%R.
Definition det_jac2 (a e1 : R) (z : C) : R :=
  let zbar := Cconj z in
  (1 - (Cmod (e1 / (zbar - a) ^ 2 + (1 - e1)%R / (zbar + a) ^ 2)%C) ^ 2)%R.
Definition det_jac3 (a r3 psi e1 e2 : R) (z : C) : R :=
  let zbar := Cconj z in
  (1 - (Cmod (e1 / (zbar - a) ^ 2 + e2 / (zbar + a) ^ 2
              + (1 - e1 - e2)%R / (zbar - Cconj (third_lens r3 psi)) ^ 2)%C) ^ 2)%R.
Definition lens_eq_det_jac (nlenses : Z) (p : params) (z : C) : res R :=
  if (nlenses =? 1)%Z then Ok (det_jac1 z)
  else if (nlenses =? 2)%Z then
    getp (p_a p) (fun a => getp (p_e1 p) (fun e1 => Ok (det_jac2 a e1 z)))
  else if (nlenses =? 3)%Z then
    getp (p_a p) (fun a => getp (p_r3 p) (fun r3 => getp (p_psi p) (fun psi =>
    getp (p_e1 p) (fun e1 => getp (p_e2 p) (fun e2 => Ok (det_jac3 a r3 psi e1 e2 z))))))
  else Raise ValueError.

(** [jnp.linspace(lo, hi, n)] *)
Definition linspace (lo hi : R) (n : nat) : list R :=
  map (fun i => (lo + INR i * ((hi - lo) / INR (n - 1)))%R) (seq 0 n).

(** transpose of a list of rows with [nb] columns *)
Definition transpose (nb : nat) (rows : list (list C)) : list (list C) :=
  map (fun b => map (fun row => nth b row (RtoC 0)) rows) (seq 0 nb).

Section WithSolver.
(** The polynomial root finder: coefficients and optional warm start to roots.
    (M_PolySolver.v models the actual one; theorems here hold for every solver.) *)
Variable poly_roots : list C -> option (list C) -> list C.

(** point_source.py:269-355 [_images_point_source] for one source position; returns (z, z_mask) *)
Definition images1 (w : C) : list C * list bool :=
  let w_abs_sq := (Re w ^ 2 + Im w ^ 2)%R in
  let z1 := RtoC 0.5 * w * RtoC (1 + sqrt (1 + 4 / w_abs_sq))%R in
  let z2 := RtoC 0.5 * w * RtoC (1 - sqrt (1 + 4 / w_abs_sq))%R in
  ([z1; z2], [true; true]).
Definition images2 (a e1 : R) (w : C) (init : option (list C)) : list C * list bool :=
  let z := poly_roots (poly_coeffs_binary w a e1) init in
  (z, map (fun zi => Rltb (Cmod (lens_eq2 a e1 zi - w)) 1e-6) z).
Definition images3 (a r3 psi e1 e2 : R) (w : C) : list C * list bool :=
  let '(coeffs, shift_cm) := poly_coeffs_triple_CM w a (third_lens r3 psi) e1 e2 in
  let z := map (fun r => r + shift_cm) (poly_roots coeffs None) in
  (z, map (fun zi => Rltb (Cmod (lens_eq3 a r3 psi e1 e2 zi - w)) 1e-3) z).
Definition images_point_source (nlenses : Z) (p : params) (z_init : option (list C)) (w : C)
  : res (list C * list bool) :=
  if (nlenses =? 1)%Z then Ok (images1 w)
  else if (nlenses =? 2)%Z then
    getp (p_a p) (fun a => getp (p_e1 p) (fun e1 => Ok (images2 a e1 w z_init)))
  else if (nlenses =? 3)%Z then
    getp (p_a p) (fun a => getp (p_r3 p) (fun r3 => getp (p_psi p) (fun psi =>
    getp (p_e1 p) (fun e1 => getp (p_e2 p) (fun e2 => Ok (images3 a r3 psi e1 e2 w))))))
  else Raise ValueError.

(** point_source.py:358-407 [_images_point_source_sequential]: scan with the previous images as
    warm start; one (z, mask) per source position *)
Fixpoint seq_scan (step : option (list C) -> C -> list C * list bool) (prev : list C) (ws : list C)
  : list (list C * list bool) :=
  match ws with
  | [] => []
  | w :: t => let r := step (Some prev) w in r :: seq_scan step (fst r) t
  end.
Definition images_sequential (step : option (list C) -> C -> list C * list bool) (ws : list C)
  : list (list C * list bool) :=
  match ws with
  | [] => []
  | w0 :: t => let r0 := step None w0 in r0 :: seq_scan step (fst r0) t
  end.

(** point_source.py:466-469: sum over images of (1/|det|) * mask *)
Definition sum_inv_det (det : C -> R) (zm : list C * list bool) : R :=
  sumR (map (fun p => (1 / Rabs (det (fst p)) * (if snd p : bool then 1 else 0))%R)
            (combine (fst zm) (snd zm))).

(** point_source.py:441,460: the frame shift applied to the source position *)
Definition x_cm (a q : R) : R := (a * (1 - q) / (1 + q))%R.

(** point_source.py:410-469 [mag_point_source] *)
Definition mag_point_source (nlenses : Z) (p : params) (w : C) : res R :=
  if (nlenses =? 1)%Z then Ok (sum_inv_det det_jac1 (images1 w))
  else if (nlenses =? 2)%Z then
    getp (p_s p) (fun s => getp (p_q p) (fun q =>
      let a := (0.5 * s)%R in let e1 := (q / (1 + q))%R in
      let w' := w - x_cm a q in
      Ok (sum_inv_det (det_jac2 a e1) (images2 a e1 w' None))))
  else if (nlenses =? 3)%Z then
    getp (p_s p) (fun s => getp (p_q p) (fun q => getp (p_q3 p) (fun q3 =>
    getp (p_r3 p) (fun r3 => getp (p_psi p) (fun psi =>
      let a := (0.5 * s)%R in
      let e1 := (q / (1 + q + q3))%R in let e2 := (1 / (1 + q + q3))%R in
      let w' := w - x_cm a q in
      Ok (sum_inv_det (det_jac3 a r3 psi e1 e2) (images3 a r3 psi e1 e2 w')))))))
  else Raise ValueError.

(** point_source.py:213-215: lax.scan of match_points over the rows *)
Fixpoint match_scan (carry : list C) (rows : list (list C)) : list (list C) :=
  match rows with
  | [] => []
  | z :: t => let z' := gather (RtoC 0) z (match_points carry z) in z' :: match_scan z' t
  end.

(** point_source.py:253-266: roots per phase, matched, transposed, mapped, shifted *)
Definition crit_finish (nb : nat) (lens : C -> C) (xcm : R) (rows0 : list (list C))
  : list (list C) * list (list C) :=
  let rows := match_scan (nth 0 rows0 []) rows0 in
  let z_cr := transpose nb rows in
  let z_ca := map (map lens) z_cr in
  (map (map (fun z => z + xcm)) z_cr, map (map (fun z => z + xcm)) z_ca).

(** point_source.py:180-266 [critical_and_caustic_curves].  For one lens python returns flat
    arrays of length npts; here they are wrapped as a single branch. *)
Definition critical_and_caustic_curves (npts : nat) (nlenses : Z) (p : params)
  : res (list (list C) * list (list C)) :=
  let phi := linspace (- PI) PI npts in
  if (nlenses =? 1)%Z then
    Ok ([map (fun t => cexpi (- t)) phi], [map (fun _ => RtoC 0) phi])
  else if (nlenses =? 2)%Z then
    getp (p_s p) (fun s => getp (p_q p) (fun q =>
      let a := (0.5 * s)%R in let e1 := (q / (1 + q))%R in
      Ok (crit_finish 4 (lens_eq2 a e1) (0.5 * s * (1 - q) / (1 + q))%R
            (map (fun t => poly_roots (poly_coeffs_critical_binary t a e1) None) phi))))
  else if (nlenses =? 3)%Z then
    getp (p_s p) (fun s => getp (p_q p) (fun q => getp (p_q3 p) (fun q3 =>
    getp (p_r3 p) (fun r3 => getp (p_psi p) (fun psi =>
      let a := (0.5 * s)%R in
      let e1 := (q / (1 + q + q3))%R in let e2 := (1 / (1 + q + q3))%R in
      Ok (crit_finish 6 (lens_eq3 a r3 psi e1 e2) (0.5 * s * (1 - q) / (1 + q))%R
            (map (fun t => poly_roots (poly_coeffs_critical_triple t a (third_lens r3 psi) e1 e2) None) phi)))))))
  else Raise ValueError.
End WithSolver.
