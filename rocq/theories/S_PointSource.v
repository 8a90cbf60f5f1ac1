(** Independent specification of point-mass lensing. *)
From Coq Require Import Reals List.
From Coquelicot Require Import Complex.
From Verif Require Import Base_C.
Import ListNotations.
Local Open Scope R_scope.

(** A lens system: masses (fractions of the total mass) and positions. *)
Definition lens_system := list (R * C).

(** The gravitational lens mapping: z - sum m_i / conj(z - p_i). *)
Fixpoint deflection (L : lens_system) (z : C) : C :=
  match L with
  | [] => RtoC 0
  | (m, p) :: t => (RtoC m / Cconj (z - p) + deflection t z)%C
  end.
Definition lens_map (L : lens_system) (z : C) : C := (z - deflection L z)%C.

(** z is off every mass *)
Definition off_masses (L : lens_system) (z : C) : Prop := forall m p, In (m, p) L -> z <> p.

(** [z] is an image of the source position [w]. *)
Definition is_image (L : lens_system) (w z : C) : Prop := off_masses L z /\ lens_map L z = w.

(** Lens systems in the frame used by the public functions. *)
Definition single_lens : lens_system := [(1, RtoC 0)].
(** separation s, mass ratio q (companion/host), centre of mass at the origin, companion on the
    positive real axis *)
Definition binary_lens (s q : R) : lens_system :=
  [(1 / (1 + q), RtoC (- s * q / (1 + q))); (q / (1 + q), RtoC (s / (1 + q)))].
(** mid-point frame: mass fraction e1 at +a and 1-e1 at -a *)
Definition binary_mid (a e1 : R) : lens_system := [(e1, RtoC a); (1 - e1, RtoC (- a))].
(** mid-point frame with a third mass at the complex position p3 *)
Definition triple_mid (a e1 e2 : R) (p3 : C) : lens_system :=
  [(e1, RtoC a); (e2, RtoC (- a)); (1 - e1 - e2, p3)].

(** three masses 1 : q : q3; the first two as in [binary_lens] (their centre of mass at the origin),
    the third at p3 *)
Definition triple_lens (s q q3 : R) (p3 : C) : lens_system :=
  [(1 / (1 + q + q3), RtoC (- s * q / (1 + q))); (q / (1 + q + q3), RtoC (s / (1 + q)));
   (q3 / (1 + q + q3), p3)].
(** polar position measured from the mid-point of the first two masses / from the origin (their
    centre of mass) / from the first mass *)
Definition from_com (r psi : R) : C := (r * cos psi, r * sin psi).
Definition from_midpoint (s q r psi : R) : C := (RtoC ((- s * q / (1 + q) + s / (1 + q)) / 2) + from_com r psi)%C.
Definition from_first (s q r psi : R) : C := (RtoC (- s * q / (1 + q)) + from_com r psi)%C.

(** the source does not sit exactly behind a mass *)
Definition off_lens_positions (L : lens_system) (w : C) : Prop := off_masses L w.
(** real 2x2 derivative of a planar map, epsilon-delta *)
Record mat2 := mk2 { m11 : R; m12 : R; m21 : R; m22 : R }.
Definition apply2 (M : mat2) (h : C) : C :=
  (m11 M * fst h + m12 M * snd h, m21 M * fst h + m22 M * snd h).
Definition det2 (M : mat2) : R := m11 M * m22 M - m12 M * m21 M.
Definition has_derivative (F : C -> C) (z : C) (M : mat2) : Prop :=
  forall eps, 0 < eps -> exists delta, 0 < delta /\
    forall h, Cmod h < delta -> Cmod (F (z + h) - F z - apply2 M h)%C <= eps * Cmod h.

(** [D] is the Jacobian determinant of the lens mapping at [z]. *)
Definition jacobian_det (L : lens_system) (z : C) (D : R) : Prop :=
  exists M, has_derivative (lens_map L) z M /\ det2 M = D.
(** the complex shear: the lens mapping changes by h + shear * conj h for a small step h *)
Fixpoint shear (L : lens_system) (z : C) : C :=
  match L with
  | [] => RtoC 0
  | (m, p) :: t => (RtoC m / (Cconj (z - p)) ^ 2 + shear t z)%C
  end.
(** [imgs] enumerates the images of [w] without repetition *)
Definition all_images (L : lens_system) (w : C) (imgs : list C) : Prop :=
  NoDup imgs /\ forall z, In z imgs <-> is_image L w z.

(** [nb] branches of [npts] critical points with their caustic partners: every point is critical, its
    partner is its image under the lens mapping, and at the i-th phase no critical point is missing *)
Definition curves_correct (L : lens_system) (npts nb : nat) (res_ : list (list C) * list (list C)) : Prop :=
  let '(zcr, zca) := res_ in
  length zcr = nb /\ length zca = nb /\
  (forall b, (b < nb)%nat -> length (nth b zcr []) = npts /\ length (nth b zca []) = npts) /\
  (forall b i, (b < nb)%nat -> (i < npts)%nat ->
     let z := nth i (nth b zcr []) (RtoC 0) in
     off_masses L z /\ jacobian_det L z 0 /\ nth i (nth b zca []) (RtoC 0) = lens_map L z) /\
  (forall i z, (i < npts)%nat -> off_masses L z -> jacobian_det L z 0 ->
     (let phi := - PI + INR i * (2 * PI / INR (npts - 1)) in shear L z = (cos phi, sin phi)) ->
     exists b, (b < nb)%nat /\ nth i (nth b zcr []) (RtoC 0) = z).

