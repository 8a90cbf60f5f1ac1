(** Specification for the multipole expansion: smooth image branches and Laplacians of the magnification. *)
From Coq Require Import Reals List Factorial.
From Coquelicot Require Import Coquelicot.
From Verif Require Import Base_C S_PointSource.
Import ListNotations.
Local Open Scope R_scope.

(** derivative of a complex function of a real variable *)
Definition dC (f : R -> C) (t : R) (l : C) : Prop :=
  is_derive (fun s => fst (f s)) t (fst l) /\ is_derive (fun s => snd (f s)) t (snd l).

(** [a 0 0 x y] is an image of the source position w0 + (x,y) for all small x, y, and [a m n] is its mixed partial
    derivative of order m in x and n in y. *)
Record image_branch (L : lens_system) (w0 : C) (r : R) (a : nat -> nat -> R -> R -> C) : Prop := {
  ib_pos : 0 < r;
  ib_image : forall x y, Rabs x < r -> Rabs y < r -> is_image L (w0 + (x, y))%C (a 0%nat 0%nat x y);
  ib_dx : forall m n x y, Rabs x < r -> Rabs y < r -> dC (fun t => a m n t y) x (a (S m) n x y);
  ib_dy : forall m n x y, Rabs x < r -> Rabs y < r -> dC (fun t => a m n x t) y (a m (S n) x y) }.

(** [g] is the Laplacian of [f] on the box of half-width [r]. *)
Definition laplacian_on (r : R) (f g : R -> R -> R) : Prop :=
  exists fx fy fxx fyy : R -> R -> R, forall x y, Rabs x < r -> Rabs y < r ->
    is_derive (fun t => f t y) x (fx x y) /\ is_derive (fun t => fx t y) x (fxx x y) /\
    is_derive (fun t => f x t) y (fy x y) /\ is_derive (fun t => fy x t) y (fyy x y) /\
    g x y = fxx x y + fyy x y.

(** [M] is the magnification along the branch: the inverse Jacobian determinant of the lens mapping. *)
Definition magnification_on (L : lens_system) (r : R) (z : R -> R -> C) (M : R -> R -> R) : Prop :=
  forall x y, Rabs x < r -> Rabs y < r -> exists D, jacobian_det L (z x y) D /\ D <> 0 /\ M x y = / D.

(** value, Laplacian and bi-Laplacian of the magnification of the image [z0], with respect to the source position *)
Definition expansion_at (L : lens_system) (w0 z0 : C) (m0 l1 l2 : R) : Prop :=
  exists r a M M2 M4, image_branch L w0 r a /\ a 0%nat 0%nat 0 0 = z0 /\ magnification_on L r (a 0%nat 0%nat) M /\
    laplacian_on r M M2 /\ laplacian_on r M2 M4 /\ M 0 0 = m0 /\ M2 0 0 = l1 /\ M4 0 0 = l2.

(** the k-th radial moment of a brightness profile on the unit disc *)
Definition radial_moment (f : R -> R) (k : nat) (m : R) : Prop := is_RInt (fun d => 2 * PI * d ^ (S k) * f d) 0 1 m.

(** Averaging the fourth-order Taylor expansion over a disc of radius rho: m0 + rho^2/4 <d^2> lap + rho^4/64 <d^4> lap^2. *)
Definition disc_terms (rho mom2 mom4 : R) (t : R * R * R) : R * R * R :=
  let '((m0, l1), l2) := t in (m0, rho ^ 2 / 4 * mom2 * l1, rho ^ 4 / 64 * mom4 * l2).
Fixpoint masked_sum (f : R * R * R -> R) (ts : list (R * R * R)) (mask : list bool) : R :=
  match ts, mask with
  | t :: ts', m :: mask' => (if m then f t else 0) + masked_sum f ts' mask'
  | _, _ => 0 end.
Definition total (t : R * R * R) : R := let '((a, b), c) := t in Rabs (a + b + c).
Definition second (t : R * R * R) : R := let '((a, b), c) := t in Rabs b.
Definition third (t : R * R * R) : R := let '((a, b), c) := t in Rabs c.
