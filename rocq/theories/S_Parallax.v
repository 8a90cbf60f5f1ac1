(** Vocabulary for the parallax properties (C34-C37), independent of the model. *)
From Coq Require Import Reals List.
Import ListNotations.
Local Open Scope R_scope.

(** Kepler's equation *)
Definition eccentric_anomaly (ecc phi psi : R) : Prop := psi - ecc * sin psi = phi.
(** x is an entry of the table with the smallest distance to t, the first such *)
Definition nearest (table : list R) (t : R) (i : nat) : Prop :=
  (i < length table)%nat /\ (forall j, (j < length table)%nat -> Rabs (nth i table 0 - t) <= Rabs (nth j table 0 - t)) /\
  (forall j, (j < i)%nat -> Rabs (nth i table 0 - t) < Rabs (nth j table 0 - t)).
Definition ip (a b : R * R * R) : R := let '(x, y, z) := a in let '(u, v, w) := b in x * u + y * v + z * w.
Definition unit_vec (a : R * R * R) : Prop := ip a a = 1.
Definition orthogonal (a b : R * R * R) : Prop := ip a b = 0.
Definition det3 (a b c : R * R * R) : R :=
  let '(a1, a2, a3) := a in let '(b1, b2, b3) := b in let '(c1, c2, c3) := c in
  a1 * (b2 * c3 - b3 * c2) - a2 * (b1 * c3 - b3 * c1) + a3 * (b1 * c2 - b2 * c1).
(** direction with right ascension alpha and declination delta (radians) *)
Definition direction (alpha delta : R) : R * R * R := (cos alpha * cos delta, sin alpha * cos delta, sin delta).
(** the rows of a rotation matrix *)
Definition rotation (m : (R * R * R) * (R * R * R) * (R * R * R)) : Prop :=
  let '(r1, r2, r3) := m in
  unit_vec r1 /\ unit_vec r2 /\ unit_vec r3 /\ orthogonal r1 r2 /\ orthogonal r1 r3 /\ orthogonal r2 r3 /\ det3 r1 r2 r3 = 1.
