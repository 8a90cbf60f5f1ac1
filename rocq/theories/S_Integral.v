(** Specification: integrals over the whole real line. *)
From Coq Require Import Reals.
From Coquelicot Require Import Coquelicot.
Local Open Scope R_scope.

(** [v] is the value of the integral of [f] over (-oo, +oo). *)
Definition improper (f : R -> R) (v : R) : Prop :=
  (forall a b, ex_RInt f a b) /\
  forall eps, 0 < eps -> exists N, 0 < N /\ forall a b, a < - N -> N < b -> Rabs (RInt f a b - v) < eps.
(** [v] is the integral of [f] over the plane, as an iterated integral. *)
Definition improper2 (f : R -> R -> R) (v : R) : Prop :=
  exists g, (forall x, improper (f x) (g x)) /\ improper g v.
