(** Specification of polynomials given by coefficient lists, highest power first. *)
From Coq Require Import Reals List.
From Coquelicot Require Import Complex.
From Verif Require Import Base_C.
Import ListNotations.
Local Open Scope R_scope.
Local Open Scope C_scope.

(** [rs] lists all roots of [cs] with multiplicity. *)
Definition splits (cs rs : list C) : Prop :=
  forall z, peval cs z = hd (RtoC 0) cs * prodC (map (fun r => z - r) rs).
(** formal derivative *)
Fixpoint pderiv (cs : list C) : list C :=
  match cs with
  | [] => []
  | c :: t => match t with [] => [] | _ => RtoC (INR (length t)) * c :: pderiv t end
  end.
(** [l] is the derivative at [t] of a complex-valued function of a real parameter. *)
Definition cderiv (f : R -> C) (t : R) (l : C) : Prop :=
  forall eps, (0 < eps)%R -> exists d, (0 < d)%R /\
    forall h, (Rabs h < d)%R -> (Cmod (f (t + h)%R - f t - RtoC h * l)%C <= eps * Rabs h)%R.
(** [rs] contains every root of [cs] (possibly with further values). *)
Definition lists_roots (cs rs : list C) : Prop := forall z, peval cs z = RtoC 0 -> In z rs.
