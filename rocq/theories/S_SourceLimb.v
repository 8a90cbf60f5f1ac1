(** Specification side of the source-limb sampling: what a column of images is, what one
    refinement pass may do to a list of samples, and what consistent image tracks are.
    No microjax code here. *)
From Coq Require Import Reals Bool List Arith.
From Coquelicot Require Import Complex Rcomplements.
Import ListNotations.
Local Open Scope R_scope.

(** the point of the limb at angle [th] *)
Definition limb_at (w0 : C) (rho th : R) : C := (Re w0 + rho * cos th, Im w0 + rho * sin th).

(** [d] is the largest displacement between two columns, over the images real in either *)
Definition largest_move (z1 z2 : list C) (m1 m2 : list bool) (d : R) : Prop :=
  let real i := nth i m1 false = true \/ nth i m2 false = true in
  let move i := Cmod (nth i z2 (RtoC 0) - nth i z1 (RtoC 0))%C in
  0 <= d /\ (forall i, (i < length z1)%nat -> real i -> move i <= d) /\
  (d = 0 \/ exists i, (i < length z1)%nat /\ real i /\ d = move i).

(** [refined mid l l' fl]: [l'] is [l] with at most one element inserted between neighbours;
    the flag of an interval tells whether it was split *)
Inductive refined {A} (mid : A -> A -> A -> Prop) : list A -> list A -> list bool -> Prop :=
| refined_one s : refined mid [s] [s] []
| refined_keep s t l l' fl : refined mid (t :: l) l' fl -> refined mid (s :: t :: l) (s :: l') (false :: fl)
| refined_split s t m l l' fl : mid s t m -> refined mid (t :: l) l' fl ->
    refined mid (s :: t :: l) (s :: m :: l') (true :: fl).

Definition count_true (l : list bool) : nat := length (filter (fun b => b) l).

(** row [i] of a table of columns *)
Definition row {A} (d : A) (cols : list (list A)) (i : nat) : list A := map (fun c => nth i c d) cols.

(** a column of images at limb angle [th]: the solver's answer for the limb point (for some
    starting guess), each image labelled with the sign of the Jacobian determinant there *)
Definition solver_column (solve : option (list C) -> C -> list C * list bool) (det : C -> R)
    (w0 : C) (rho th : R) (zs : list C) (ms : list bool) (ps : list R) : Prop :=
  (exists init, solve init (limb_at w0 rho th) = (zs, ms)) /\ ps = map (fun z => sign (det z)) zs.
