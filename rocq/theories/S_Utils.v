(** Independent specifications for the helpers of utils.py. *)
From Coq Require Import Reals List Arith.
From Coquelicot Require Import Complex.
Import ListNotations.
Local Open Scope R_scope.

(** [i] is the first index of [x] satisfying [P]. *)
Definition is_first (P : R -> Prop) (x : list R) (i : nat) : Prop :=
  (i < length x)%nat /\ P (nth i x 0) /\ forall j, (j < i)%nat -> ~ P (nth j x 0).
(** [i] is the last index of [x] satisfying [P]. *)
Definition is_last (P : R -> Prop) (x : list R) (i : nat) : Prop :=
  (i < length x)%nat /\ P (nth i x 0) /\ forall j, (i < j < length x)%nat -> ~ P (nth j x 0).

(** [m] is the least/greatest non-zero entry of [x]. *)
Definition is_min_nonzero (x : list R) (m : R) : Prop :=
  In m x /\ m <> 0 /\ forall v, In v x -> v <> 0 -> m <= v.
Definition is_max_nonzero (x : list R) (m : R) : Prop :=
  In m x /\ m <> 0 /\ forall v, In v x -> v <> 0 -> v <= m.

(** Sum and number of the non-zero entries. *)
Inductive nz_stats : list R -> R -> nat -> Prop :=
| nz_nil : nz_stats [] 0 0
| nz_zero t s n : nz_stats t s n -> nz_stats (0 :: t) s n
| nz_cons a t s n : a <> 0 -> nz_stats t s n -> nz_stats (a :: t) (a + s) (S n).

(** [p] lists every index once, non-zero entries first in ascending order (ties by index),
    then the zero entries by index. *)
Definition sparse_order (x : list R) (i j : nat) : Prop :=
  let u := nth i x 0 in let v := nth j x 0 in
  (u <> 0 /\ v = 0) \/ (u <> 0 /\ v <> 0 /\ (u < v \/ (u = v /\ (i < j)%nat))) \/
  (u = 0 /\ v = 0 /\ (i < j)%nat).

(** Trapezoid sum, by recursion on the sample list. *)
Fixpoint trap_spec (pts : list (R * R)) : R :=
  match pts with
  | (x0, y0) :: (((x1, y1) :: _) as t) => (x1 - x0) * ((y0 + y1) / 2) + trap_spec t
  | _ => 0
  end.

(** Greedy nearest matching: [p] assigns to each point of [a] the index of the nearest
    point of [b] not used by earlier points; ties go to the smaller index. *)
Definition nearest_unused (b : list C) (used : list nat) (z : C) (k : nat) : Prop :=
  (k < length b)%nat /\ ~ In k used /\
  forall j, (j < length b)%nat -> ~ In j used -> j <> k ->
    Cmod (nth k b (RtoC 0) - z)%C < Cmod (nth j b (RtoC 0) - z)%C \/
    (Cmod (nth k b (RtoC 0) - z)%C = Cmod (nth j b (RtoC 0) - z)%C /\ (k < j)%nat).

Definition greedy_matching (a b : list C) (p : list nat) : Prop :=
  length p = length a /\
  forall i, (i < length a)%nat -> nearest_unused b (firstn i p) (nth i a 0%C) (nth i p 0%nat).
