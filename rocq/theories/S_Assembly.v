(** Independent specification of the light-curve assembly. *)
From Coq Require Import List Arith ZArith.
Import ListNotations.

(** number of rejected positions among the first [i] *)
Definition rejected_before (test : nat -> bool) (i : nat) : nat :=
  length (filter (fun j => negb (test j)) (seq 0 i)).

(** The light curve a user expects with a budget of [budget] full evaluations. *)
Definition expected_mag {W M} (full : W -> M) (w : nat -> W) (multi : nat -> M) (test : nat -> bool)
    (budget : nat) (i : nat) : M :=
  if test i then multi i
  else if rejected_before test i <? budget then full (w i) else multi i.

(** how many of [n] entries the python slice [:m] keeps *)
Definition slice_keep (m : Z) (n : nat) : nat :=
  Z.to_nat (if (m <? 0)%Z then Z.of_nat n + m else Z.min m (Z.of_nat n)).
