(** Model of [peri_vernal] in src/microjax/trajectory/parallax.py for an array of reference times. *)
From Coq Require Import Reals List Bool Arith.
From Verif Require Import Base_R Base_List M_Utils M_MergeArea M_Parallax.
Import ListNotations.
Local Open Scope R_scope.

(** parallax.py:109 [peris - tref], shapes (21,) and (n,): an array of one entry is repeated, one of 21 is paired with the table,
    any other length cannot be broadcast *)
Definition table_distance (trefs : list R) : res (list R) :=
  match trefs with
  | [t] => Ok (map (fun p => Rabs (p - t)) peris)
  | _ => if Nat.eqb (length trefs) (length peris) then Ok (map (fun pt => Rabs (fst pt - snd pt)) (combine peris trefs)) else Raise TypeError
  end.
(** parallax.py:96-111 [peri_vernal] for a one-dimensional [tref] *)
Definition peri_vernal_array (trefs : list R) : res (R * R) :=
  let trefs := map (fun t => if Rltb 2450000 t then t - 2450000 else t) trefs in
  res_map (fun dperi => let imin := argmin dperi in (nth imin peris 0, nth imin vernals 0)) (table_distance trefs).
