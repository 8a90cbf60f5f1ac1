(** Model of [gamma_] (src/microjax/fastlens/special.py) for an integer argument.  jax keeps integers: [z + N], [t ** 2], [t *= t_squared] and
    the product are integer operations of [b] bits that wrap around (32 bits unless x64 is enabled, then 64); the logarithm
    of a non-positive integer is NaN or infinity, and so is a division by zero ([None]). *)
From Coq Require Import Reals ZArith List Bool.
From Verif Require Import Base_R.
Import ListNotations.
Local Open Scope Z_scope.

Definition wrap (b x : Z) : Z := (x + 2 ^ (b - 1)) mod 2 ^ b - 2 ^ (b - 1).
Definition nlog (x : Z) : option R := if 0 <? x then Some (ln (IZR x)) else None.
(** special.py:25 *)
Definition gamma_a_R : list R := [1 / 12; -1 / 360; 1 / 1260; -1 / 1680; 1 / 1188]%R.
(** special.py:35-39 *)
Fixpoint series_int (b : Z) (a : list R) (t t2 : Z) : option R :=
  match a with
  | [] => Some 0%R
  | ak :: rest => if t =? 0 then None else match series_int b rest (wrap b (t * t2)) t2 with Some s => Some (ak / IZR t + s)%R | None => None end
  end.
(** special.py:40 *)
Definition prod_int (b n : Z) : Z := fold_left (fun acc i => wrap b (acc * wrap b (n + Z.of_nat i))) (seq 0 16) 1.
(** special.py:34-43 and 52-61 for [n > 0] *)
Definition gamma_int (b n : Z) : option R :=
  let t := wrap b (n + 16) in
  match nlog t, nlog (prod_int b n), series_int b gamma_a_R t (wrap b (t * t)) with
  | Some lt, Some lu, Some s => Some (exp (ln (2 * PI) / 2 - IZR t + (IZR t - 0.5) * lt - lu + s))
  | _, _, _ => None
  end.
