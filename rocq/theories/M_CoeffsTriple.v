(** Model of [_poly_coeffs_triple] of src/microjax/coeffs.py: the triple-lens polynomial in the mid-point frame.  The library calls
    [_poly_coeffs_triple_CM] instead. *)
From Coq Require Import Reals List.
From Coquelicot Require Import Complex.
From Verif Require Import Base_R Base_C.
Import ListNotations.
Local Open Scope R_scope.
Local Open Scope C_scope.

(** coeffs.py:231-231 *)
Definition t0 (w wbar a r3 r3bar e1 e2 : C) : C :=
  - (a ^ 2 * wbar) + a ^ 2 * r3bar + wbar ^ 3 - wbar ^ 2 * r3bar.
(** coeffs.py:233-252 *)
Definition t1 (w wbar a r3 r3bar e1 e2 : C) : C :=
  a ^ 2 * w * wbar - a ^ 2 * w * r3bar + 3 * a ^ 2 * wbar * r3 - 3 * a ^ 2 * r3bar * r3 - a ^ 2 * e1 - a ^ 2 * e2 - a * wbar
  * e1 + a * wbar * e2 + a * r3bar * e1 - a * r3bar * e2 - w * wbar ^ 3 + w * wbar ^ 2 * r3bar - 3 * wbar ^ 3 * r3 + 3 * wbar
  ^ 2 * r3bar * r3 + 2 * wbar ^ 2 + wbar * r3bar * e1 + wbar * r3bar * e2 - 2 * wbar * r3bar.
(** coeffs.py:254-295 *)
Definition t2 (w wbar a r3 r3bar e1 e2 : C) : C :=
  3 * a ^ 4 * wbar - 3 * a ^ 4 * r3bar - a ^ 3 * e1 + a ^ 3 * e2 - 3 * a ^ 2 * w * wbar * r3 + 3 * a ^ 2 * w * r3bar * r3 + a
  ^ 2 * w - 3 * a ^ 2 * wbar ^ 3 + 3 * a ^ 2 * wbar ^ 2 * r3bar - 3 * a ^ 2 * wbar * r3 ^ 2 + 3 * a ^ 2 * r3bar * r3 ^ 2 + 4
  * a ^ 2 * e1 * r3 + 4 * a ^ 2 * e2 * r3 - a ^ 2 * r3 + 3 * a * wbar ^ 2 * e1 - 3 * a * wbar ^ 2 * e2 - 2 * a * wbar * r3bar
  * e1 + 2 * a * wbar * r3bar * e2 + 3 * a * wbar * e1 * r3 - 3 * a * wbar * e2 * r3 - 3 * a * r3bar * e1 * r3 + 3 * a *
  r3bar * e2 * r3 - a * e1 + a * e2 + 3 * w * wbar ^ 3 * r3 - 3 * w * wbar ^ 2 * r3bar * r3 - 3 * w * wbar ^ 2 + 2 * w * wbar
  * r3bar + 3 * wbar ^ 3 * r3 ^ 2 - 3 * wbar ^ 2 * r3bar * r3 ^ 2 - 3 * wbar ^ 2 * e1 * r3 - 3 * wbar ^ 2 * e2 * r3 - 3 *
  wbar ^ 2 * r3 - wbar * r3bar * e1 * r3 - wbar * r3bar * e2 * r3 + 4 * wbar * r3bar * r3 + wbar + r3bar * e1 + r3bar * e2 -
  r3bar.
(** coeffs.py:297-381 *)
Definition t3 (w wbar a r3 r3bar e1 e2 : C) : C :=
  - (3 * a ^ 4 * w * wbar) + 3 * a ^ 4 * w * r3bar - 9 * a ^ 4 * wbar * r3 + 9 * a ^ 4 * r3bar * r3 + 2 * a ^ 4 * e1 + 2 * a
  ^ 4 * e2 + a ^ 3 * w * e1 - a ^ 3 * w * e2 + 3 * a ^ 3 * wbar * e1 - 3 * a ^ 3 * wbar * e2 - 3 * a ^ 3 * r3bar * e1 + 3 * a
  ^ 3 * r3bar * e2 + 3 * a ^ 3 * e1 * r3 - 3 * a ^ 3 * e2 * r3 + 3 * a ^ 2 * w * wbar ^ 3 - 3 * a ^ 2 * w * wbar ^ 2 * r3bar
  + 3 * a ^ 2 * w * wbar * r3 ^ 2 - 3 * a ^ 2 * w * r3bar * r3 ^ 2 - a ^ 2 * w * e1 * r3 - a ^ 2 * w * e2 * r3 - 2 * a ^ 2 *
  w * r3 + 9 * a ^ 2 * wbar ^ 3 * r3 - 9 * a ^ 2 * wbar ^ 2 * r3bar * r3 + 3 * a ^ 2 * wbar ^ 2 * e1 + 3 * a ^ 2 * wbar ^ 2 *
  e2 - 6 * a ^ 2 * wbar ^ 2 - 5 * a ^ 2 * wbar * r3bar * e1 - 5 * a ^ 2 * wbar * r3bar * e2 + 6 * a ^ 2 * wbar * r3bar + a ^
  2 * wbar * r3 ^ 3 - a ^ 2 * r3bar * r3 ^ 3 - a ^ 2 * e1 ^ 2 + 2 * a ^ 2 * e1 * e2 - 5 * a ^ 2 * e1 * r3 ^ 2 - a ^ 2 * e2 ^
  2 - 5 * a ^ 2 * e2 * r3 ^ 2 + 2 * a ^ 2 * r3 ^ 2 - 3 * a * w * wbar ^ 2 * e1 + 3 * a * w * wbar ^ 2 * e2 + 2 * a * w * wbar
  * r3bar * e1 - 2 * a * w * wbar * r3bar * e2 - 9 * a * wbar ^ 2 * e1 * r3 + 9 * a * wbar ^ 2 * e2 * r3 + 6 * a * wbar *
  r3bar * e1 * r3 - 6 * a * wbar * r3bar * e2 * r3 - 3 * a * wbar * e1 * r3 ^ 2 + 4 * a * wbar * e1 + 3 * a * wbar * e2 * r3
  ^ 2 - 4 * a * wbar * e2 + a * r3bar * e1 ^ 2 + 3 * a * r3bar * e1 * r3 ^ 2 - 2 * a * r3bar * e1 - a * r3bar * e2 ^ 2 - 3 *
  a * r3bar * e2 * r3 ^ 2 + 2 * a * r3bar * e2 + a * e1 ^ 2 * r3 + 2 * a * e1 * r3 - a * e2 ^ 2 * r3 - 2 * a * e2 * r3 - 3 *
  w * wbar ^ 3 * r3 ^ 2 + 3 * w * wbar ^ 2 * r3bar * r3 ^ 2 + 3 * w * wbar ^ 2 * e1 * r3 + 3 * w * wbar ^ 2 * e2 * r3 + 6 * w
  * wbar ^ 2 * r3 - 2 * w * wbar * r3bar * e1 * r3 - 2 * w * wbar * r3bar * e2 * r3 - 4 * w * wbar * r3bar * r3 - 3 * w *
  wbar + w * r3bar - wbar ^ 3 * r3 ^ 3 + wbar ^ 2 * r3bar * r3 ^ 3 + 6 * wbar ^ 2 * e1 * r3 ^ 2 + 6 * wbar ^ 2 * e2 * r3 ^ 2
  - wbar * r3bar * e1 * r3 ^ 2 - wbar * r3bar * e2 * r3 ^ 2 - 2 * wbar * r3bar * r3 ^ 2 - 4 * wbar * e1 * r3 - 4 * wbar * e2
  * r3 + wbar * r3 - r3bar * e1 ^ 2 * r3 - 2 * r3bar * e1 * e2 * r3 - r3bar * e2 ^ 2 * r3 + r3bar * r3.
(** coeffs.py:383-515 *)
Definition t4 (w wbar a r3 r3bar e1 e2 : C) : C :=
  - (3 * a ^ 6 * wbar) + 3 * a ^ 6 * r3bar + 2 * a ^ 5 * e1 - 2 * a ^ 5 * e2 + 9 * a ^ 4 * w * wbar * r3 - 9 * a ^ 4 * w *
  r3bar * r3 + a ^ 4 * w * e1 + a ^ 4 * w * e2 - 3 * a ^ 4 * w + 3 * a ^ 4 * wbar ^ 3 - 3 * a ^ 4 * wbar ^ 2 * r3bar + 9 * a
  ^ 4 * wbar * r3 ^ 2 - 9 * a ^ 4 * r3bar * r3 ^ 2 - 9 * a ^ 4 * e1 * r3 - 9 * a ^ 4 * e2 * r3 + 3 * a ^ 4 * r3 - 3 * a ^ 3 *
  w * e1 * r3 + 3 * a ^ 3 * w * e2 * r3 - 6 * a ^ 3 * wbar ^ 2 * e1 + 6 * a ^ 3 * wbar ^ 2 * e2 + 4 * a ^ 3 * wbar * r3bar *
  e1 - 4 * a ^ 3 * wbar * r3bar * e2 - 9 * a ^ 3 * wbar * e1 * r3 + 9 * a ^ 3 * wbar * e2 * r3 + 9 * a ^ 3 * r3bar * e1 * r3
  - 9 * a ^ 3 * r3bar * e2 * r3 - a ^ 3 * e1 ^ 2 - 3 * a ^ 3 * e1 * r3 ^ 2 + 3 * a ^ 3 * e1 + a ^ 3 * e2 ^ 2 + 3 * a ^ 3 * e2
  * r3 ^ 2 - 3 * a ^ 3 * e2 - 9 * a ^ 2 * w * wbar ^ 3 * r3 + 9 * a ^ 2 * w * wbar ^ 2 * r3bar * r3 - 3 * a ^ 2 * w * wbar ^
  2 * e1 - 3 * a ^ 2 * w * wbar ^ 2 * e2 + 9 * a ^ 2 * w * wbar ^ 2 + 2 * a ^ 2 * w * wbar * r3bar * e1 + 2 * a ^ 2 * w *
  wbar * r3bar * e2 - 6 * a ^ 2 * w * wbar * r3bar - a ^ 2 * w * wbar * r3 ^ 3 + a ^ 2 * w * r3bar * r3 ^ 3 + 2 * a ^ 2 * w *
  e1 * r3 ^ 2 + 2 * a ^ 2 * w * e2 * r3 ^ 2 + a ^ 2 * w * r3 ^ 2 - 9 * a ^ 2 * wbar ^ 3 * r3 ^ 2 + 9 * a ^ 2 * wbar ^ 2 *
  r3bar * r3 ^ 2 + 9 * a ^ 2 * wbar ^ 2 * r3 + 9 * a ^ 2 * wbar * r3bar * e1 * r3 + 9 * a ^ 2 * wbar * r3bar * e2 * r3 - 12 *
  a ^ 2 * wbar * r3bar * r3 + 3 * a ^ 2 * wbar * e1 ^ 2 - 6 * a ^ 2 * wbar * e1 * e2 + 4 * a ^ 2 * wbar * e1 + 3 * a ^ 2 *
  wbar * e2 ^ 2 + 4 * a ^ 2 * wbar * e2 - 3 * a ^ 2 * wbar + 4 * a ^ 2 * r3bar * e1 * e2 - 5 * a ^ 2 * r3bar * e1 - 5 * a ^ 2
  * r3bar * e2 + 3 * a ^ 2 * r3bar + 3 * a ^ 2 * e1 ^ 2 * r3 - 6 * a ^ 2 * e1 * e2 * r3 + 2 * a ^ 2 * e1 * r3 ^ 3 + 3 * a ^ 2
  * e2 ^ 2 * r3 + 2 * a ^ 2 * e2 * r3 ^ 3 - a ^ 2 * r3 ^ 3 + 9 * a * w * wbar ^ 2 * e1 * r3 - 9 * a * w * wbar ^ 2 * e2 * r3
  - 6 * a * w * wbar * r3bar * e1 * r3 + 6 * a * w * wbar * r3bar * e2 * r3 - 6 * a * w * wbar * e1 + 6 * a * w * wbar * e2 +
  2 * a * w * r3bar * e1 - 2 * a * w * r3bar * e2 + 9 * a * wbar ^ 2 * e1 * r3 ^ 2 - 9 * a * wbar ^ 2 * e2 * r3 ^ 2 - 6 * a *
  wbar * r3bar * e1 * r3 ^ 2 + 6 * a * wbar * r3bar * e2 * r3 ^ 2 - 6 * a * wbar * e1 ^ 2 * r3 + a * wbar * e1 * r3 ^ 3 - 6 *
  a * wbar * e1 * r3 + 6 * a * wbar * e2 ^ 2 * r3 - a * wbar * e2 * r3 ^ 3 + 6 * a * wbar * e2 * r3 - a * r3bar * e1 ^ 2 * r3
  - a * r3bar * e1 * r3 ^ 3 + 4 * a * r3bar * e1 * r3 + a * r3bar * e2 ^ 2 * r3 + a * r3bar * e2 * r3 ^ 3 - 4 * a * r3bar *
  e2 * r3 - 2 * a * e1 ^ 2 * r3 ^ 2 - a * e1 * r3 ^ 2 + a * e1 + 2 * a * e2 ^ 2 * r3 ^ 2 + a * e2 * r3 ^ 2 - a * e2 + w *
  wbar ^ 3 * r3 ^ 3 - w * wbar ^ 2 * r3bar * r3 ^ 3 - 6 * w * wbar ^ 2 * e1 * r3 ^ 2 - 6 * w * wbar ^ 2 * e2 * r3 ^ 2 - 3 * w
  * wbar ^ 2 * r3 ^ 2 + 4 * w * wbar * r3bar * e1 * r3 ^ 2 + 4 * w * wbar * r3bar * e2 * r3 ^ 2 + 2 * w * wbar * r3bar * r3 ^
  2 + 6 * w * wbar * e1 * r3 + 6 * w * wbar * e2 * r3 + 3 * w * wbar * r3 - 2 * w * r3bar * e1 * r3 - 2 * w * r3bar * e2 * r3
  - w * r3bar * r3 - w - 3 * wbar ^ 2 * e1 * r3 ^ 3 - 3 * wbar ^ 2 * e2 * r3 ^ 3 + wbar ^ 2 * r3 ^ 3 + wbar * r3bar * e1 * r3
  ^ 3 + wbar * r3bar * e2 * r3 ^ 3 + 3 * wbar * e1 ^ 2 * r3 ^ 2 + 6 * wbar * e1 * e2 * r3 ^ 2 + 2 * wbar * e1 * r3 ^ 2 + 3 *
  wbar * e2 ^ 2 * r3 ^ 2 + 2 * wbar * e2 * r3 ^ 2 - 2 * wbar * r3 ^ 2 + r3bar * e1 ^ 2 * r3 ^ 2 + 2 * r3bar * e1 * e2 * r3 ^
  2 - r3bar * e1 * r3 ^ 2 + r3bar * e2 ^ 2 * r3 ^ 2 - r3bar * e2 * r3 ^ 2 - e1 * r3 - e2 * r3 + r3.
(** coeffs.py:517-680 *)
Definition t5 (w wbar a r3 r3bar e1 e2 : C) : C :=
  3 * a ^ 6 * w * wbar - 3 * a ^ 6 * w * r3bar + 9 * a ^ 6 * wbar * r3 - 9 * a ^ 6 * r3bar * r3 - a ^ 6 * e1 - a ^ 6 * e2 - 2
  * a ^ 5 * w * e1 + 2 * a ^ 5 * w * e2 - 3 * a ^ 5 * wbar * e1 + 3 * a ^ 5 * wbar * e2 + 3 * a ^ 5 * r3bar * e1 - 3 * a ^ 5
  * r3bar * e2 - 6 * a ^ 5 * e1 * r3 + 6 * a ^ 5 * e2 * r3 - 3 * a ^ 4 * w * wbar ^ 3 + 3 * a ^ 4 * w * wbar ^ 2 * r3bar - 9
  * a ^ 4 * w * wbar * r3 ^ 2 + 9 * a ^ 4 * w * r3bar * r3 ^ 2 + 6 * a ^ 4 * w * r3 - 9 * a ^ 4 * wbar ^ 3 * r3 + 9 * a ^ 4 *
  wbar ^ 2 * r3bar * r3 - 6 * a ^ 4 * wbar ^ 2 * e1 - 6 * a ^ 4 * wbar ^ 2 * e2 + 6 * a ^ 4 * wbar ^ 2 + 7 * a ^ 4 * wbar *
  r3bar * e1 + 7 * a ^ 4 * wbar * r3bar * e2 - 6 * a ^ 4 * wbar * r3bar - 3 * a ^ 4 * wbar * r3 ^ 3 + 3 * a ^ 4 * r3bar * r3
  ^ 3 + 2 * a ^ 4 * e1 ^ 2 - 4 * a ^ 4 * e1 * e2 + 12 * a ^ 4 * e1 * r3 ^ 2 + 2 * a ^ 4 * e2 ^ 2 + 12 * a ^ 4 * e2 * r3 ^ 2 -
  6 * a ^ 4 * r3 ^ 2 + 6 * a ^ 3 * w * wbar ^ 2 * e1 - 6 * a ^ 3 * w * wbar ^ 2 * e2 - 4 * a ^ 3 * w * wbar * r3bar * e1 + 4
  * a ^ 3 * w * wbar * r3bar * e2 + 3 * a ^ 3 * w * e1 * r3 ^ 2 - 3 * a ^ 3 * w * e2 * r3 ^ 2 + 18 * a ^ 3 * wbar ^ 2 * e1 *
  r3 - 18 * a ^ 3 * wbar ^ 2 * e2 * r3 - 12 * a ^ 3 * wbar * r3bar * e1 * r3 + 12 * a ^ 3 * wbar * r3bar * e2 * r3 + 6 * a ^
  3 * wbar * e1 ^ 2 + 9 * a ^ 3 * wbar * e1 * r3 ^ 2 - 8 * a ^ 3 * wbar * e1 - 6 * a ^ 3 * wbar * e2 ^ 2 - 9 * a ^ 3 * wbar *
  e2 * r3 ^ 2 + 8 * a ^ 3 * wbar * e2 - 4 * a ^ 3 * r3bar * e1 ^ 2 - 9 * a ^ 3 * r3bar * e1 * r3 ^ 2 + 4 * a ^ 3 * r3bar * e1
  + 4 * a ^ 3 * r3bar * e2 ^ 2 + 9 * a ^ 3 * r3bar * e2 * r3 ^ 2 - 4 * a ^ 3 * r3bar * e2 + a ^ 3 * e1 * r3 ^ 3 - 6 * a ^ 3 *
  e1 * r3 - a ^ 3 * e2 * r3 ^ 3 + 6 * a ^ 3 * e2 * r3 + 9 * a ^ 2 * w * wbar ^ 3 * r3 ^ 2 - 9 * a ^ 2 * w * wbar ^ 2 * r3bar
  * r3 ^ 2 - 18 * a ^ 2 * w * wbar ^ 2 * r3 + 12 * a ^ 2 * w * wbar * r3bar * r3 - 3 * a ^ 2 * w * wbar * e1 ^ 2 + 6 * a ^ 2
  * w * wbar * e1 * e2 - 6 * a ^ 2 * w * wbar * e1 - 3 * a ^ 2 * w * wbar * e2 ^ 2 - 6 * a ^ 2 * w * wbar * e2 + 9 * a ^ 2 *
  w * wbar + a ^ 2 * w * r3bar * e1 ^ 2 - 2 * a ^ 2 * w * r3bar * e1 * e2 + 2 * a ^ 2 * w * r3bar * e1 + a ^ 2 * w * r3bar *
  e2 ^ 2 + 2 * a ^ 2 * w * r3bar * e2 - 3 * a ^ 2 * w * r3bar - a ^ 2 * w * e1 * r3 ^ 3 - a ^ 2 * w * e2 * r3 ^ 3 + 3 * a ^ 2
  * wbar ^ 3 * r3 ^ 3 - 3 * a ^ 2 * wbar ^ 2 * r3bar * r3 ^ 3 - 9 * a ^ 2 * wbar ^ 2 * e1 * r3 ^ 2 - 9 * a ^ 2 * wbar ^ 2 *
  e2 * r3 ^ 2 - 3 * a ^ 2 * wbar * r3bar * e1 * r3 ^ 2 - 3 * a ^ 2 * wbar * r3bar * e2 * r3 ^ 2 + 6 * a ^ 2 * wbar * r3bar *
  r3 ^ 2 - 15 * a ^ 2 * wbar * e1 ^ 2 * r3 + 6 * a ^ 2 * wbar * e1 * e2 * r3 + 6 * a ^ 2 * wbar * e1 * r3 - 15 * a ^ 2 * wbar
  * e2 ^ 2 * r3 + 6 * a ^ 2 * wbar * e2 * r3 - 3 * a ^ 2 * wbar * r3 + 5 * a ^ 2 * r3bar * e1 ^ 2 * r3 - 2 * a ^ 2 * r3bar *
  e1 * e2 * r3 + 4 * a ^ 2 * r3bar * e1 * r3 + 5 * a ^ 2 * r3bar * e2 ^ 2 * r3 + 4 * a ^ 2 * r3bar * e2 * r3 - 3 * a ^ 2 *
  r3bar * r3 - 3 * a ^ 2 * e1 ^ 2 * r3 ^ 2 + 2 * a ^ 2 * e1 ^ 2 + 6 * a ^ 2 * e1 * e2 * r3 ^ 2 - 4 * a ^ 2 * e1 * e2 + a ^ 2
  * e1 - 3 * a ^ 2 * e2 ^ 2 * r3 ^ 2 + 2 * a ^ 2 * e2 ^ 2 + a ^ 2 * e2 - 9 * a * w * wbar ^ 2 * e1 * r3 ^ 2 + 9 * a * w *
  wbar ^ 2 * e2 * r3 ^ 2 + 6 * a * w * wbar * r3bar * e1 * r3 ^ 2 - 6 * a * w * wbar * r3bar * e2 * r3 ^ 2 + 6 * a * w * wbar
  * e1 ^ 2 * r3 + 12 * a * w * wbar * e1 * r3 - 6 * a * w * wbar * e2 ^ 2 * r3 - 12 * a * w * wbar * e2 * r3 - 2 * a * w *
  r3bar * e1 ^ 2 * r3 - 4 * a * w * r3bar * e1 * r3 + 2 * a * w * r3bar * e2 ^ 2 * r3 + 4 * a * w * r3bar * e2 * r3 - 3 * a *
  w * e1 + 3 * a * w * e2 - 3 * a * wbar ^ 2 * e1 * r3 ^ 3 + 3 * a * wbar ^ 2 * e2 * r3 ^ 3 + 2 * a * wbar * r3bar * e1 * r3
  ^ 3 - 2 * a * wbar * r3bar * e2 * r3 ^ 3 + 12 * a * wbar * e1 ^ 2 * r3 ^ 2 - 12 * a * wbar * e2 ^ 2 * r3 ^ 2 - a * r3bar *
  e1 ^ 2 * r3 ^ 2 - 2 * a * r3bar * e1 * r3 ^ 2 + a * r3bar * e2 ^ 2 * r3 ^ 2 + 2 * a * r3bar * e2 * r3 ^ 2 + a * e1 ^ 2 * r3
  ^ 3 - 4 * a * e1 ^ 2 * r3 + a * e1 * r3 - a * e2 ^ 2 * r3 ^ 3 + 4 * a * e2 ^ 2 * r3 - a * e2 * r3 + 3 * w * wbar ^ 2 * e1 *
  r3 ^ 3 + 3 * w * wbar ^ 2 * e2 * r3 ^ 3 - 2 * w * wbar * r3bar * e1 * r3 ^ 3 - 2 * w * wbar * r3bar * e2 * r3 ^ 3 - 3 * w *
  wbar * e1 ^ 2 * r3 ^ 2 - 6 * w * wbar * e1 * e2 * r3 ^ 2 - 6 * w * wbar * e1 * r3 ^ 2 - 3 * w * wbar * e2 ^ 2 * r3 ^ 2 - 6
  * w * wbar * e2 * r3 ^ 2 + w * r3bar * e1 ^ 2 * r3 ^ 2 + 2 * w * r3bar * e1 * e2 * r3 ^ 2 + 2 * w * r3bar * e1 * r3 ^ 2 + w
  * r3bar * e2 ^ 2 * r3 ^ 2 + 2 * w * r3bar * e2 * r3 ^ 2 + 3 * w * e1 * r3 + 3 * w * e2 * r3 - 3 * wbar * e1 ^ 2 * r3 ^ 3 -
  6 * wbar * e1 * e2 * r3 ^ 3 + 2 * wbar * e1 * r3 ^ 3 - 3 * wbar * e2 ^ 2 * r3 ^ 3 + 2 * wbar * e2 * r3 ^ 3 + 2 * e1 ^ 2 *
  r3 ^ 2 + 4 * e1 * e2 * r3 ^ 2 - 2 * e1 * r3 ^ 2 + 2 * e2 ^ 2 * r3 ^ 2 - 2 * e2 * r3 ^ 2.
(** coeffs.py:682-895 *)
Definition t6 (w wbar a r3 r3bar e1 e2 : C) : C :=
  a ^ 8 * wbar - a ^ 8 * r3bar - a ^ 7 * e1 + a ^ 7 * e2 - 9 * a ^ 6 * w * wbar * r3 + 9 * a ^ 6 * w * r3bar * r3 - 2 * a ^ 6
  * w * e1 - 2 * a ^ 6 * w * e2 + 3 * a ^ 6 * w - a ^ 6 * wbar ^ 3 + a ^ 6 * wbar ^ 2 * r3bar - 9 * a ^ 6 * wbar * r3 ^ 2 + 9
  * a ^ 6 * r3bar * r3 ^ 2 + 6 * a ^ 6 * e1 * r3 + 6 * a ^ 6 * e2 * r3 - 3 * a ^ 6 * r3 + 6 * a ^ 5 * w * e1 * r3 - 6 * a ^ 5
  * w * e2 * r3 + 3 * a ^ 5 * wbar ^ 2 * e1 - 3 * a ^ 5 * wbar ^ 2 * e2 - 2 * a ^ 5 * wbar * r3bar * e1 + 2 * a ^ 5 * wbar *
  r3bar * e2 + 9 * a ^ 5 * wbar * e1 * r3 - 9 * a ^ 5 * wbar * e2 * r3 - 9 * a ^ 5 * r3bar * e1 * r3 + 9 * a ^ 5 * r3bar * e2
  * r3 + 2 * a ^ 5 * e1 ^ 2 + 6 * a ^ 5 * e1 * r3 ^ 2 - 3 * a ^ 5 * e1 - 2 * a ^ 5 * e2 ^ 2 - 6 * a ^ 5 * e2 * r3 ^ 2 + 3 * a
  ^ 5 * e2 + 9 * a ^ 4 * w * wbar ^ 3 * r3 - 9 * a ^ 4 * w * wbar ^ 2 * r3bar * r3 + 6 * a ^ 4 * w * wbar ^ 2 * e1 + 6 * a ^
  4 * w * wbar ^ 2 * e2 - 9 * a ^ 4 * w * wbar ^ 2 - 4 * a ^ 4 * w * wbar * r3bar * e1 - 4 * a ^ 4 * w * wbar * r3bar * e2 +
  6 * a ^ 4 * w * wbar * r3bar + 3 * a ^ 4 * w * wbar * r3 ^ 3 - 3 * a ^ 4 * w * r3bar * r3 ^ 3 - 3 * a ^ 4 * w * e1 * r3 ^ 2
  - 3 * a ^ 4 * w * e2 * r3 ^ 2 - 3 * a ^ 4 * w * r3 ^ 2 + 9 * a ^ 4 * wbar ^ 3 * r3 ^ 2 - 9 * a ^ 4 * wbar ^ 2 * r3bar * r3
  ^ 2 + 9 * a ^ 4 * wbar ^ 2 * e1 * r3 + 9 * a ^ 4 * wbar ^ 2 * e2 * r3 - 9 * a ^ 4 * wbar ^ 2 * r3 - 15 * a ^ 4 * wbar *
  r3bar * e1 * r3 - 15 * a ^ 4 * wbar * r3bar * e2 * r3 + 12 * a ^ 4 * wbar * r3bar * r3 + 12 * a ^ 4 * wbar * e1 * e2 - 8 *
  a ^ 4 * wbar * e1 - 8 * a ^ 4 * wbar * e2 + 3 * a ^ 4 * wbar - 2 * a ^ 4 * r3bar * e1 ^ 2 - 8 * a ^ 4 * r3bar * e1 * e2 + 7
  * a ^ 4 * r3bar * e1 - 2 * a ^ 4 * r3bar * e2 ^ 2 + 7 * a ^ 4 * r3bar * e2 - 3 * a ^ 4 * r3bar - 6 * a ^ 4 * e1 ^ 2 * r3 +
  12 * a ^ 4 * e1 * e2 * r3 - 5 * a ^ 4 * e1 * r3 ^ 3 - 6 * a ^ 4 * e2 ^ 2 * r3 - 5 * a ^ 4 * e2 * r3 ^ 3 + 3 * a ^ 4 * r3 ^
  3 - 18 * a ^ 3 * w * wbar ^ 2 * e1 * r3 + 18 * a ^ 3 * w * wbar ^ 2 * e2 * r3 + 12 * a ^ 3 * w * wbar * r3bar * e1 * r3 -
  12 * a ^ 3 * w * wbar * r3bar * e2 * r3 - 6 * a ^ 3 * w * wbar * e1 ^ 2 + 12 * a ^ 3 * w * wbar * e1 + 6 * a ^ 3 * w * wbar
  * e2 ^ 2 - 12 * a ^ 3 * w * wbar * e2 + 2 * a ^ 3 * w * r3bar * e1 ^ 2 - 4 * a ^ 3 * w * r3bar * e1 - 2 * a ^ 3 * w * r3bar
  * e2 ^ 2 + 4 * a ^ 3 * w * r3bar * e2 - a ^ 3 * w * e1 * r3 ^ 3 + a ^ 3 * w * e2 * r3 ^ 3 - 18 * a ^ 3 * wbar ^ 2 * e1 * r3
  ^ 2 + 18 * a ^ 3 * wbar ^ 2 * e2 * r3 ^ 2 + 12 * a ^ 3 * wbar * r3bar * e1 * r3 ^ 2 - 12 * a ^ 3 * wbar * r3bar * e2 * r3 ^
  2 - 6 * a ^ 3 * wbar * e1 ^ 2 * r3 - 3 * a ^ 3 * wbar * e1 * r3 ^ 3 + 12 * a ^ 3 * wbar * e1 * r3 + 6 * a ^ 3 * wbar * e2 ^
  2 * r3 + 3 * a ^ 3 * wbar * e2 * r3 ^ 3 - 12 * a ^ 3 * wbar * e2 * r3 + 8 * a ^ 3 * r3bar * e1 ^ 2 * r3 + 3 * a ^ 3 * r3bar
  * e1 * r3 ^ 3 - 8 * a ^ 3 * r3bar * e1 * r3 - 8 * a ^ 3 * r3bar * e2 ^ 2 * r3 - 3 * a ^ 3 * r3bar * e2 * r3 ^ 3 + 8 * a ^ 3
  * r3bar * e2 * r3 + a ^ 3 * e1 ^ 3 - 3 * a ^ 3 * e1 ^ 2 * e2 + 3 * a ^ 3 * e1 ^ 2 * r3 ^ 2 + 4 * a ^ 3 * e1 ^ 2 + 3 * a ^ 3
  * e1 * e2 ^ 2 + 3 * a ^ 3 * e1 * r3 ^ 2 - 2 * a ^ 3 * e1 - a ^ 3 * e2 ^ 3 - 3 * a ^ 3 * e2 ^ 2 * r3 ^ 2 - 4 * a ^ 3 * e2 ^
  2 - 3 * a ^ 3 * e2 * r3 ^ 2 + 2 * a ^ 3 * e2 - 3 * a ^ 2 * w * wbar ^ 3 * r3 ^ 3 + 3 * a ^ 2 * w * wbar ^ 2 * r3bar * r3 ^
  3 + 9 * a ^ 2 * w * wbar ^ 2 * e1 * r3 ^ 2 + 9 * a ^ 2 * w * wbar ^ 2 * e2 * r3 ^ 2 + 9 * a ^ 2 * w * wbar ^ 2 * r3 ^ 2 - 6
  * a ^ 2 * w * wbar * r3bar * e1 * r3 ^ 2 - 6 * a ^ 2 * w * wbar * r3bar * e2 * r3 ^ 2 - 6 * a ^ 2 * w * wbar * r3bar * r3 ^
  2 + 15 * a ^ 2 * w * wbar * e1 ^ 2 * r3 - 6 * a ^ 2 * w * wbar * e1 * e2 * r3 - 6 * a ^ 2 * w * wbar * e1 * r3 + 15 * a ^ 2
  * w * wbar * e2 ^ 2 * r3 - 6 * a ^ 2 * w * wbar * e2 * r3 - 9 * a ^ 2 * w * wbar * r3 - 5 * a ^ 2 * w * r3bar * e1 ^ 2 * r3
  + 2 * a ^ 2 * w * r3bar * e1 * e2 * r3 + 2 * a ^ 2 * w * r3bar * e1 * r3 - 5 * a ^ 2 * w * r3bar * e2 ^ 2 * r3 + 2 * a ^ 2
  * w * r3bar * e2 * r3 + 3 * a ^ 2 * w * r3bar * r3 - 3 * a ^ 2 * w * e1 ^ 2 + 6 * a ^ 2 * w * e1 * e2 - 3 * a ^ 2 * w * e1
  - 3 * a ^ 2 * w * e2 ^ 2 - 3 * a ^ 2 * w * e2 + 3 * a ^ 2 * w + 6 * a ^ 2 * wbar ^ 2 * e1 * r3 ^ 3 + 6 * a ^ 2 * wbar ^ 2 *
  e2 * r3 ^ 3 - 3 * a ^ 2 * wbar ^ 2 * r3 ^ 3 - a ^ 2 * wbar * r3bar * e1 * r3 ^ 3 - a ^ 2 * wbar * r3bar * e2 * r3 ^ 3 + 12
  * a ^ 2 * wbar * e1 ^ 2 * r3 ^ 2 - 12 * a ^ 2 * wbar * e1 * e2 * r3 ^ 2 - 6 * a ^ 2 * wbar * e1 * r3 ^ 2 + 12 * a ^ 2 *
  wbar * e2 ^ 2 * r3 ^ 2 - 6 * a ^ 2 * wbar * e2 * r3 ^ 2 + 6 * a ^ 2 * wbar * r3 ^ 2 - 7 * a ^ 2 * r3bar * e1 ^ 2 * r3 ^ 2 -
  2 * a ^ 2 * r3bar * e1 * e2 * r3 ^ 2 + a ^ 2 * r3bar * e1 * r3 ^ 2 - 7 * a ^ 2 * r3bar * e2 ^ 2 * r3 ^ 2 + a ^ 2 * r3bar *
  e2 * r3 ^ 2 - 3 * a ^ 2 * e1 ^ 3 * r3 + 3 * a ^ 2 * e1 ^ 2 * e2 * r3 + a ^ 2 * e1 ^ 2 * r3 ^ 3 - 7 * a ^ 2 * e1 ^ 2 * r3 +
  3 * a ^ 2 * e1 * e2 ^ 2 * r3 - 2 * a ^ 2 * e1 * e2 * r3 ^ 3 - 2 * a ^ 2 * e1 * e2 * r3 + 4 * a ^ 2 * e1 * r3 - 3 * a ^ 2 *
  e2 ^ 3 * r3 + a ^ 2 * e2 ^ 2 * r3 ^ 3 - 7 * a ^ 2 * e2 ^ 2 * r3 + 4 * a ^ 2 * e2 * r3 - 3 * a ^ 2 * r3 + 3 * a * w * wbar ^
  2 * e1 * r3 ^ 3 - 3 * a * w * wbar ^ 2 * e2 * r3 ^ 3 - 2 * a * w * wbar * r3bar * e1 * r3 ^ 3 + 2 * a * w * wbar * r3bar *
  e2 * r3 ^ 3 - 12 * a * w * wbar * e1 ^ 2 * r3 ^ 2 - 6 * a * w * wbar * e1 * r3 ^ 2 + 12 * a * w * wbar * e2 ^ 2 * r3 ^ 2 +
  6 * a * w * wbar * e2 * r3 ^ 2 + 4 * a * w * r3bar * e1 ^ 2 * r3 ^ 2 + 2 * a * w * r3bar * e1 * r3 ^ 2 - 4 * a * w * r3bar
  * e2 ^ 2 * r3 ^ 2 - 2 * a * w * r3bar * e2 * r3 ^ 2 + 6 * a * w * e1 ^ 2 * r3 + 3 * a * w * e1 * r3 - 6 * a * w * e2 ^ 2 *
  r3 - 3 * a * w * e2 * r3 - 6 * a * wbar * e1 ^ 2 * r3 ^ 3 + 2 * a * wbar * e1 * r3 ^ 3 + 6 * a * wbar * e2 ^ 2 * r3 ^ 3 - 2
  * a * wbar * e2 * r3 ^ 3 + a * r3bar * e1 ^ 2 * r3 ^ 3 - a * r3bar * e2 ^ 2 * r3 ^ 3 + 3 * a * e1 ^ 3 * r3 ^ 2 + 3 * a * e1
  ^ 2 * e2 * r3 ^ 2 + 2 * a * e1 ^ 2 * r3 ^ 2 - 3 * a * e1 * e2 ^ 2 * r3 ^ 2 - 2 * a * e1 * r3 ^ 2 - 3 * a * e2 ^ 3 * r3 ^ 2
  - 2 * a * e2 ^ 2 * r3 ^ 2 + 2 * a * e2 * r3 ^ 2 + 3 * w * wbar * e1 ^ 2 * r3 ^ 3 + 6 * w * wbar * e1 * e2 * r3 ^ 3 + 3 * w
  * wbar * e2 ^ 2 * r3 ^ 3 - w * r3bar * e1 ^ 2 * r3 ^ 3 - 2 * w * r3bar * e1 * e2 * r3 ^ 3 - w * r3bar * e2 ^ 2 * r3 ^ 3 - 3
  * w * e1 ^ 2 * r3 ^ 2 - 6 * w * e1 * e2 * r3 ^ 2 - 3 * w * e2 ^ 2 * r3 ^ 2 - e1 ^ 3 * r3 ^ 3 - 3 * e1 ^ 2 * e2 * r3 ^ 3 +
  e1 ^ 2 * r3 ^ 3 - 3 * e1 * e2 ^ 2 * r3 ^ 3 + 2 * e1 * e2 * r3 ^ 3 - e2 ^ 3 * r3 ^ 3 + e2 ^ 2 * r3 ^ 3.
(** coeffs.py:897-1100 *)
Definition t7 (w wbar a r3 r3bar e1 e2 : C) : C :=
  - (a ^ 8 * w * wbar) + a ^ 8 * w * r3bar - 3 * a ^ 8 * wbar * r3 + 3 * a ^ 8 * r3bar * r3 + a ^ 7 * w * e1 - a ^ 7 * w * e2
  + a ^ 7 * wbar * e1 - a ^ 7 * wbar * e2 - a ^ 7 * r3bar * e1 + a ^ 7 * r3bar * e2 + 3 * a ^ 7 * e1 * r3 - 3 * a ^ 7 * e2 *
  r3 + a ^ 6 * w * wbar ^ 3 - a ^ 6 * w * wbar ^ 2 * r3bar + 9 * a ^ 6 * w * wbar * r3 ^ 2 - 9 * a ^ 6 * w * r3bar * r3 ^ 2 +
  3 * a ^ 6 * w * e1 * r3 + 3 * a ^ 6 * w * e2 * r3 - 6 * a ^ 6 * w * r3 + 3 * a ^ 6 * wbar ^ 3 * r3 - 3 * a ^ 6 * wbar ^ 2 *
  r3bar * r3 + 3 * a ^ 6 * wbar ^ 2 * e1 + 3 * a ^ 6 * wbar ^ 2 * e2 - 2 * a ^ 6 * wbar ^ 2 - 3 * a ^ 6 * wbar * r3bar * e1 -
  3 * a ^ 6 * wbar * r3bar * e2 + 2 * a ^ 6 * wbar * r3bar + 3 * a ^ 6 * wbar * r3 ^ 3 - 3 * a ^ 6 * r3bar * r3 ^ 3 - a ^ 6 *
  e1 ^ 2 + 2 * a ^ 6 * e1 * e2 - 9 * a ^ 6 * e1 * r3 ^ 2 - a ^ 6 * e2 ^ 2 - 9 * a ^ 6 * e2 * r3 ^ 2 + 6 * a ^ 6 * r3 ^ 2 - 3
  * a ^ 5 * w * wbar ^ 2 * e1 + 3 * a ^ 5 * w * wbar ^ 2 * e2 + 2 * a ^ 5 * w * wbar * r3bar * e1 - 2 * a ^ 5 * w * wbar *
  r3bar * e2 - 6 * a ^ 5 * w * e1 * r3 ^ 2 + 6 * a ^ 5 * w * e2 * r3 ^ 2 - 9 * a ^ 5 * wbar ^ 2 * e1 * r3 + 9 * a ^ 5 * wbar
  ^ 2 * e2 * r3 + 6 * a ^ 5 * wbar * r3bar * e1 * r3 - 6 * a ^ 5 * wbar * r3bar * e2 * r3 - 6 * a ^ 5 * wbar * e1 ^ 2 - 9 * a
  ^ 5 * wbar * e1 * r3 ^ 2 + 4 * a ^ 5 * wbar * e1 + 6 * a ^ 5 * wbar * e2 ^ 2 + 9 * a ^ 5 * wbar * e2 * r3 ^ 2 - 4 * a ^ 5 *
  wbar * e2 + 3 * a ^ 5 * r3bar * e1 ^ 2 + 9 * a ^ 5 * r3bar * e1 * r3 ^ 2 - 2 * a ^ 5 * r3bar * e1 - 3 * a ^ 5 * r3bar * e2
  ^ 2 - 9 * a ^ 5 * r3bar * e2 * r3 ^ 2 + 2 * a ^ 5 * r3bar * e2 - 3 * a ^ 5 * e1 ^ 2 * r3 - 2 * a ^ 5 * e1 * r3 ^ 3 + 6 * a
  ^ 5 * e1 * r3 + 3 * a ^ 5 * e2 ^ 2 * r3 + 2 * a ^ 5 * e2 * r3 ^ 3 - 6 * a ^ 5 * e2 * r3 - 9 * a ^ 4 * w * wbar ^ 3 * r3 ^ 2
  + 9 * a ^ 4 * w * wbar ^ 2 * r3bar * r3 ^ 2 - 9 * a ^ 4 * w * wbar ^ 2 * e1 * r3 - 9 * a ^ 4 * w * wbar ^ 2 * e2 * r3 + 18
  * a ^ 4 * w * wbar ^ 2 * r3 + 6 * a ^ 4 * w * wbar * r3bar * e1 * r3 + 6 * a ^ 4 * w * wbar * r3bar * e2 * r3 - 12 * a ^ 4
  * w * wbar * r3bar * r3 - 12 * a ^ 4 * w * wbar * e1 * e2 + 12 * a ^ 4 * w * wbar * e1 + 12 * a ^ 4 * w * wbar * e2 - 9 * a
  ^ 4 * w * wbar + 4 * a ^ 4 * w * r3bar * e1 * e2 - 4 * a ^ 4 * w * r3bar * e1 - 4 * a ^ 4 * w * r3bar * e2 + 3 * a ^ 4 * w
  * r3bar + 2 * a ^ 4 * w * e1 * r3 ^ 3 + 2 * a ^ 4 * w * e2 * r3 ^ 3 - 3 * a ^ 4 * wbar ^ 3 * r3 ^ 3 + 3 * a ^ 4 * wbar ^ 2
  * r3bar * r3 ^ 3 + 9 * a ^ 4 * wbar * r3bar * e1 * r3 ^ 2 + 9 * a ^ 4 * wbar * r3bar * e2 * r3 ^ 2 - 6 * a ^ 4 * wbar *
  r3bar * r3 ^ 2 + 12 * a ^ 4 * wbar * e1 ^ 2 * r3 - 12 * a ^ 4 * wbar * e1 * e2 * r3 + 12 * a ^ 4 * wbar * e2 ^ 2 * r3 + 3 *
  a ^ 4 * wbar * r3 - a ^ 4 * r3bar * e1 ^ 2 * r3 + 10 * a ^ 4 * r3bar * e1 * e2 * r3 - 8 * a ^ 4 * r3bar * e1 * r3 - a ^ 4 *
  r3bar * e2 ^ 2 * r3 - 8 * a ^ 4 * r3bar * e2 * r3 + 3 * a ^ 4 * r3bar * r3 + 3 * a ^ 4 * e1 ^ 3 - 3 * a ^ 4 * e1 ^ 2 * e2 +
  6 * a ^ 4 * e1 ^ 2 * r3 ^ 2 - 3 * a ^ 4 * e1 * e2 ^ 2 - 12 * a ^ 4 * e1 * e2 * r3 ^ 2 + 8 * a ^ 4 * e1 * e2 - 2 * a ^ 4 *
  e1 + 3 * a ^ 4 * e2 ^ 3 + 6 * a ^ 4 * e2 ^ 2 * r3 ^ 2 - 2 * a ^ 4 * e2 + 18 * a ^ 3 * w * wbar ^ 2 * e1 * r3 ^ 2 - 18 * a ^
  3 * w * wbar ^ 2 * e2 * r3 ^ 2 - 12 * a ^ 3 * w * wbar * r3bar * e1 * r3 ^ 2 + 12 * a ^ 3 * w * wbar * r3bar * e2 * r3 ^ 2
  + 6 * a ^ 3 * w * wbar * e1 ^ 2 * r3 - 24 * a ^ 3 * w * wbar * e1 * r3 - 6 * a ^ 3 * w * wbar * e2 ^ 2 * r3 + 24 * a ^ 3 *
  w * wbar * e2 * r3 - 2 * a ^ 3 * w * r3bar * e1 ^ 2 * r3 + 8 * a ^ 3 * w * r3bar * e1 * r3 + 2 * a ^ 3 * w * r3bar * e2 ^ 2
  * r3 - 8 * a ^ 3 * w * r3bar * e2 * r3 - a ^ 3 * w * e1 ^ 3 + 3 * a ^ 3 * w * e1 ^ 2 * e2 - 6 * a ^ 3 * w * e1 ^ 2 - 3 * a
  ^ 3 * w * e1 * e2 ^ 2 + 6 * a ^ 3 * w * e1 + a ^ 3 * w * e2 ^ 3 + 6 * a ^ 3 * w * e2 ^ 2 - 6 * a ^ 3 * w * e2 + 6 * a ^ 3 *
  wbar ^ 2 * e1 * r3 ^ 3 - 6 * a ^ 3 * wbar ^ 2 * e2 * r3 ^ 3 - 4 * a ^ 3 * wbar * r3bar * e1 * r3 ^ 3 + 4 * a ^ 3 * wbar *
  r3bar * e2 * r3 ^ 3 - 6 * a ^ 3 * wbar * e1 ^ 2 * r3 ^ 2 + 6 * a ^ 3 * wbar * e2 ^ 2 * r3 ^ 2 - 4 * a ^ 3 * r3bar * e1 ^ 2
  * r3 ^ 2 + 4 * a ^ 3 * r3bar * e1 * r3 ^ 2 + 4 * a ^ 3 * r3bar * e2 ^ 2 * r3 ^ 2 - 4 * a ^ 3 * r3bar * e2 * r3 ^ 2 - 9 * a
  ^ 3 * e1 ^ 3 * r3 + 3 * a ^ 3 * e1 ^ 2 * e2 * r3 - 2 * a ^ 3 * e1 ^ 2 * r3 ^ 3 + 2 * a ^ 3 * e1 ^ 2 * r3 - 3 * a ^ 3 * e1 *
  e2 ^ 2 * r3 - 2 * a ^ 3 * e1 * r3 + 9 * a ^ 3 * e2 ^ 3 * r3 + 2 * a ^ 3 * e2 ^ 2 * r3 ^ 3 - 2 * a ^ 3 * e2 ^ 2 * r3 + 2 * a
  ^ 3 * e2 * r3 - 6 * a ^ 2 * w * wbar ^ 2 * e1 * r3 ^ 3 - 6 * a ^ 2 * w * wbar ^ 2 * e2 * r3 ^ 3 + 4 * a ^ 2 * w * wbar *
  r3bar * e1 * r3 ^ 3 + 4 * a ^ 2 * w * wbar * r3bar * e2 * r3 ^ 3 - 12 * a ^ 2 * w * wbar * e1 ^ 2 * r3 ^ 2 + 12 * a ^ 2 * w
  * wbar * e1 * e2 * r3 ^ 2 + 12 * a ^ 2 * w * wbar * e1 * r3 ^ 2 - 12 * a ^ 2 * w * wbar * e2 ^ 2 * r3 ^ 2 + 12 * a ^ 2 * w
  * wbar * e2 * r3 ^ 2 + 4 * a ^ 2 * w * r3bar * e1 ^ 2 * r3 ^ 2 - 4 * a ^ 2 * w * r3bar * e1 * e2 * r3 ^ 2 - 4 * a ^ 2 * w *
  r3bar * e1 * r3 ^ 2 + 4 * a ^ 2 * w * r3bar * e2 ^ 2 * r3 ^ 2 - 4 * a ^ 2 * w * r3bar * e2 * r3 ^ 2 + 3 * a ^ 2 * w * e1 ^
  3 * r3 - 3 * a ^ 2 * w * e1 ^ 2 * e2 * r3 + 12 * a ^ 2 * w * e1 ^ 2 * r3 - 3 * a ^ 2 * w * e1 * e2 ^ 2 * r3 - 6 * a ^ 2 * w
  * e1 * r3 + 3 * a ^ 2 * w * e2 ^ 3 * r3 + 12 * a ^ 2 * w * e2 ^ 2 * r3 - 6 * a ^ 2 * w * e2 * r3 + 12 * a ^ 2 * wbar * e1 *
  e2 * r3 ^ 3 - 4 * a ^ 2 * wbar * e1 * r3 ^ 3 - 4 * a ^ 2 * wbar * e2 * r3 ^ 3 + 2 * a ^ 2 * r3bar * e1 ^ 2 * r3 ^ 3 + 2 * a
  ^ 2 * r3bar * e2 ^ 2 * r3 ^ 3 + 9 * a ^ 2 * e1 ^ 3 * r3 ^ 2 + 3 * a ^ 2 * e1 ^ 2 * e2 * r3 ^ 2 - 4 * a ^ 2 * e1 ^ 2 * r3 ^
  2 + 3 * a ^ 2 * e1 * e2 ^ 2 * r3 ^ 2 - 8 * a ^ 2 * e1 * e2 * r3 ^ 2 + 4 * a ^ 2 * e1 * r3 ^ 2 + 9 * a ^ 2 * e2 ^ 3 * r3 ^ 2
  - 4 * a ^ 2 * e2 ^ 2 * r3 ^ 2 + 4 * a ^ 2 * e2 * r3 ^ 2 + 6 * a * w * wbar * e1 ^ 2 * r3 ^ 3 - 6 * a * w * wbar * e2 ^ 2 *
  r3 ^ 3 - 2 * a * w * r3bar * e1 ^ 2 * r3 ^ 3 + 2 * a * w * r3bar * e2 ^ 2 * r3 ^ 3 - 3 * a * w * e1 ^ 3 * r3 ^ 2 - 3 * a *
  w * e1 ^ 2 * e2 * r3 ^ 2 - 6 * a * w * e1 ^ 2 * r3 ^ 2 + 3 * a * w * e1 * e2 ^ 2 * r3 ^ 2 + 3 * a * w * e2 ^ 3 * r3 ^ 2 + 6
  * a * w * e2 ^ 2 * r3 ^ 2 - 3 * a * e1 ^ 3 * r3 ^ 3 - 3 * a * e1 ^ 2 * e2 * r3 ^ 3 + 2 * a * e1 ^ 2 * r3 ^ 3 + 3 * a * e1 *
  e2 ^ 2 * r3 ^ 3 + 3 * a * e2 ^ 3 * r3 ^ 3 - 2 * a * e2 ^ 2 * r3 ^ 3 + w * e1 ^ 3 * r3 ^ 3 + 3 * w * e1 ^ 2 * e2 * r3 ^ 3 +
  3 * w * e1 * e2 ^ 2 * r3 ^ 3 + w * e2 ^ 3 * r3 ^ 3.
(** coeffs.py:1102-1301 *)
Definition t8 (w wbar a r3 r3bar e1 e2 : C) : C :=
  3 * a ^ 8 * w * wbar * r3 - 3 * a ^ 8 * w * r3bar * r3 + a ^ 8 * w * e1 + a ^ 8 * w * e2 - a ^ 8 * w + 3 * a ^ 8 * wbar *
  r3 ^ 2 - 3 * a ^ 8 * r3bar * r3 ^ 2 - a ^ 8 * e1 * r3 - a ^ 8 * e2 * r3 + a ^ 8 * r3 - 3 * a ^ 7 * w * e1 * r3 + 3 * a ^ 7
  * w * e2 * r3 - 3 * a ^ 7 * wbar * e1 * r3 + 3 * a ^ 7 * wbar * e2 * r3 + 3 * a ^ 7 * r3bar * e1 * r3 - 3 * a ^ 7 * r3bar *
  e2 * r3 - a ^ 7 * e1 ^ 2 - 3 * a ^ 7 * e1 * r3 ^ 2 + a ^ 7 * e1 + a ^ 7 * e2 ^ 2 + 3 * a ^ 7 * e2 * r3 ^ 2 - a ^ 7 * e2 - 3
  * a ^ 6 * w * wbar ^ 3 * r3 + 3 * a ^ 6 * w * wbar ^ 2 * r3bar * r3 - 3 * a ^ 6 * w * wbar ^ 2 * e1 - 3 * a ^ 6 * w * wbar
  ^ 2 * e2 + 3 * a ^ 6 * w * wbar ^ 2 + 2 * a ^ 6 * w * wbar * r3bar * e1 + 2 * a ^ 6 * w * wbar * r3bar * e2 - 2 * a ^ 6 * w
  * wbar * r3bar - 3 * a ^ 6 * w * wbar * r3 ^ 3 + 3 * a ^ 6 * w * r3bar * r3 ^ 3 + 3 * a ^ 6 * w * r3 ^ 2 - 3 * a ^ 6 * wbar
  ^ 3 * r3 ^ 2 + 3 * a ^ 6 * wbar ^ 2 * r3bar * r3 ^ 2 - 6 * a ^ 6 * wbar ^ 2 * e1 * r3 - 6 * a ^ 6 * wbar ^ 2 * e2 * r3 + 3
  * a ^ 6 * wbar ^ 2 * r3 + 7 * a ^ 6 * wbar * r3bar * e1 * r3 + 7 * a ^ 6 * wbar * r3bar * e2 * r3 - 4 * a ^ 6 * wbar *
  r3bar * r3 - 3 * a ^ 6 * wbar * e1 ^ 2 - 6 * a ^ 6 * wbar * e1 * e2 + 4 * a ^ 6 * wbar * e1 - 3 * a ^ 6 * wbar * e2 ^ 2 + 4
  * a ^ 6 * wbar * e2 - a ^ 6 * wbar + 2 * a ^ 6 * r3bar * e1 ^ 2 + 4 * a ^ 6 * r3bar * e1 * e2 - 3 * a ^ 6 * r3bar * e1 + 2
  * a ^ 6 * r3bar * e2 ^ 2 - 3 * a ^ 6 * r3bar * e2 + a ^ 6 * r3bar + 3 * a ^ 6 * e1 ^ 2 * r3 - 6 * a ^ 6 * e1 * e2 * r3 + 4
  * a ^ 6 * e1 * r3 ^ 3 + 3 * a ^ 6 * e2 ^ 2 * r3 + 4 * a ^ 6 * e2 * r3 ^ 3 - 3 * a ^ 6 * r3 ^ 3 + 9 * a ^ 5 * w * wbar ^ 2 *
  e1 * r3 - 9 * a ^ 5 * w * wbar ^ 2 * e2 * r3 - 6 * a ^ 5 * w * wbar * r3bar * e1 * r3 + 6 * a ^ 5 * w * wbar * r3bar * e2 *
  r3 + 6 * a ^ 5 * w * wbar * e1 ^ 2 - 6 * a ^ 5 * w * wbar * e1 - 6 * a ^ 5 * w * wbar * e2 ^ 2 + 6 * a ^ 5 * w * wbar * e2
  - 2 * a ^ 5 * w * r3bar * e1 ^ 2 + 2 * a ^ 5 * w * r3bar * e1 + 2 * a ^ 5 * w * r3bar * e2 ^ 2 - 2 * a ^ 5 * w * r3bar * e2
  + 2 * a ^ 5 * w * e1 * r3 ^ 3 - 2 * a ^ 5 * w * e2 * r3 ^ 3 + 9 * a ^ 5 * wbar ^ 2 * e1 * r3 ^ 2 - 9 * a ^ 5 * wbar ^ 2 *
  e2 * r3 ^ 2 - 6 * a ^ 5 * wbar * r3bar * e1 * r3 ^ 2 + 6 * a ^ 5 * wbar * r3bar * e2 * r3 ^ 2 + 12 * a ^ 5 * wbar * e1 ^ 2
  * r3 + 3 * a ^ 5 * wbar * e1 * r3 ^ 3 - 6 * a ^ 5 * wbar * e1 * r3 - 12 * a ^ 5 * wbar * e2 ^ 2 * r3 - 3 * a ^ 5 * wbar *
  e2 * r3 ^ 3 + 6 * a ^ 5 * wbar * e2 * r3 - 7 * a ^ 5 * r3bar * e1 ^ 2 * r3 - 3 * a ^ 5 * r3bar * e1 * r3 ^ 3 + 4 * a ^ 5 *
  r3bar * e1 * r3 + 7 * a ^ 5 * r3bar * e2 ^ 2 * r3 + 3 * a ^ 5 * r3bar * e2 * r3 ^ 3 - 4 * a ^ 5 * r3bar * e2 * r3 + 3 * a ^
  5 * e1 ^ 3 + 3 * a ^ 5 * e1 ^ 2 * e2 - 4 * a ^ 5 * e1 ^ 2 - 3 * a ^ 5 * e1 * e2 ^ 2 - 3 * a ^ 5 * e1 * r3 ^ 2 + a ^ 5 * e1
  - 3 * a ^ 5 * e2 ^ 3 + 4 * a ^ 5 * e2 ^ 2 + 3 * a ^ 5 * e2 * r3 ^ 2 - a ^ 5 * e2 + 3 * a ^ 4 * w * wbar ^ 3 * r3 ^ 3 - 3 *
  a ^ 4 * w * wbar ^ 2 * r3bar * r3 ^ 3 - 9 * a ^ 4 * w * wbar ^ 2 * r3 ^ 2 + 6 * a ^ 4 * w * wbar * r3bar * r3 ^ 2 - 12 * a
  ^ 4 * w * wbar * e1 ^ 2 * r3 + 12 * a ^ 4 * w * wbar * e1 * e2 * r3 - 6 * a ^ 4 * w * wbar * e1 * r3 - 12 * a ^ 4 * w *
  wbar * e2 ^ 2 * r3 - 6 * a ^ 4 * w * wbar * e2 * r3 + 9 * a ^ 4 * w * wbar * r3 + 4 * a ^ 4 * w * r3bar * e1 ^ 2 * r3 - 4 *
  a ^ 4 * w * r3bar * e1 * e2 * r3 + 2 * a ^ 4 * w * r3bar * e1 * r3 + 4 * a ^ 4 * w * r3bar * e2 ^ 2 * r3 + 2 * a ^ 4 * w *
  r3bar * e2 * r3 - 3 * a ^ 4 * w * r3bar * r3 - 3 * a ^ 4 * w * e1 ^ 3 + 3 * a ^ 4 * w * e1 ^ 2 * e2 + 3 * a ^ 4 * w * e1 *
  e2 ^ 2 - 12 * a ^ 4 * w * e1 * e2 + 6 * a ^ 4 * w * e1 - 3 * a ^ 4 * w * e2 ^ 3 + 6 * a ^ 4 * w * e2 - 3 * a ^ 4 * w - 3 *
  a ^ 4 * wbar ^ 2 * e1 * r3 ^ 3 - 3 * a ^ 4 * wbar ^ 2 * e2 * r3 ^ 3 + 3 * a ^ 4 * wbar ^ 2 * r3 ^ 3 - a ^ 4 * wbar * r3bar
  * e1 * r3 ^ 3 - a ^ 4 * wbar * r3bar * e2 * r3 ^ 3 - 15 * a ^ 4 * wbar * e1 ^ 2 * r3 ^ 2 + 6 * a ^ 4 * wbar * e1 * e2 * r3
  ^ 2 + 6 * a ^ 4 * wbar * e1 * r3 ^ 2 - 15 * a ^ 4 * wbar * e2 ^ 2 * r3 ^ 2 + 6 * a ^ 4 * wbar * e2 * r3 ^ 2 - 6 * a ^ 4 *
  wbar * r3 ^ 2 + 5 * a ^ 4 * r3bar * e1 ^ 2 * r3 ^ 2 - 2 * a ^ 4 * r3bar * e1 * e2 * r3 ^ 2 + a ^ 4 * r3bar * e1 * r3 ^ 2 +
  5 * a ^ 4 * r3bar * e2 ^ 2 * r3 ^ 2 + a ^ 4 * r3bar * e2 * r3 ^ 2 - 9 * a ^ 4 * e1 ^ 3 * r3 - 3 * a ^ 4 * e1 ^ 2 * e2 * r3
  - 2 * a ^ 4 * e1 ^ 2 * r3 ^ 3 + 8 * a ^ 4 * e1 ^ 2 * r3 - 3 * a ^ 4 * e1 * e2 ^ 2 * r3 + 4 * a ^ 4 * e1 * e2 * r3 ^ 3 + 4 *
  a ^ 4 * e1 * e2 * r3 - 5 * a ^ 4 * e1 * r3 - 9 * a ^ 4 * e2 ^ 3 * r3 - 2 * a ^ 4 * e2 ^ 2 * r3 ^ 3 + 8 * a ^ 4 * e2 ^ 2 *
  r3 - 5 * a ^ 4 * e2 * r3 + 3 * a ^ 4 * r3 - 6 * a ^ 3 * w * wbar ^ 2 * e1 * r3 ^ 3 + 6 * a ^ 3 * w * wbar ^ 2 * e2 * r3 ^ 3
  + 4 * a ^ 3 * w * wbar * r3bar * e1 * r3 ^ 3 - 4 * a ^ 3 * w * wbar * r3bar * e2 * r3 ^ 3 + 6 * a ^ 3 * w * wbar * e1 ^ 2 *
  r3 ^ 2 + 12 * a ^ 3 * w * wbar * e1 * r3 ^ 2 - 6 * a ^ 3 * w * wbar * e2 ^ 2 * r3 ^ 2 - 12 * a ^ 3 * w * wbar * e2 * r3 ^ 2
  - 2 * a ^ 3 * w * r3bar * e1 ^ 2 * r3 ^ 2 - 4 * a ^ 3 * w * r3bar * e1 * r3 ^ 2 + 2 * a ^ 3 * w * r3bar * e2 ^ 2 * r3 ^ 2 +
  4 * a ^ 3 * w * r3bar * e2 * r3 ^ 2 + 9 * a ^ 3 * w * e1 ^ 3 * r3 - 3 * a ^ 3 * w * e1 ^ 2 * e2 * r3 + 3 * a ^ 3 * w * e1 *
  e2 ^ 2 * r3 - 6 * a ^ 3 * w * e1 * r3 - 9 * a ^ 3 * w * e2 ^ 3 * r3 + 6 * a ^ 3 * w * e2 * r3 + 6 * a ^ 3 * wbar * e1 ^ 2 *
  r3 ^ 3 - 4 * a ^ 3 * wbar * e1 * r3 ^ 3 - 6 * a ^ 3 * wbar * e2 ^ 2 * r3 ^ 3 + 4 * a ^ 3 * wbar * e2 * r3 ^ 3 + 9 * a ^ 3 *
  e1 ^ 3 * r3 ^ 2 - 3 * a ^ 3 * e1 ^ 2 * e2 * r3 ^ 2 - 4 * a ^ 3 * e1 ^ 2 * r3 ^ 2 + 3 * a ^ 3 * e1 * e2 ^ 2 * r3 ^ 2 + 4 * a
  ^ 3 * e1 * r3 ^ 2 - 9 * a ^ 3 * e2 ^ 3 * r3 ^ 2 + 4 * a ^ 3 * e2 ^ 2 * r3 ^ 2 - 4 * a ^ 3 * e2 * r3 ^ 2 - 12 * a ^ 2 * w *
  wbar * e1 * e2 * r3 ^ 3 + 4 * a ^ 2 * w * r3bar * e1 * e2 * r3 ^ 3 - 9 * a ^ 2 * w * e1 ^ 3 * r3 ^ 2 - 3 * a ^ 2 * w * e1 ^
  2 * e2 * r3 ^ 2 - 3 * a ^ 2 * w * e1 * e2 ^ 2 * r3 ^ 2 + 12 * a ^ 2 * w * e1 * e2 * r3 ^ 2 - 9 * a ^ 2 * w * e2 ^ 3 * r3 ^
  2 - 3 * a ^ 2 * e1 ^ 3 * r3 ^ 3 + 3 * a ^ 2 * e1 ^ 2 * e2 * r3 ^ 3 + 3 * a ^ 2 * e1 * e2 ^ 2 * r3 ^ 3 - 4 * a ^ 2 * e1 * e2
  * r3 ^ 3 - 3 * a ^ 2 * e2 ^ 3 * r3 ^ 3 + 3 * a * w * e1 ^ 3 * r3 ^ 3 + 3 * a * w * e1 ^ 2 * e2 * r3 ^ 3 - 3 * a * w * e1 *
  e2 ^ 2 * r3 ^ 3 - 3 * a * w * e2 ^ 3 * r3 ^ 3.
(** coeffs.py:1303-1477 *)
Definition t9 (w wbar a r3 r3bar e1 e2 : C) : C :=
  - (3 * a ^ 8 * w * wbar * r3 ^ 2) + 3 * a ^ 8 * w * r3bar * r3 ^ 2 - 2 * a ^ 8 * w * e1 * r3 - 2 * a ^ 8 * w * e2 * r3 + 2
  * a ^ 8 * w * r3 - a ^ 8 * wbar * r3 ^ 3 + a ^ 8 * r3bar * r3 ^ 3 + 2 * a ^ 8 * e1 * r3 ^ 2 + 2 * a ^ 8 * e2 * r3 ^ 2 - 2 *
  a ^ 8 * r3 ^ 2 + 3 * a ^ 7 * w * e1 * r3 ^ 2 - 3 * a ^ 7 * w * e2 * r3 ^ 2 + 3 * a ^ 7 * wbar * e1 * r3 ^ 2 - 3 * a ^ 7 *
  wbar * e2 * r3 ^ 2 - 3 * a ^ 7 * r3bar * e1 * r3 ^ 2 + 3 * a ^ 7 * r3bar * e2 * r3 ^ 2 + 2 * a ^ 7 * e1 ^ 2 * r3 + a ^ 7 *
  e1 * r3 ^ 3 - 2 * a ^ 7 * e1 * r3 - 2 * a ^ 7 * e2 ^ 2 * r3 - a ^ 7 * e2 * r3 ^ 3 + 2 * a ^ 7 * e2 * r3 + 3 * a ^ 6 * w *
  wbar ^ 3 * r3 ^ 2 - 3 * a ^ 6 * w * wbar ^ 2 * r3bar * r3 ^ 2 + 6 * a ^ 6 * w * wbar ^ 2 * e1 * r3 + 6 * a ^ 6 * w * wbar ^
  2 * e2 * r3 - 6 * a ^ 6 * w * wbar ^ 2 * r3 - 4 * a ^ 6 * w * wbar * r3bar * e1 * r3 - 4 * a ^ 6 * w * wbar * r3bar * e2 *
  r3 + 4 * a ^ 6 * w * wbar * r3bar * r3 + 3 * a ^ 6 * w * wbar * e1 ^ 2 + 6 * a ^ 6 * w * wbar * e1 * e2 - 6 * a ^ 6 * w *
  wbar * e1 + 3 * a ^ 6 * w * wbar * e2 ^ 2 - 6 * a ^ 6 * w * wbar * e2 + 3 * a ^ 6 * w * wbar - a ^ 6 * w * r3bar * e1 ^ 2 -
  2 * a ^ 6 * w * r3bar * e1 * e2 + 2 * a ^ 6 * w * r3bar * e1 - a ^ 6 * w * r3bar * e2 ^ 2 + 2 * a ^ 6 * w * r3bar * e2 - a
  ^ 6 * w * r3bar - a ^ 6 * w * e1 * r3 ^ 3 - a ^ 6 * w * e2 * r3 ^ 3 + a ^ 6 * wbar ^ 3 * r3 ^ 3 - a ^ 6 * wbar ^ 2 * r3bar
  * r3 ^ 3 + 3 * a ^ 6 * wbar ^ 2 * e1 * r3 ^ 2 + 3 * a ^ 6 * wbar ^ 2 * e2 * r3 ^ 2 - 5 * a ^ 6 * wbar * r3bar * e1 * r3 ^ 2
  - 5 * a ^ 6 * wbar * r3bar * e2 * r3 ^ 2 + 2 * a ^ 6 * wbar * r3bar * r3 ^ 2 + 3 * a ^ 6 * wbar * e1 ^ 2 * r3 + 6 * a ^ 6 *
  wbar * e1 * e2 * r3 - 2 * a ^ 6 * wbar * e1 * r3 + 3 * a ^ 6 * wbar * e2 ^ 2 * r3 - 2 * a ^ 6 * wbar * e2 * r3 - a ^ 6 *
  wbar * r3 - 3 * a ^ 6 * r3bar * e1 ^ 2 * r3 - 6 * a ^ 6 * r3bar * e1 * e2 * r3 + 4 * a ^ 6 * r3bar * e1 * r3 - 3 * a ^ 6 *
  r3bar * e2 ^ 2 * r3 + 4 * a ^ 6 * r3bar * e2 * r3 - a ^ 6 * r3bar * r3 + a ^ 6 * e1 ^ 3 + 3 * a ^ 6 * e1 ^ 2 * e2 - 3 * a ^
  6 * e1 ^ 2 * r3 ^ 2 - 2 * a ^ 6 * e1 ^ 2 + 3 * a ^ 6 * e1 * e2 ^ 2 + 6 * a ^ 6 * e1 * e2 * r3 ^ 2 - 4 * a ^ 6 * e1 * e2 + a
  ^ 6 * e1 + a ^ 6 * e2 ^ 3 - 3 * a ^ 6 * e2 ^ 2 * r3 ^ 2 - 2 * a ^ 6 * e2 ^ 2 + a ^ 6 * e2 - 9 * a ^ 5 * w * wbar ^ 2 * e1 *
  r3 ^ 2 + 9 * a ^ 5 * w * wbar ^ 2 * e2 * r3 ^ 2 + 6 * a ^ 5 * w * wbar * r3bar * e1 * r3 ^ 2 - 6 * a ^ 5 * w * wbar * r3bar
  * e2 * r3 ^ 2 - 12 * a ^ 5 * w * wbar * e1 ^ 2 * r3 + 12 * a ^ 5 * w * wbar * e1 * r3 + 12 * a ^ 5 * w * wbar * e2 ^ 2 * r3
  - 12 * a ^ 5 * w * wbar * e2 * r3 + 4 * a ^ 5 * w * r3bar * e1 ^ 2 * r3 - 4 * a ^ 5 * w * r3bar * e1 * r3 - 4 * a ^ 5 * w *
  r3bar * e2 ^ 2 * r3 + 4 * a ^ 5 * w * r3bar * e2 * r3 - 3 * a ^ 5 * w * e1 ^ 3 - 3 * a ^ 5 * w * e1 ^ 2 * e2 + 6 * a ^ 5 *
  w * e1 ^ 2 + 3 * a ^ 5 * w * e1 * e2 ^ 2 - 3 * a ^ 5 * w * e1 + 3 * a ^ 5 * w * e2 ^ 3 - 6 * a ^ 5 * w * e2 ^ 2 + 3 * a ^ 5
  * w * e2 - 3 * a ^ 5 * wbar ^ 2 * e1 * r3 ^ 3 + 3 * a ^ 5 * wbar ^ 2 * e2 * r3 ^ 3 + 2 * a ^ 5 * wbar * r3bar * e1 * r3 ^ 3
  - 2 * a ^ 5 * wbar * r3bar * e2 * r3 ^ 3 - 6 * a ^ 5 * wbar * e1 ^ 2 * r3 ^ 2 + 6 * a ^ 5 * wbar * e2 ^ 2 * r3 ^ 2 + 5 * a
  ^ 5 * r3bar * e1 ^ 2 * r3 ^ 2 - 2 * a ^ 5 * r3bar * e1 * r3 ^ 2 - 5 * a ^ 5 * r3bar * e2 ^ 2 * r3 ^ 2 + 2 * a ^ 5 * r3bar *
  e2 * r3 ^ 2 - 3 * a ^ 5 * e1 ^ 3 * r3 - 3 * a ^ 5 * e1 ^ 2 * e2 * r3 + a ^ 5 * e1 ^ 2 * r3 ^ 3 + 2 * a ^ 5 * e1 ^ 2 * r3 +
  3 * a ^ 5 * e1 * e2 ^ 2 * r3 + a ^ 5 * e1 * r3 + 3 * a ^ 5 * e2 ^ 3 * r3 - a ^ 5 * e2 ^ 2 * r3 ^ 3 - 2 * a ^ 5 * e2 ^ 2 *
  r3 - a ^ 5 * e2 * r3 + 3 * a ^ 4 * w * wbar ^ 2 * e1 * r3 ^ 3 + 3 * a ^ 4 * w * wbar ^ 2 * e2 * r3 ^ 3 - 2 * a ^ 4 * w *
  wbar * r3bar * e1 * r3 ^ 3 - 2 * a ^ 4 * w * wbar * r3bar * e2 * r3 ^ 3 + 15 * a ^ 4 * w * wbar * e1 ^ 2 * r3 ^ 2 - 6 * a ^
  4 * w * wbar * e1 * e2 * r3 ^ 2 - 6 * a ^ 4 * w * wbar * e1 * r3 ^ 2 + 15 * a ^ 4 * w * wbar * e2 ^ 2 * r3 ^ 2 - 6 * a ^ 4
  * w * wbar * e2 * r3 ^ 2 - 5 * a ^ 4 * w * r3bar * e1 ^ 2 * r3 ^ 2 + 2 * a ^ 4 * w * r3bar * e1 * e2 * r3 ^ 2 + 2 * a ^ 4 *
  w * r3bar * e1 * r3 ^ 2 - 5 * a ^ 4 * w * r3bar * e2 ^ 2 * r3 ^ 2 + 2 * a ^ 4 * w * r3bar * e2 * r3 ^ 2 + 9 * a ^ 4 * w *
  e1 ^ 3 * r3 + 3 * a ^ 4 * w * e1 ^ 2 * e2 * r3 - 12 * a ^ 4 * w * e1 ^ 2 * r3 + 3 * a ^ 4 * w * e1 * e2 ^ 2 * r3 + 3 * a ^
  4 * w * e1 * r3 + 9 * a ^ 4 * w * e2 ^ 3 * r3 - 12 * a ^ 4 * w * e2 ^ 2 * r3 + 3 * a ^ 4 * w * e2 * r3 + 3 * a ^ 4 * wbar *
  e1 ^ 2 * r3 ^ 3 - 6 * a ^ 4 * wbar * e1 * e2 * r3 ^ 3 + 2 * a ^ 4 * wbar * e1 * r3 ^ 3 + 3 * a ^ 4 * wbar * e2 ^ 2 * r3 ^ 3
  + 2 * a ^ 4 * wbar * e2 * r3 ^ 3 - 2 * a ^ 4 * r3bar * e1 ^ 2 * r3 ^ 3 - 2 * a ^ 4 * r3bar * e2 ^ 2 * r3 ^ 3 + 3 * a ^ 4 *
  e1 ^ 3 * r3 ^ 2 - 3 * a ^ 4 * e1 ^ 2 * e2 * r3 ^ 2 + 2 * a ^ 4 * e1 ^ 2 * r3 ^ 2 - 3 * a ^ 4 * e1 * e2 ^ 2 * r3 ^ 2 + 4 * a
  ^ 4 * e1 * e2 * r3 ^ 2 - 2 * a ^ 4 * e1 * r3 ^ 2 + 3 * a ^ 4 * e2 ^ 3 * r3 ^ 2 + 2 * a ^ 4 * e2 ^ 2 * r3 ^ 2 - 2 * a ^ 4 *
  e2 * r3 ^ 2 - 6 * a ^ 3 * w * wbar * e1 ^ 2 * r3 ^ 3 + 6 * a ^ 3 * w * wbar * e2 ^ 2 * r3 ^ 3 + 2 * a ^ 3 * w * r3bar * e1
  ^ 2 * r3 ^ 3 - 2 * a ^ 3 * w * r3bar * e2 ^ 2 * r3 ^ 3 - 9 * a ^ 3 * w * e1 ^ 3 * r3 ^ 2 + 3 * a ^ 3 * w * e1 ^ 2 * e2 * r3
  ^ 2 + 6 * a ^ 3 * w * e1 ^ 2 * r3 ^ 2 - 3 * a ^ 3 * w * e1 * e2 ^ 2 * r3 ^ 2 + 9 * a ^ 3 * w * e2 ^ 3 * r3 ^ 2 - 6 * a ^ 3
  * w * e2 ^ 2 * r3 ^ 2 - a ^ 3 * e1 ^ 3 * r3 ^ 3 + 3 * a ^ 3 * e1 ^ 2 * e2 * r3 ^ 3 - 2 * a ^ 3 * e1 ^ 2 * r3 ^ 3 - 3 * a ^
  3 * e1 * e2 ^ 2 * r3 ^ 3 + a ^ 3 * e2 ^ 3 * r3 ^ 3 + 2 * a ^ 3 * e2 ^ 2 * r3 ^ 3 + 3 * a ^ 2 * w * e1 ^ 3 * r3 ^ 3 - 3 * a
  ^ 2 * w * e1 ^ 2 * e2 * r3 ^ 3 - 3 * a ^ 2 * w * e1 * e2 ^ 2 * r3 ^ 3 + 3 * a ^ 2 * w * e2 ^ 3 * r3 ^ 3.
(** coeffs.py:1479-1596 *)
Definition t10 (w wbar a r3 r3bar e1 e2 : C) : C :=
  a ^ 8 * w * wbar * r3 ^ 3 - a ^ 8 * w * r3bar * r3 ^ 3 + a ^ 8 * w * e1 * r3 ^ 2 + a ^ 8 * w * e2 * r3 ^ 2 - a ^ 8 * w * r3
  ^ 2 - a ^ 8 * e1 * r3 ^ 3 - a ^ 8 * e2 * r3 ^ 3 + a ^ 8 * r3 ^ 3 - a ^ 7 * w * e1 * r3 ^ 3 + a ^ 7 * w * e2 * r3 ^ 3 - a ^
  7 * wbar * e1 * r3 ^ 3 + a ^ 7 * wbar * e2 * r3 ^ 3 + a ^ 7 * r3bar * e1 * r3 ^ 3 - a ^ 7 * r3bar * e2 * r3 ^ 3 - a ^ 7 *
  e1 ^ 2 * r3 ^ 2 + a ^ 7 * e1 * r3 ^ 2 + a ^ 7 * e2 ^ 2 * r3 ^ 2 - a ^ 7 * e2 * r3 ^ 2 - a ^ 6 * w * wbar ^ 3 * r3 ^ 3 + a ^
  6 * w * wbar ^ 2 * r3bar * r3 ^ 3 - 3 * a ^ 6 * w * wbar ^ 2 * e1 * r3 ^ 2 - 3 * a ^ 6 * w * wbar ^ 2 * e2 * r3 ^ 2 + 3 * a
  ^ 6 * w * wbar ^ 2 * r3 ^ 2 + 2 * a ^ 6 * w * wbar * r3bar * e1 * r3 ^ 2 + 2 * a ^ 6 * w * wbar * r3bar * e2 * r3 ^ 2 - 2 *
  a ^ 6 * w * wbar * r3bar * r3 ^ 2 - 3 * a ^ 6 * w * wbar * e1 ^ 2 * r3 - 6 * a ^ 6 * w * wbar * e1 * e2 * r3 + 6 * a ^ 6 *
  w * wbar * e1 * r3 - 3 * a ^ 6 * w * wbar * e2 ^ 2 * r3 + 6 * a ^ 6 * w * wbar * e2 * r3 - 3 * a ^ 6 * w * wbar * r3 + a ^
  6 * w * r3bar * e1 ^ 2 * r3 + 2 * a ^ 6 * w * r3bar * e1 * e2 * r3 - 2 * a ^ 6 * w * r3bar * e1 * r3 + a ^ 6 * w * r3bar *
  e2 ^ 2 * r3 - 2 * a ^ 6 * w * r3bar * e2 * r3 + a ^ 6 * w * r3bar * r3 - a ^ 6 * w * e1 ^ 3 - 3 * a ^ 6 * w * e1 ^ 2 * e2 +
  3 * a ^ 6 * w * e1 ^ 2 - 3 * a ^ 6 * w * e1 * e2 ^ 2 + 6 * a ^ 6 * w * e1 * e2 - 3 * a ^ 6 * w * e1 - a ^ 6 * w * e2 ^ 3 +
  3 * a ^ 6 * w * e2 ^ 2 - 3 * a ^ 6 * w * e2 + a ^ 6 * w - a ^ 6 * wbar ^ 2 * r3 ^ 3 + a ^ 6 * wbar * r3bar * e1 * r3 ^ 3 +
  a ^ 6 * wbar * r3bar * e2 * r3 ^ 3 - 2 * a ^ 6 * wbar * e1 * r3 ^ 2 - 2 * a ^ 6 * wbar * e2 * r3 ^ 2 + 2 * a ^ 6 * wbar *
  r3 ^ 2 + a ^ 6 * r3bar * e1 ^ 2 * r3 ^ 2 + 2 * a ^ 6 * r3bar * e1 * e2 * r3 ^ 2 - a ^ 6 * r3bar * e1 * r3 ^ 2 + a ^ 6 *
  r3bar * e2 ^ 2 * r3 ^ 2 - a ^ 6 * r3bar * e2 * r3 ^ 2 + a ^ 6 * e1 ^ 2 * r3 ^ 3 - a ^ 6 * e1 ^ 2 * r3 - 2 * a ^ 6 * e1 * e2
  * r3 ^ 3 - 2 * a ^ 6 * e1 * e2 * r3 + 2 * a ^ 6 * e1 * r3 + a ^ 6 * e2 ^ 2 * r3 ^ 3 - a ^ 6 * e2 ^ 2 * r3 + 2 * a ^ 6 * e2
  * r3 - a ^ 6 * r3 + 3 * a ^ 5 * w * wbar ^ 2 * e1 * r3 ^ 3 - 3 * a ^ 5 * w * wbar ^ 2 * e2 * r3 ^ 3 - 2 * a ^ 5 * w * wbar
  * r3bar * e1 * r3 ^ 3 + 2 * a ^ 5 * w * wbar * r3bar * e2 * r3 ^ 3 + 6 * a ^ 5 * w * wbar * e1 ^ 2 * r3 ^ 2 - 6 * a ^ 5 * w
  * wbar * e1 * r3 ^ 2 - 6 * a ^ 5 * w * wbar * e2 ^ 2 * r3 ^ 2 + 6 * a ^ 5 * w * wbar * e2 * r3 ^ 2 - 2 * a ^ 5 * w * r3bar
  * e1 ^ 2 * r3 ^ 2 + 2 * a ^ 5 * w * r3bar * e1 * r3 ^ 2 + 2 * a ^ 5 * w * r3bar * e2 ^ 2 * r3 ^ 2 - 2 * a ^ 5 * w * r3bar *
  e2 * r3 ^ 2 + 3 * a ^ 5 * w * e1 ^ 3 * r3 + 3 * a ^ 5 * w * e1 ^ 2 * e2 * r3 - 6 * a ^ 5 * w * e1 ^ 2 * r3 - 3 * a ^ 5 * w
  * e1 * e2 ^ 2 * r3 + 3 * a ^ 5 * w * e1 * r3 - 3 * a ^ 5 * w * e2 ^ 3 * r3 + 6 * a ^ 5 * w * e2 ^ 2 * r3 - 3 * a ^ 5 * w *
  e2 * r3 + 2 * a ^ 5 * wbar * e1 * r3 ^ 3 - 2 * a ^ 5 * wbar * e2 * r3 ^ 3 - a ^ 5 * r3bar * e1 ^ 2 * r3 ^ 3 + a ^ 5 * r3bar
  * e2 ^ 2 * r3 ^ 3 + 2 * a ^ 5 * e1 ^ 2 * r3 ^ 2 - 2 * a ^ 5 * e1 * r3 ^ 2 - 2 * a ^ 5 * e2 ^ 2 * r3 ^ 2 + 2 * a ^ 5 * e2 *
  r3 ^ 2 - 3 * a ^ 4 * w * wbar * e1 ^ 2 * r3 ^ 3 + 6 * a ^ 4 * w * wbar * e1 * e2 * r3 ^ 3 - 3 * a ^ 4 * w * wbar * e2 ^ 2 *
  r3 ^ 3 + a ^ 4 * w * r3bar * e1 ^ 2 * r3 ^ 3 - 2 * a ^ 4 * w * r3bar * e1 * e2 * r3 ^ 3 + a ^ 4 * w * r3bar * e2 ^ 2 * r3 ^
  3 - 3 * a ^ 4 * w * e1 ^ 3 * r3 ^ 2 + 3 * a ^ 4 * w * e1 ^ 2 * e2 * r3 ^ 2 + 3 * a ^ 4 * w * e1 ^ 2 * r3 ^ 2 + 3 * a ^ 4 *
  w * e1 * e2 ^ 2 * r3 ^ 2 - 6 * a ^ 4 * w * e1 * e2 * r3 ^ 2 - 3 * a ^ 4 * w * e2 ^ 3 * r3 ^ 2 + 3 * a ^ 4 * w * e2 ^ 2 * r3
  ^ 2 - a ^ 4 * e1 ^ 2 * r3 ^ 3 + 2 * a ^ 4 * e1 * e2 * r3 ^ 3 - a ^ 4 * e2 ^ 2 * r3 ^ 3 + a ^ 3 * w * e1 ^ 3 * r3 ^ 3 - 3 *
  a ^ 3 * w * e1 ^ 2 * e2 * r3 ^ 3 + 3 * a ^ 3 * w * e1 * e2 ^ 2 * r3 ^ 3 - a ^ 3 * w * e2 ^ 3 * r3 ^ 3.
(** coeffs.py:210-1600 [_poly_coeffs_triple] *)
Definition poly_coeffs_triple (w : C) (a : R) (r3 : C) (e1 e2 : R) : list C :=
  map (fun t : C -> C -> C -> C -> C -> C -> C -> C => t w (Cconj w) (RtoC a) r3 (Cconj r3) (RtoC e1) (RtoC e2))
    [t0; t1; t2; t3; t4; t5; t6; t7; t8; t9; t10].
