(** Model of src/microjax/utils.py *)
From Coq Require Import Reals Bool List Arith ZArith.
From Coquelicot Require Import Complex.
From Verif Require Import Base_R Base_List.
Import ListNotations.
Local Open Scope R_scope.

Definition nonzero (x : R) : bool := negb (Reqb x 0).
Definition iszero (x : R) : bool := Reqb x 0.

(** utils.py:62-78  [first_nonzero]: argmax(x != 0.0) *)
Definition first_nonzero (x : list R) : nat := argmax_bool (map nonzero x).
(** same function on a boolean array (used by [match_points], utils.py:56) *)
Definition first_nonzero_b (x : list bool) : nat := argmax_bool x.

(** utils.py:81-102  [last_nonzero]: cond(any(x), len-1-argmax(flip(x) != 0), 0) *)
Definition last_nonzero (x : list R) : nat :=
  if existsb nonzero x then ((length x - 1) - argmax_bool (map nonzero (rev x)))%nat else 0%nat.

(** utils.py:105-120  [first_zero]: argmax(x == 0.0) *)
Definition first_zero (x : list R) : nat := argmax_bool (map iszero x).

(** [jnp.sort] of a real array *)
Definition jsort (x : list R) : list R := ssort Rleb x.
(** [jnp.min], [jnp.max]; python raises on an empty array, here the value is 0 and the
    theorems require a non-empty array. *)
Definition jmin (x : list R) : R := match x with [] => 0 | a :: t => fold_left Rmin t a end.
Definition jmax (x : list R) : R := match x with [] => 0 | a :: t => fold_left Rmax t a end.

(** utils.py:123-139 [min_zero_avoiding] *)
Definition min_zero_avoiding (x0 : list R) : R :=
  let x := jsort x0 in
  let min_x := jmin x in
  if Reqb min_x 0 then nth (argmax_bool (map nonzero x)) x 0 else min_x.

(** utils.py:142-158 [max_zero_avoiding] *)
Definition max_zero_avoiding (x0 : list R) : R :=
  let x := jsort x0 in
  let max_x := jmax x in
  if Reqb max_x 0 then - min_zero_avoiding (map Rabs x) else max_x.

(** [jnp.nanmean], NaN = None; the mean over an empty set is NaN (None). *)
Fixpoint somes {A} (l : list (option A)) : list A :=
  match l with [] => [] | Some a :: t => a :: somes t | None :: t => somes t end.
Definition nanmean (l : list (option R)) : option R :=
  match somes l with [] => None | v => Some (sumR v / INR (length v)) end.

(** utils.py:161-175 [mean_zero_avoiding]; result None = NaN *)
Definition mean_zero_avoiding (x : list R) : option R :=
  if forallb iszero x then Some 0
  else nanmean (map (fun v => if iszero v then None else Some v) x).

(** NaN-last order used by [jnp.argsort] *)
Definition nan_le (x y : option R) : bool :=
  match x, y with
  | Some a, Some b => Rleb a b
  | Some _, None => true
  | None, Some _ => false
  | None, None => true
  end.

(** utils.py:178-191 [sparse_argsort] *)
Definition sparse_argsort (a : list R) : list nat :=
  argsort nan_le (map (fun v => if nonzero v then Some v else None) a).

(** [jax.scipy.integrate.trapezoid(y, x=x)] = 0.5 * sum((x[1:]-x[:-1])*(y[1:]+y[:-1])) *)
Definition trapezoid (y x : list R) : R :=
  0.5 * sumR (map (fun i => (nth (S i) x 0 - nth i x 0) * (nth (S i) y 0 + nth i y 0))
                  (seq 0 (length x - 1))).

(** JAX gather clamps out-of-range indices to the last element. *)
Definition jget (l : list R) (i : nat) : R := nth (Nat.min i (length l - 1)) l 0.

(** utils.py:194-223 [trapz_zero_avoiding] *)
Definition trapz_zero_avoiding (y x : list R) (tail_idx : nat) : R :=
  let I := trapezoid y x in
  let xt := jget x tail_idx in let yt := jget y tail_idx in
  let xtp1 := jget x (tail_idx + 1) in let ytp1 := jget y (tail_idx + 1) in
  if (tail_idx =? length x - 1)%nat then I
  else I - 0.5 * ((yt + ytp1) * (xtp1 - xt)).

(** utils.py:30-59 [match_points].  [row ai] = argsort(|b - a_i|) (stable);
    the loop appends, for each row, the first index not yet used. *)
Definition mp_row (b : list C) (ai : C) : list nat :=
  argsort Rleb (map (fun bj => Cmod (bj - ai)%C) b).
Definition mp_step (b : list C) (idcs : list nat) (ai : C) : list nat :=
  let v := mp_row b ai in
  let mask := map (fun k => negb (existsb (Nat.eqb k) idcs)) v in
  idcs ++ [nth (first_nonzero_b mask) v 0%nat].
Definition match_points (a b : list C) : list nat := fold_left (mp_step b) a [].
