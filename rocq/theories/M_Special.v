(** Model of the elliptic integrals and of the half-integer Bessel function in src/microjax/fastlens/special.py.
    [None] is NaN or infinity.  The gamma function (lines 14-65) is in M_Kernels, [j0], [j1] and [j2] in M_Bessel; the
    digamma function (lines 67-124) is not modelled. *)
From Coq Require Import Reals.
From Verif Require Import Base_R.
Local Open Scope R_scope.

(** special.py:129-131 *)
Definition agm_step (c : R * R) : R * R := let '(a, b) := c in ((a + b) / 2, sqrt (a * b)).
(** special.py:128-134 [agm] *)
Definition agm (a b : R) (num_iter : nat) : R := fst (Nat.iter num_iter agm_step (a, b)).

(** special.py:137-142 [ellipk_]; [sqrt(1 - m)] is NaN above 1 *)
Definition ellipk_ (m : R) : option R :=
  if Rltb 1 m then None else Some (PI / (2 * agm 1 (sqrt (1 - m)) 5)).

(** special.py:158-164 *)
Definition agm_step2 (c : R * R * R * nat) : R * R * R * nat :=
  let '(a, b, s_sum, n) := c in
  ((a + b) / 2, sqrt (a * b), s_sum + 2 ^ (n - 1) * (0.5 * (a - b)) ^ 2, S n).
(** special.py:157-170 [agm2] *)
Definition agm2 (a0 b0 s_sum0 : R) (num_iter : nat) : R * R :=
  let '(a, _, s_sum, _) := Nat.iter num_iter agm_step2 (a0, b0, s_sum0, 1%nat) in (a, s_sum).
(** special.py:173-181 [ellipe_] *)
Definition ellipe_ (m : R) : option R :=
  if Rltb 1 m then None
  else
    let a0 := 1 in let b0 := sqrt (1 - m) in
    let c0 := sqrt (Rabs (a0 ^ 2 - b0 ^ 2)) in
    let '(a, s_sum) := agm2 a0 b0 (0.5 * c0 ^ 2) 5 in
    Some (PI / (2 * a) * (1 - s_sum)).

(** special.py:211-217 [ellipk] *)
Definition ellipk (m : R) : option R :=
  if Rltb 0 m then ellipk_ m
  else option_map (fun k => 1 / sqrt (Rabs m + 1) * k) (ellipk_ (Rabs m / (Rabs m + 1))).
(** special.py:220-226 [ellipe] *)
Definition ellipe (m : R) : option R :=
  if Rltb 0 m then ellipe_ m
  else option_map (fun e => sqrt (Rabs m + 1) * e) (ellipe_ (Rabs m / (Rabs m + 1))).

(** special.py:145-154 [ellipk_jvp] and 184-192 [ellipe_jvp] as functions of the values [k], [e] they are computed from;
    0/0 at [m = 0], division by zero at [m = 1] *)
Definition ellipk_tangent (k e m m_dot : R) : option R :=
  if Reqb (2 * m * (1 - m)) 0 then None else Some (m_dot * ((e - (1 - m) * k) / (2 * m * (1 - m)))).
Definition ellipe_tangent (k e m m_dot : R) : option R :=
  if Reqb (2 * m) 0 then None else Some (m_dot * ((e - k) / (2 * m))).

(** special.py:518-519 [j1p5_]; NaN at 0, and [sqrt] of a negative number below *)
Definition j1p5_ (x : R) : option R :=
  if Rltb 0 x then Some (sqrt (2 / (PI * x)) * (sin x / x - cos x)) else None.
