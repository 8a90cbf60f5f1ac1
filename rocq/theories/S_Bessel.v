(** Specification: the Bessel functions of the first kind, of integer order, by their power series. *)
From Coq Require Import Reals.
From Coquelicot Require Import Coquelicot.
Local Open Scope R_scope.

(** [J_n(x) = sum over k of (-1)^k / (k! (k+n)!) (x/2)^(2k+n)] *)
Definition besselJ (n : nat) (x : R) : R := Series (fun k => (-1) ^ k / (INR (fact k) * INR (fact (k + n))) * (x / 2) ^ (2 * k + n)).
