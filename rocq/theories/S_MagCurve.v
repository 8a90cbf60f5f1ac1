(** Specification: polygonal lines through given knots, constant beyond the ends. *)
From Coq Require Import Reals List.
Import ListNotations.
Local Open Scope R_scope.

(** the value of the straight line through two knots *)
Definition chord (x1 f1 x2 f2 x : R) : R := f1 + (f2 - f1) * ((x - x1) / (x2 - x1)).
(** base-10 logarithm *)
Definition log10 (x : R) : R := ln x / ln 10.
(** increasing positive positions *)
Definition increasing (l : list R) : Prop := forall i, (S i < length l)%nat -> nth i l 0 < nth (S i) l 0.

(** A light curve as a finite sum over the frequencies [k] of a source profile [s] (in Fourier space, as a function of
    frequency times radius), damped by a Gaussian. *)
Definition spectral (kappa : R -> R) (k P : list R) (s : R -> R) (rho u : R) : R :=
  1 + / (2 * PI) * fold_right Rplus 0 (map (fun i => nth i P 0 * nth i k 0 ^ 2 * s (nth i k 0 * rho) * exp (- (nth i k 0 * rho / (40 * PI)) ^ 2) * kappa (nth i k 0 * u)) (seq 0 (length k))).
(** The curve through the samples [af] at the positions [uf], straight in [log10 u], continued to the point (100, 1): constant
    before the first sample and 1 from 100 on. *)
Definition through (f : R -> R) (uf af : list R) : Prop :=
  (forall u, 100 <= u -> f u = 1) /\
  (forall u, nth 0 uf 0 < 100 -> 0 < u <= nth 0 uf 0 -> f u = nth 0 af 0) /\
  (forall i u, (S i < length uf)%nat -> nth (S i) uf 0 < 100 -> nth i uf 0 <= u <= nth (S i) uf 0 ->
     f u = chord (log10 (nth i uf 0)) (nth i af 0) (log10 (nth (S i) uf 0)) (nth (S i) af 0) (log10 u)) /\
  (forall i u, (i < length uf)%nat -> nth i uf 0 < 100 -> (S i = length uf \/ 100 <= nth (S i) uf 0) -> nth i uf 0 <= u <= 100 ->
     f u = chord (log10 (nth i uf 0)) (nth i af 0) (log10 100) 1 (log10 u)).
