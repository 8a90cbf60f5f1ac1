(** Model of src/microjax/poly_solver.py *)
From Coq Require Import Reals List Bool Arith ZArith.
From Coquelicot Require Import Complex.
From Verif Require Import Base_R Base_List Base_C M_Utils M_Assembly.
Import ListNotations.
Local Open Scope R_scope.
Local Open Scope C_scope.

(** jnp.finfo(float64).eps *)
Definition eps64 : R := / 2 ^ 52.

(** poly_solver.py:64-88 [_polyder_coeffs]: coeffs[:-1] * arange(n,0,-1); zeros for degree <= 0 *)
Definition polyder_coeffs (cs : list C) : list C :=
  let n := (length cs - 1)%nat in
  if (n =? 0)%nat then map (fun _ => RtoC 0) cs
  else map (fun k => nth k cs (RtoC 0) * RtoC (INR (n - k))) (seq 0 n).

(** poly_solver.py:91-110 [_cauchy_radius] *)
Definition cauchy_radius (cs : list C) : R :=
  let c0 := nth 0 cs (RtoC 0) in
  let denom := Rmax (Cmod c0) eps64 in
  (1 + jmax (map (fun c => Cmod c / denom) (tl cs)))%R.

(** A root estimate; [None] stands for a non-finite value (NaN or inf). *)
Definition est := option C.

(** poly_solver.py:113-151 [_ea_step] for one index: the update f/den, [None] when non-finite.
    1/diff is 0 where diff == 0; a non-finite neighbour makes the sum non-finite. *)
Definition recip_sum (z : C) (roots : list C) : C :=
  sumC (map (fun r => if Ceq_dec (z - r) 0 then RtoC 0 else 1 / (z - r)) roots).
Fixpoint all_some (l : list est) : option (list C) :=
  match l with
  | [] => Some []
  | Some z :: t => option_map (cons z) (all_some t)
  | None :: _ => None
  end.
Definition ea_update (cs dcs : list C) (eps : R) (roots : list C) (z : C) : est :=
  let f := polyval cs z in
  let fp := polyval dcs z in
  let s := recip_sum z roots in
  let den := fp - f * s in
  let den' := if Rltb (Cmod den) eps then fp else den in
  if Ceq_dec den' 0 then None else Some (f / den').
Definition ea_step (cs dcs : list C) (eps : R) (roots : list est) : list est :=
  match all_some roots with
  | None => map (fun _ => None) roots
  | Some rs => map (ea_update cs dcs eps rs) rs
  end.

Definition est_minus (r u : est) : est :=
  match r, u with Some z, Some d => Some (z - d) | _, _ => None end.
Definition est_small (tol : R) (u : est) : bool :=
  match u with Some d => Rleb (Cmod d) tol | None => false end.

(** poly_solver.py:201-206 [body_fun]: state is (roots, done); frozen where done *)
Definition ea_body (cs dcs : list C) (eps tol : R) (st : list (est * bool)) : list (est * bool) :=
  let ups := ea_step cs dcs eps (map fst st) in
  map (fun p => let '((r, d), u) := p in
                ((if d : bool then r else est_minus r u), d || est_small tol u))
      (combine st ups).

(** poly_solver.py:197-210 [while_loop]: it < max_iter and any(~done); also counts iterations *)
Fixpoint ea_loop (cs dcs : list C) (eps tol : R) (fuel : nat) (st : list (est * bool)) : nat * list (est * bool) :=
  match fuel with
  | O => (O, st)
  | S k => if forallb snd st then (O, st)
           else let '(it, st') := ea_loop cs dcs eps tol k (ea_body cs dcs eps tol st) in (S it, st')
  end.

(** poly_solver.py:213-226 [_clean_real_roots] *)
Definition clean_real_roots (tol : R) (cs : list C) (roots : list est) : list est :=
  if forallb (fun c => Rltb (Rabs (Im c)) (10 * tol)) cs
  then map (option_map (fun r => (Re r, if Rltb (Rabs (Im r)) (10 * tol) then 0%R else Im r))) roots
  else roots.

(** poly_solver.py:187-190: n points on the circle of the Cauchy radius *)
Definition initial_circle (cs : list C) : list C :=
  let n := (length cs - 1)%nat in
  map (fun k => RtoC (cauchy_radius cs) * cexpi (2 * PI * INR k / INR n)%R) (seq 0 n).

(** poly_solver.py:155-232 [poly_roots_EA]; degree < 1 trips the assertion *)
Definition poly_roots_EA_from (cs init : list C) (tol : R) (max_iter : nat) : list est :=
  let dcs := polyder_coeffs cs in
  let eps := (eps64 * 10)%R in
  let st0 := map (fun r => (Some r, false)) init in
  let '(_, st) := ea_loop cs dcs eps tol max_iter st0 in
  clean_real_roots tol cs (map fst st).
Definition poly_roots_EA (cs : list C) (initial_roots : option (list C)) (tol : R) (max_iter : nat) : res (list est) :=
  if (length cs - 1 <? 1)%nat then Raise AssertionError
  else Ok (poly_roots_EA_from cs (match initial_roots with None => initial_circle cs | Some i => i end) tol max_iter).

(** poly_solver.py:35 [_DEFAULT_MAX_ITER], and the default tolerance *)
Definition default_max_iter : nat := 100.
Definition default_tol : R := / 10 ^ 12.

(** poly_solver.py:235-251 [_poly_roots_EA_jvp]: tangent of one root for coefficient tangents [dcs] *)
Definition poly_roots_tangent (cs dc : list C) (z : C) : C :=
  let n := (length cs - 1)%nat in
  let df_dz := polyval (polyder_coeffs cs) z in
  let vdc := sumC (map (fun k => z ^ (n - k) * nth k dc (RtoC 0)) (seq 0 (S n))) in
  - vdc / df_dz.

(** poly_solver.py:254-290 [poly_roots_EA_multi]: one solve per row (vmap), warm-started when custom_init *)
Definition poly_roots_EA_multi (rows : list (list C)) (init : option (list (list C))) : list (list est) :=
  match init with
  | None => map (fun row => poly_roots_EA_from row (initial_circle row) default_tol default_max_iter) rows
  | Some ir => map (fun p => poly_roots_EA_from (fst p) (snd p) default_tol default_max_iter) (combine rows ir)
  end.
(** poly_solver.py:293-330 [poly_roots] on row-major flat data with last axis [ncoeffs]: reshape to rows,
    reshape the warm start to (rows, ncoeffs-1), solve, flatten back. Degree < 1 trips the assertion of
    [poly_roots_EA]; a warm start of the wrong size cannot be reshaped. *)
Definition poly_roots (ncoeffs : nat) (flat : list C) (roots_init : option (list C)) : res (list est) :=
  if (ncoeffs - 1 <? 1)%nat then Raise AssertionError else
  let rows := reshape_rows ncoeffs flat in
  match roots_init with
  | None => Ok (concat (poly_roots_EA_multi rows None))
  | Some r => if (length r =? length rows * (ncoeffs - 1))%nat
              then Ok (concat (poly_roots_EA_multi rows (Some (reshape_rows (ncoeffs - 1) r))))
              else Raise ValueError
  end.
