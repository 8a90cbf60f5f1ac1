(** Model of src/microjax/caustics/extended_source/limb.py: the sampling of the images of the
    source limb.  The four parallel arrays theta, z, z_mask, z_parity are kept as one list of
    samples (columns), so that [jnp.insert] with the same indices on the four arrays is one
    insertion.  The pseudo-random perturbations are arbitrary functions [kick] and [jitter]. *)
From Coq Require Import Reals Bool List Arith ZArith.
From Coquelicot Require Import Complex.
From Verif Require Import Base_R Base_List Base_C M_Utils M_PointSource.
Import ListNotations.
Local Open Scope R_scope.

Record lsample := Sample { s_th : R; s_z : list C; s_mask : list bool; s_par : list R }.
Definition no_limb_sample : lsample := Sample 0 [] [] [].

(** [jnp.sign] *)
Definition rsign (x : R) : R := if Rltb 0 x then 1 else if Rltb x 0 then -1 else 0.

(** limb.py:53-58 [apply_match_points] *)
Definition reorder (s : lsample) (p : list nat) : lsample :=
  Sample (s_th s) (gather (RtoC 0) (s_z s) p) (gather false (s_mask s) p) (gather 0 (s_par s) p).
(** limb.py:60-64: the scan over columns *)
Fixpoint permute_scan (carry : list C) (l : list lsample) : list lsample :=
  match l with
  | [] => []
  | s :: t => let s' := reorder s (match_points carry (s_z s)) in s' :: permute_scan (s_z s') t
  end.
(** limb.py:26-66 [_permute_images] *)
Definition permute_images (l : list lsample) : list lsample :=
  permute_scan (s_z (hd no_limb_sample l)) l.

(** limb.py:135-138: [linspace(-pi, pi, npts_init - 1, endpoint=False)] padded with pi - 1e-8 *)
Definition limb_thetas (npts_init : nat) : list R :=
  map (fun i => - PI + INR i * (2 * PI / INR (npts_init - 1))) (seq 0 (npts_init - 1)) ++ [PI - 1e-8].

Section Limb.
(** one call of [_images_point_source] for given lens parameters, and the Jacobian determinant *)
Variable step : option (list C) -> C -> list C * list bool.
Variable det : C -> R.
Variables (w0 : C) (rho : R).
Variable kick : nat -> nat -> C.      (* image row, refinement column: u1 + 1j u2, limb.py:113-115 *)
Variable jitter : nat -> nat -> R.    (* image row, sample column, limb.py:170 *)

Definition limb_point (th : R) : C := (RtoC rho * cexpi th + w0)%C.
Definition make_sample (th : R) (zm : list C * list bool) : lsample :=
  Sample th (fst zm) (snd zm) (map (fun z => rsign (det z)) (fst zm)).

(** limb.py:134-142: the initial samples *)
Definition initial_samples (npts_init : nat) : list lsample :=
  let ths := limb_thetas npts_init in
  map (fun tz => make_sample (fst tz) (snd tz)) (combine ths (images_sequential step (map limb_point ths))).

(** limb.py:149-155: largest displacement between two consecutive samples, over images real in
    at least one of them *)
Definition limb_gap (s t : lsample) : R :=
  jmax (map (fun x : (C * C) * (bool * bool) =>
               if snd (snd x) || fst (snd x) then Cmod (snd (fst x) - fst (fst x))%C else 0)
            (combine (combine (s_z s) (s_z t)) (combine (s_mask s) (s_mask t)))).
Fixpoint limb_gaps (l : list lsample) : list R :=
  match l with
  | s :: ((t :: _) as r) => limb_gap s t :: limb_gaps r
  | _ => []
  end.
(** limb.py:156: argsort, reversed, first n *)
Definition widest (n : nat) (l : list lsample) : list nat := firstn n (rev (argsort Rleb (limb_gaps l))).

Definition nth_s (l : list lsample) (i : nat) : lsample := nth i l no_limb_sample.
(** limb.py:111-128 [fn] and 158-159, one new column: the [k]-th new sample sits after sample [i] *)
Definition new_sample (l : list lsample) (k i : nat) : lsample :=
  let th := 0.5 * (s_th (nth_s l i) + s_th (nth_s l (i + 1))) in
  let init := map (fun jz => (snd jz + kick (fst jz) k)%C)
                  (combine (seq 0 (length (s_z (nth_s l i)))) (s_z (nth_s l i))) in
  make_sample th (step (Some init) (limb_point th)).

(** [jnp.insert(x, idcs + 1, new)]: the new entries whose index is [i] follow entry [i], in the
    order in which they are listed *)
Definition insert_after (l : list lsample) (idcs : list nat) (new : list lsample) : list lsample :=
  flat_map (fun i => nth_s l i :: map snd (filter (fun p => (fst p =? i)%nat) (combine idcs new)))
           (seq 0 (length l)).

(** limb.py:148-164: one refinement pass *)
Definition refine (n : nat) (l : list lsample) : list lsample :=
  let idcs := widest n l in
  insert_after l idcs (map (fun ki => new_sample l (fst ki) (snd ki)) (combine (seq 0 (length idcs)) idcs)).

(** limb.py:166-174: entries equal to an earlier entry (in row-major order) are moved by the jitter *)
Definition ceqb (z w : C) : bool := Reqb (Re z) (Re w) && Reqb (Im z) (Im w).
Definition entry (l : list lsample) (i j : nat) : C := nth i (s_z (nth_s l j)) (RtoC 0).
Definition is_dup (l : list lsample) (i j : nat) : bool :=
  existsb (fun i' => existsb (fun j' =>
             ((i' <? i) || ((i' =? i) && (j' <? j)))%nat && ceqb (entry l i' j') (entry l i j))
           (seq 0 (length l))) (seq 0 (S i)).
Definition dedup (l : list lsample) : list lsample :=
  map (fun j => let s := nth_s l j in
         Sample (s_th s)
           (map (fun i => if is_dup l i j then (entry l i j + RtoC (jitter i j))%C else entry l i j)
                (seq 0 (length (s_z s))))
           (s_mask s) (s_par s))
      (seq 0 (length l)).

Fixpoint refine_times (k n : nat) (l : list lsample) : list lsample :=
  match k with 0%nat => l | S k' => refine_times k' n (refine n l) end.

(** limb.py:69-178 [_images_of_source_limb].  [npts // 2] is [int(0.5 * npts)].  The thetas are not
    returned by python; they are kept here to state what each column belongs to.
    [linspace] raises for npts < 2 (a negative number of samples), the division for niter = 0. *)
Definition images_of_source_limb (npts niter : nat) : res (list lsample) :=
  if (npts / 2 =? 0)%nat then Raise ValueError
  else if (niter =? 0)%nat then Raise ZeroDivisionError
  else Ok (permute_images (dedup (refine_times niter (npts / 2 / niter) (initial_samples (npts / 2))))).
End Limb.
