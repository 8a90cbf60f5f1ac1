(** Specification side of the extended-source magnification by contours: runs of a track, the
    pieces they give, and the area a set of closed curves encloses.  No microjax code here. *)
From Coq Require Import Reals Bool List Arith Permutation.
From Coquelicot Require Import Complex.
From Verif Require Import Base_List S_Contour.
Import ListNotations.
Local Open Scope R_scope.

(** samples [a..b] of a track are all real images on one unbroken curve, and the stretch cannot
    be extended at either end *)
Definition is_run (z : list C) (par : list R) (m : list bool) (a b : nat) : Prop :=
  (a <= b)%nat /\ (forall i, (a <= i <= b)%nat -> nth i m false = true) /\
  (forall i, (a < i <= b)%nat -> ~ track_break z par i) /\
  (a = 0%nat \/ nth (a - 1) m false = false \/ track_break z par a) /\
  (nth (S b) m false = false \/ track_break z par (S b)).

(** the points and parities of samples [a..b] *)
Definition stretch (z : list C) (par : list R) (ab : nat * nat) : piece :=
  (map (fun i => nth i z (RtoC 0)) (seq (fst ab) (S (snd ab - fst ab))),
   map (fun i => nth i par 0) (seq (fst ab) (S (snd ab - fst ab)))).

(** the image is real all around the limb and the curve comes back to its first point *)
Definition full_circle (z : list C) (m : list bool) : Prop :=
  (forall b, In b m -> b = true) /\ Cmod (hd (RtoC 0) z - last z (RtoC 0))%C < 1e-5.

(** area enclosed by a curve closed by the chord from its last to its first point *)
Definition enclosed (l : list C) : R :=
  match l with [] => 0 | p :: _ => shoelace (l ++ [p]) end.

(** the open stretches of at least two samples *)
Definition open_pieces (Z : nat -> list C) (P : nat -> list R) (opens : list nat) (runs : nat -> list (nat * nat)) : list piece :=
  flat_map (fun i => map (stretch (Z i) (P i)) (filter (fun ab => (fst ab <? snd ab)%nat) (runs i))) opens.

(** the rows of a sampled limb ([nb] rows: positions [Z], reality [M], parity [P]) fit the fixed
    buffers: [closeds] are the rows that go all the way around, [opens] the others, [runs i] the
    runs of row [i]; at most ten runs per row, at most [nr] stretches and fewer than [cap] points *)
Record contours_fit (Z : nat -> list C) (M : nat -> list bool) (P : nat -> list R) (nb nr cap : nat)
    (closeds opens : list nat) (runs : nat -> list (nat * nat)) : Prop := {
  cf_rows : Permutation (closeds ++ opens) (seq 0 nb);
  cf_closed : forall i, In i closeds -> full_circle (Z i) (M i);
  cf_open : forall i, In i opens -> ~ full_circle (Z i) (M i);
  cf_runs : forall i, In i opens -> NoDup (runs i) /\
              (forall a b, In (a, b) (runs i) <-> is_run (Z i) (P i) (M i) a b) /\ (length (runs i) <= 10)%nat;
  cf_images : forall i j, In i opens -> nth j (M i) false = true ->
     1e-5 <= Cmod (nth j (Z i) (RtoC 0)) /\ Re (nth j (Z i) (RtoC 0)) <> 0 /\ (nth j (P i) 0 = 1 \/ nth j (P i) 0 = -1);
  cf_pieces : (length (open_pieces Z P opens runs) <= nr)%nat;
  cf_points : (length (concat (map fst (open_pieces Z P opens runs))) < cap)%nat }.

(** [A] is the magnification by contours: the signed areas of the full circles and of three curves
    put together from the open stretches, each stretch used at most once *)
Definition contour_magnification (Z : nat -> list C) (P : nat -> list R) (closeds opens : list nat)
    (runs : nat -> list (nat * nat)) (rho A : R) : Prop :=
  exists (us : list (list (piece * bool))) (unused : list piece),
    Permutation (map fst (concat us) ++ unused) (open_pieces Z P opens runs) /\ length us = 3%nat /\
    (forall u, In u us -> u <> [] -> image_curve (0.1 + 2e-5) (assemble u)) /\
    A = Rabs (sumR (map (fun i => enclosed (Z i) * nth 0 (P i) 0) closeds) +
              sumR (map (fun u => enclosed (fst (assemble u)) * nth 0 (snd (assemble u)) 0) us)) / (PI * rho ^ 2).
