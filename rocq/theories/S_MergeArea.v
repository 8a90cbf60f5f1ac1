(** Vocabulary for the grouping properties (C31), independent of the model. *)
From Coq Require Import Reals List Arith.
From Coquelicot Require Import Coquelicot.
Import ListNotations.
Local Open Scope R_scope.

(** Smallest and largest non-zero sample. *)
Definition sample_range (arr : list R) (lo hi : R) : Prop :=
  In lo arr /\ lo <> 0 /\ In hi arr /\ hi <> 0 /\ forall x, In x arr -> x <> 0 -> lo <= x <= hi.
(** [bins] equal bins on [lo, hi], numbered from 1; values beyond an end belong to the first or last bin. *)
Definition bin_left (lo hi : R) (bins j : nat) : R := lo + (INR j - 1) * ((hi - lo) / INR bins).
Definition in_bin (lo hi : R) (bins : nat) (x : R) (j : nat) : Prop :=
  (1 <= j <= bins)%nat /\ (j = 1%nat \/ bin_left lo hi bins j <= x) /\ (j = bins \/ x < bin_left lo hi bins (j + 1)).
Definition occupied (lo hi : R) (bins : nat) (arr : list R) (j : nat) : Prop :=
  exists x, In x arr /\ in_bin lo hi bins x j.
(** A group is a maximal run of occupied bins; it is named by its first bin. *)
Definition group_start (lo hi : R) (bins : nat) (arr : list R) (j : nat) : Prop :=
  occupied lo hi bins arr j /\ ~ occupied lo hi bins arr (j - 1).
Definition groups_at_most (lo hi : R) (bins : nat) (arr : list R) (n : nat) : Prop :=
  exists G, (length G <= n)%nat /\ forall j, group_start lo hi bins arr j -> In j G.
Definition groups_more_than (lo hi : R) (bins : nat) (arr : list R) (n : nat) : Prop :=
  exists G, (n < length G)%nat /\ NoDup G /\ forall j, In j G -> group_start lo hi bins arr j.
(** Some interval of the two edge lists contains x. *)
Definition covered (starts ends : list R) (x : R) : Prop :=
  exists i, (i < length starts)%nat /\ (i < length ends)%nat /\ nth i starts 0 <= x <= nth i ends 0.

(** ** Vocabulary for the regions (C49) *)
(** bins [s .. e] form a group; it reaches from the left edge of [s] to the right edge of [e] *)
Definition group (lo hi : R) (bins : nat) (arr : list R) (s e : nat) : Prop :=
  (1 <= s <= e)%nat /\ (e <= bins)%nat /\ (forall j, (s <= j <= e)%nat -> occupied lo hi bins arr j) /\
  ~ occupied lo hi bins arr (s - 1) /\ ~ occupied lo hi bins arr (e + 1).
Definition in_group (lo hi : R) (bins : nat) (arr : list R) (x : R) (s e : nat) : Prop :=
  group lo hi bins arr s e /\ exists j, (s <= j <= e)%nat /\ in_bin lo hi bins x j.
Definition inside_group (lo hi : R) (bins : nat) (arr : list R) (x : R) (s e : nat) : Prop :=
  in_group lo hi bins arr x s e /\ bin_left lo hi bins s < x < bin_left lo hi bins (e + 1).
(** the polar point (r, t) lies inside a region (radial range, angular range) *)
Definition scans (g : (R * R) * (R * R)) (r t : R) : Prop := fst (fst g) < r < snd (fst g) /\ fst (snd g) < t < snd (snd g).
(** polar coordinates of a limb image; masked slots hold no image *)
Definition polar (z : C) (r t : R) : Prop := 0 < r /\ 0 <= t < 2 * PI /\ z = (r * cos t, r * sin t).
Definition limb_sample (p : C * bool) (q : R * R) : Prop := if snd p then polar (fst p) (fst q) (snd q) else q = (0, 0).
(** When the grouping of the limb images goes well: there are at most [n0] radial and [n0] angular groups, and at most
    [nreal] pairs of them hold an image; every radius has a neighbour closer than the margin in its group, off the
    group's edges; and where images reach the last angular bin, images of the same radial group continue in the first. *)
Definition separated (samples : list (R * R)) (lo hi : R) (bins_r bins_th : nat) (margin : R) (n0 nreal : nat) : Prop :=
  let rs := map fst samples in let ts := map snd samples in
  (forall r t, In (r, t) samples -> r <> 0 -> 1e-8 < r) /\ sample_range rs lo hi /\
  groups_at_most lo hi bins_r rs n0 /\ groups_at_most 0 (2 * PI) bins_th ts n0 /\
  (forall r, In r rs -> r <> 0 -> exists s e r0, in_group lo hi bins_r rs r s e /\
     In r0 rs /\ inside_group lo hi bins_r rs r0 s e /\ Rabs (r - r0) < margin) /\
  (exists G, (length G <= nreal)%nat /\ forall r t s e u v, In (r, t) samples -> r <> 0 ->
     in_group lo hi bins_r rs r s e -> in_group 0 (2 * PI) bins_th ts t u v -> In (s, u) G) /\
  (forall r t s e u, In (r, t) samples -> r <> 0 -> in_group lo hi bins_r rs r s e ->
     in_group 0 (2 * PI) bins_th ts t u bins_th -> (1 < u)%nat ->
     exists r' t' v, In (r', t') samples /\ r' <> 0 /\ in_group lo hi bins_r rs r' s e /\ inside_group 0 (2 * PI) bins_th ts t' 1 v).
