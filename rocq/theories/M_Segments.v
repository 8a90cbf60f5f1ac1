(** Model of src/microjax/caustics/extended_source/segments.py.
    A raw track is three rows (position, parity, mask); the mask row is 0/1.  All rows of one
    track have the same length. *)
From Coq Require Import Reals Bool List Arith ZArith.
From Coquelicot Require Import Complex.
From Verif Require Import Base_R Base_List M_Utils M_Contour.
Import ListNotations.
Local Open Scope R_scope.

Record track := Track { t_z : list C; t_par : list R; t_mask : list R }.

(** [jnp.argwhere(b, size=k)[:, 0]]: first [k] true positions, padded with 0 *)
Definition argwhere_size (b : list bool) (k : nat) : list nat :=
  let w := filter (fun i => nth i b false) (seq 0 (length b)) in
  firstn k w ++ repeat 0%nat (k - length w).

(** segments.py:51-56: change between samples [i-1] and [i] *)
Definition far_apart (p q : C) : bool := Rltb (0.1 ^ 2) ((Re q - Re p) ^ 2 + (Im q - Im p) ^ 2).
Definition inner_change (t : track) (i : nat) : bool :=
  far_apart (nth (i - 1) (t_z t) (RtoC 0)) (nth i (t_z t) (RtoC 0))
  || nonzero (nth i (t_par t) 0 - nth (i - 1) (t_par t) 0)
  || nonzero (nth i (t_mask t) 0 - nth (i - 1) (t_mask t) 0).
(** segments.py:58-62 *)
Definition changepoints (t : track) : list bool :=
  let n := length (t_z t) in
  [nonzero (nth 0 (t_mask t) 0)] ++ map (inner_change t) (seq 1 (n - 1))
  ++ [nonzero (nth (n - 1) (t_mask t) 0)].
(** segments.py:63-67 *)
Definition diff_mask (t : track) : list R :=
  let n := length (t_z t) in
  [if iszero (nth 0 (t_mask t) 0) then 0 else 1]
  ++ map (fun i => nth i (t_mask t) 0 - nth (i - 1) (t_mask t) 0) (seq 1 (n - 1))
  ++ [if iszero (nth (n - 1) (t_mask t) 0) then 0 else -1].
(** segments.py:69-81 *)
Definition idcs_start (t : track) : list bool :=
  map (fun cd => fst cd && Rleb 0 (snd cd)) (combine (changepoints t) (diff_mask t)).
Definition idcs_end (t : track) : list bool :=
  map (fun cd => fst cd && Rleb (snd cd) 0) (combine (changepoints t) (diff_mask t)).
(** segments.py:85-93 *)
Definition mask_region (n : nat) (lr : nat * nat) : list R :=
  if ((fst lr =? 0) && (snd lr =? 0))%nat then repeat 0 n
  else map (fun i => if ((fst lr <=? i) && (i <? snd lr))%nat then 1 else 0) (seq 0 n).
Definition mul_mask (t : track) (m : list R) : track :=
  Track (map (fun zm => (fst zm * RtoC (snd zm))%C) (combine (t_z t) m))
        (map (fun pm => fst pm * snd pm) (combine (t_par t) m))
        (map (fun pm => fst pm * snd pm) (combine (t_mask t) m)).
(** segments.py:24-97 [_split_segment] (an empty track raises IndexError; the theorems ask for
    at least one sample) *)
Definition split_segment (t : track) (n_parts : nat) : list track :=
  let ls := argwhere_size (idcs_start t) (2 * n_parts) in
  let rs := argwhere_size (idcs_end t) (2 * n_parts) in
  map (fun lr => mul_mask t (mask_region (length (t_z t)) lr)) (combine ls rs).

(** [jnp.roll(x, k)]: out[i] = x[(i - k) mod n] *)
Definition roll {A} (d : A) (l : list A) (k : Z) : list A :=
  map (fun i => nth (Z.to_nat ((Z.of_nat i - k) mod Z.of_nat (length l))) l d) (seq 0 (length l)).

Definition czero (z : C) : bool := iszero (Cmod z).

(** segments.py:100-137 [_process_segments] *)
Definition n_points (t : track) : nat := length (filter (fun z => negb (czero z)) (t_z t)).
Definition drop_short (t : track) : track :=
  if (n_points t <? 2)%nat then
    Track (map (fun _ => RtoC 0) (t_z t)) (map (fun _ => 0) (t_par t)) (map (fun _ => 0) (t_mask t)) else t.
Definition bool_le (a b : bool) : bool := implb a b.
Definition head_to_front (t : track) : track :=
  let h := Z.of_nat (first_nonzero (map Cmod (t_z t))) in
  Track (roll (RtoC 0) (t_z t) (- h)) (roll 0 (t_par t) (- h)) (roll 0 (t_mask t) (- h)).
Definition empty_track : track := Track [] [] [].
Definition process_segments (ts : list track) (nr : nat) : list track :=
  let pieces := map drop_short (flat_map (fun t => split_segment t 5) ts) in
  let order := rev (argsort bool_le (map (fun t => existsb (fun z => negb (czero z)) (t_z t)) pieces)) in
  map head_to_front (firstn nr (map (fun i => nth i pieces empty_track) order)).

(** segments.py:140-185 [_get_segments]: the masked tracks, those that are closed, and the open
    segments handed to the merger.  [z_mask] is boolean. *)
Definition b2r (b : bool) : R := if b then 1 else 0.
Definition mask_track (z : list C) (m : list bool) (p : list R) : track :=
  Track (map (fun zm => (fst zm * RtoC (b2r (snd zm)))%C) (combine z m))
        (map (fun pm => fst pm * b2r (snd pm)) (combine p m)) (map b2r m).
Definition is_closed (t : track) : bool :=
  Rltb (Cmod (nth 0 (t_z t) (RtoC 0) - nth (length (t_z t) - 1) (t_z t) (RtoC 0))%C) 1e-5
  && forallb nonzero (t_mask t).
Definition null_track (keep : bool) (t : track) : track :=
  if keep then t
  else Track (map (fun _ => RtoC 0) (t_z t)) (map (fun _ => 0) (t_par t)) (map (fun _ => 0) (t_mask t)).
Definition seg_of_track (t : track) : seg := (t_z t, t_par t).
Definition get_segments (ts : list track) (nlenses : nat) : list seg * list seg * bool :=
  let nr := (3 * (nlenses ^ 2 + 1))%nat in
  let closed := map (fun t => null_track (is_closed t) t) ts in
  let opened := map (fun t => null_track (negb (is_closed t)) t) ts in
  let all_closed := forallb is_closed ts in
  let opened' := if all_closed then
                   opened ++ repeat (match opened with t :: _ => null_track false t | [] => empty_track end)
                                    (nr - length opened)
                 else process_segments opened nr in
  (map seg_of_track closed, map seg_of_track opened', all_closed).

(** segments.py:188-191 [_concatenate_segments] *)
Definition add_seg (s1 s2 : seg) : seg :=
  (map (fun pq => (fst pq + snd pq)%C) (combine (fst s1) (fst s2)),
   map (fun pq => fst pq + snd pq) (combine (snd s1) (snd s2))).
Definition roll_seg (s : seg) (k : Z) : seg := (roll (RtoC 0) (fst s) k, roll 0 (snd s) k).
Definition concatenate_segments (s1 s2 : seg) : seg :=
  add_seg s1 (roll_seg s2 (Z.of_nat (first_zero (map Cmod (fst s1))))).

(** segments.py:194-198 [_get_segment_length] *)
Definition segment_length (s : seg) (tail : nat) : R :=
  let z := fst s in
  sumR (map (fun i => if (i =? tail)%nat then 0
                      else Cmod (nth (S i) z (RtoC 0) - nth i z (RtoC 0))%C) (seq 0 (length z - 1))).

(** segments.py:278-311 [_merge_two_segments]; connection types 0 tail-head, 1 head-tail,
    2 head-head, 3 tail-tail; [lax.switch] clamps the type into 0..3 *)
Definition reverse_seg (s : seg) (tidx : nat) : seg :=
  let n := Z.of_nat (length (fst s)) in
  let r := roll_seg (rev (fst s), rev (snd s)) (- (n - Z.of_nat tidx - 1)) in
  (fst r, map (fun p => -1 * p) (snd r)).
Definition merge_two_segments (s1 s2 : seg) (t1 t2 : nat) (ctype : nat) : seg * nat :=
  let t := (t1 + t2 + 1)%nat in
  match ctype with
  | 0%nat => (concatenate_segments s1 s2, t)
  | 1%nat => (concatenate_segments s2 s1, t)
  | 2%nat => (concatenate_segments (reverse_seg s2 t2) s1, t)
  | _ => (concatenate_segments s1 (reverse_seg s2 t2), t)
  end.
