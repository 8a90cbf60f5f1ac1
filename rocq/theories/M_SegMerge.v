(** Model of src/microjax/caustics/extended_source/segments.py:201-275 and 314-448:
    [_connection_condition] and [_merge_open_segments]. *)
From Coq Require Import Reals Bool List Arith ZArith.
From Coquelicot Require Import Complex.
From Verif Require Import Base_R Base_List M_Utils M_Contour M_Segments.
Import ListNotations.
Local Open Scope R_scope.

Definition c_at (x : list C) (i : nat) : C := nth i x (RtoC 0).

(** segments.py:218-226 [get_segment_head]: the two points of the end line, outer point last *)
Definition segment_head (s : seg) (t : nat) : C * C :=
  let x := fst s in
  if Rltb 1e-5 (Cmod (c_at x 1 - c_at x 0)%C) || (t <=? 1)%nat then (c_at x 1, c_at x 0) else (c_at x 2, c_at x 1).

(** segments.py:228-236 [get_segment_tail].  For [t = 0] python's [t - 1] is -1: the gather and the
    dynamic slice both address the end of the buffer. *)
Definition segment_tail (s : seg) (t : nat) : C * C :=
  let x := fst s in let n := length x in
  match t with
  | 0%nat => (c_at x (n - 2), c_at x (n - 1))
  | S t' =>
      if Rltb 1e-5 (Cmod (c_at x (S t') - c_at x t')%C) || (S t' <=? 1)%nat then (c_at x t', c_at x (S t'))
      else (c_at x (t' - 1), c_at x t')
  end.

(** segments.py:250-263: the end lines compared for each connection type *)
Definition end_lines (s1 s2 : seg) (t1 t2 ctype : nat) : (C * C) * (C * C) :=
  match ctype with
  | 0%nat => (segment_tail s1 t1, segment_head s2 t2)
  | 1%nat => (segment_head s1 t1, segment_tail s2 t2)
  | 2%nat => (segment_head s1 t1, segment_head s2 t2)
  | _ => (segment_tail s1 t1, segment_tail s2 t2)
  end.

(** segments.py:201-275 [_connection_condition] with the default distances and angle.  A zero-length
    end line makes the direction NaN, so [cond2] is false there. *)
Definition connection_condition (s1 s2 : seg) (t1 t2 ctype : nat) : bool :=
  let same_parity := Rltb 0 (nth 0 (snd s1) 0 * nth 0 (snd s2) 0) in
  let cond_parity := if (ctype <=? 1)%nat then same_parity else negb same_parity in
  let '(l1, l2) := end_lines s1 s2 t1 t2 ctype in
  let dist := Cmod (snd l1 - snd l2)%C in
  let cond1 := Rltb dist 1e-1 in
  let n1 := Cmod (snd l1 - fst l1)%C in
  let n2 := Cmod (snd l2 - fst l2)%C in
  let v1 := ((snd l1 - fst l1) / RtoC n1)%C in
  let v2 := ((snd l2 - fst l2) / RtoC n2)%C in
  let alpha := acos (Re v1 * Re v2 + Im v1 * Im v2) in
  let cond2 := nonzero n1 && nonzero n2 && Rltb (180 - alpha * (180 / PI)) 60 in
  let cond3 := Rltb (Cmod (snd l1 - snd l2)%C) (Cmod (fst l1 - fst l2)%C) in
  cond_parity && ((cond1 && cond2 && cond3) || Rltb dist 1e-5).

Definition zero_seg (s : seg) : seg := (map (fun _ => RtoC 0) (fst s), map (fun _ => 0) (snd s)).
Definition no_seg : seg := ([], []).

(** segments.py:344-358: distances for the four connection types, flattened row by row *)
Definition end_distances (a : seg) (ta : nat) (segs : list seg) (tidcs : list nat) : list R :=
  let head s := c_at (fst s) 0 in
  let tails := map (fun st => c_at (fst (fst st)) (snd st)) (combine segs tidcs) in
  map (fun s => Cmod (c_at (fst a) ta - head s)%C) segs ++
  map (fun q => Cmod (c_at (fst a) 0 - q)%C) tails ++
  map (fun s => Cmod (c_at (fst a) 0 - head s)%C) segs ++
  map (fun q => Cmod (c_at (fst a) ta - q)%C) tails.

(** segments.py:360-409 [merge_with_another_segment] *)
Definition merge_with_another (a : seg) (ta : nat) (segs : list seg) (tidcs : list nat)
    : seg * nat * list seg * list nat :=
  let m := length segs in
  let order := argsort Rleb (end_distances a ta segs tidcs) in
  let cand k := let f := nth k order 0%nat in ((f / m)%nat, (f mod m)%nat) in
  let cands := map cand (seq 0 4) in
  let ok ci := connection_condition a (nth (snd ci) segs no_seg) ta (nth (snd ci) tidcs 0%nat) (fst ci) in
  let success := map ok cands in
  if existsb (fun b => b) success then
    let ci := nth (argmax_bool success) cands (0%nat, 0%nat) in
    let r := merge_two_segments a (nth (snd ci) segs no_seg) ta (nth (snd ci) tidcs 0%nat) (fst ci) in
    (fst r, snd r, upd segs (snd ci) (zero_seg (nth (snd ci) segs no_seg)), tidcs)
  else (a, ta, segs, tidcs).

(** segments.py:411-426 [body_fn] *)
Definition merge_body (st : seg * nat * list seg * list nat) : seg * nat * list seg * list nat :=
  let '(a, ta, segs, tidcs) := st in
  if existsb (fun s => negb (czero (c_at (fst s) 0))) segs then merge_with_another a ta segs tidcs else st.

Fixpoint merge_scan (k : nat) (st : seg * nat * list seg * list nat) : seg * nat * list seg * list nat :=
  match k with 0%nat => st | S k' => merge_scan k' (merge_body st) end.

(** segments.py:436-446: one contour: sort by length, take the first segment, scan *)
Definition next_contour (k : nat) (segs : list seg) (tidcs : list nat) : seg * list seg * list nat :=
  let idcs := sparse_argsort (map (fun st => segment_length (fst st) (snd st)) (combine segs tidcs)) in
  let segs' := gather no_seg segs idcs in
  let tidcs' := gather 0%nat tidcs idcs in
  let '(a, ta, rest, rtid) := merge_scan k (hd no_seg segs', hd 0%nat tidcs', tl segs', tl tidcs') in
  (a, rest, rtid).

Fixpoint contour_loop (contours k : nat) (segs : list seg) (tidcs : list nat) : list seg * list seg :=
  match contours with
  | 0%nat => ([], segs)
  | S c => let '(a, rest, rtid) := next_contour k segs tidcs in
           let '(cs, unused) := contour_loop c (k - 2) rest rtid in (a :: cs, unused)
  end.

(** segments.py:314-448 [_merge_open_segments]; the second component is the list of segments
    left over, which python discards *)
Definition pad3 (s : seg) : seg :=
  (fst s ++ repeat (RtoC 0) (3 * length (fst s)), snd s ++ repeat 0 (3 * length (snd s))).
Definition merge_open_segments (segs : list seg) (max_contours max_segments : nat) : list seg * list seg :=
  let tidcs := map (fun s => last_nonzero (map (fun p : C => Re p) (fst s))) segs in
  contour_loop max_contours max_segments (map pad3 segs) tidcs.
