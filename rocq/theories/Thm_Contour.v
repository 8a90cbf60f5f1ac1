(** Contour integration and contour assembly: properties C38 to C40, C50, C51, C68. *)
From Coq Require Import Reals List Bool Arith ZArith Lia Lra Permutation.
From Coquelicot Require Import Complex.
From Verif Require Import Base_R Base_List M_Utils S_Utils M_Contour S_Contour P_Contour M_Segments P_Segments M_SegMerge P_SegMerge P_SegPick.
Import ListNotations.
Local Open Scope R_scope.

(** ** C38: the uniform contour integral is the signed shoelace area *)
Theorem C38_shoelace : forall (l : list C) k, l <> [] ->
  integrate_unif (l ++ repeat (RtoC 0) k) (length l - 1) = shoelace l.
Proof. exact unif_shoelace. Qed.
Theorem C38_translation : forall (l : list C) (c : C), l <> [] -> closed_list l ->
  integrate_unif (map (fun p => (p + c)%C) l) (length l - 1) = integrate_unif l (length l - 1).
Proof.
  intros l c H Hc. rewrite <- (map_length (fun p => (p + c)%C) l) at 1.
  rewrite !unif_shoelace0 by (auto; destruct l; simpl; congruence). apply shoelace_translate_closed. auto.
Qed.
Print Assumptions C38_translation.
Theorem C38_orientation : forall l : list C, l <> [] ->
  integrate_unif (rev l) (length l - 1) = - integrate_unif l (length l - 1).
Proof.
  intros l H. rewrite <- (rev_length l) at 1. rewrite !unif_shoelace0; auto. apply shoelace_rev.
  intros E. apply H. rewrite <- (rev_involutive l), E. reflexivity.
Qed.
Print Assumptions C38_orientation.
(** rotation and scaling by any complex factor *)
Theorem C38_scaling : forall (l : list C) (w : C), l <> [] ->
  integrate_unif (map (fun p => (w * p)%C) l) (length l - 1) = Cmod w ^ 2 * integrate_unif l (length l - 1).
Proof.
  intros l w H. rewrite <- (map_length (fun p => (w * p)%C) l) at 1.
  rewrite !unif_shoelace0 by (auto; destruct l; simpl; congruence). rewrite shoelace_scale. f_equal.
  unfold Cmod. rewrite pow2_sqrt; [destruct w; reflexivity|]. apply Rplus_le_le_0_compat; apply pow2_ge_0.
Qed.
Print Assumptions C38_scaling.
(** cutting along a chord, and the area of a triangle and of a regular polygon *)
Theorem C38_chord : forall p (l1 : list C) q (l2 : list C) m,
  m = (length (p :: l1 ++ q :: l2 ++ [p]) - 1)%nat ->
  integrate_unif (p :: l1 ++ q :: l2 ++ [p]) m =
  integrate_unif (p :: l1 ++ [q; p]) (length (p :: l1 ++ [q; p]) - 1) +
  integrate_unif (p :: q :: l2 ++ [p]) (length (p :: q :: l2 ++ [p]) - 1).
Proof. intros p l1 q l2 m ->. rewrite !unif_shoelace0 by congruence. apply shoelace_chord. Qed.
Print Assumptions C38_chord.
Theorem C38_triangle : forall a b c : C,
  integrate_unif [a; b; c; a] 3 = ((Re b - Re a) * (Im c - Im a) - (Re c - Re a) * (Im b - Im a)) / 2.
Proof. intros. rewrite <- shoelace_triangle. apply (unif_shoelace0 [a; b; c; a]). congruence. Qed.
Print Assumptions C38_triangle.
Theorem C38_regular_polygon : forall c r n, (0 < n)%nat ->
  integrate_unif (ngon c r n) n = INR n / 2 * r ^ 2 * sin (2 * PI / INR n).
Proof.
  intros c r n H. rewrite <- (ngon_area c r n H). rewrite <- (unif_shoelace0 (ngon c r n)).
  - f_equal. unfold ngon. rewrite map_length, seq_length. lia.
  - unfold ngon. simpl. congruence.
Qed.
(** totals: every closed track and every merged open contour contributes its parity times the
    area of the polygon closed back to its first point *)
Theorem C38_total_partial : forall (closed opened : list (list C * R)) n rho,
  (forall s, In s closed -> fst s <> []) ->
  (forall s, In s opened -> fst s <> [] /\ (length (fst s) < n)%nat /\ Re (last (fst s) (RtoC 0)) <> 0 /\ Re (hd (RtoC 0) (fst s)) <> 0) ->
  mag_ext_n23 integrate_unif
    (map (fun s => (fst s, repeat (snd s) (length (fst s)))) closed)
    (map (fun s => (packed (RtoC 0) n (fst s), packed 0 n (repeat (snd s) (length (fst s))))) opened) false rho
  = Rabs (sumR (map closed_area closed) + sumR (map closed_area opened)) / (PI * rho ^ 2).
Proof. exact mag_n23_total. Qed.
(** the single-lens branch leaves the closing chord out *)
Theorem C38_single_lens_refuted : exists (l : list C) par, l <> [] /\
  integrate_unif (fst (contour_of_closed (l, par))) (length l - 1) <> shoelace (fst (contour_of_closed (l, par))).
Proof.
  exists [(1, 0) : C; (1, 1) : C; (0, 1) : C], [1; 1; 1]. split; [congruence|].
  rewrite n1_contour_open by congruence. simpl. unfold cross. simpl. lra.
Qed.
Print Assumptions C38_single_lens_refuted.
Theorem C38_single_lens_partial : forall (p : C) l par,
  integrate_unif (fst (contour_of_closed (p :: l, par))) (length (p :: l) - 1) =
  shoelace ((p :: l) ++ [p]) - cross (last (p :: l) (RtoC 0)) p / 2.
Proof. intros p l par. rewrite n1_contour_open by congruence. rewrite shoelace_close. lra. Qed.
Print Assumptions C38_single_lens_partial.
(** a last point with zero real part is overwritten when the contour is closed *)
Theorem C38_axis_point_refuted : exists n (l : list C), (length l < n)%nat /\ (forall p, In p l -> p <> RtoC 0) /\
  ~ In (last l (RtoC 0)) (close_contour (packed (RtoC 0) n l)).
Proof. exact close_contour_imag_lost. Qed.
Print Assumptions C38_axis_point_refuted.
Example C38_square : integrate_unif [(1, 1) : C; (-1, 1) : C; (-1, -1) : C; (1, -1) : C; (1, 1) : C; RtoC 0; RtoC 0] 4 = 4.
Proof. etransitivity; [apply (C38_shoelace [(1, 1) : C; (-1, 1) : C; (-1, -1) : C; (1, -1) : C; (1, 1) : C] 2); congruence|]. simpl. unfold cross. simpl. lra. Qed.
Example C38_closed_case : closed_list [(2, 1) : C; (3, 1) : C; (2, 2) : C; (2, 1) : C] /\ shoelace [(2, 1) : C; (3, 1) : C; (2, 2) : C; (2, 1) : C] = 1 / 2.
Proof. split; [reflexivity|]. simpl. unfold cross. simpl. lra. Qed.

(** ** C39: splitting keeps every valid sample exactly once *)
Theorem C39_partition : forall t np, wf_track t ->
  (forall L, NoDup L -> (forall i, In i L -> piece_begins (t_z t) (t_par t) (t_mask t) i) -> (length L <= 2 * np)%nat) ->
  let pieces := split_segment t np in
  length pieces = (2 * np)%nat /\
  exists slot : nat -> nat,
    (forall i, nth i (t_mask t) 0 = 1 ->
        (slot i < 2 * np)%nat /\ tsample (nth (slot i) pieces empty_track) i = tsample t i) /\
    (forall i j, (i < length (t_z t))%nat -> (j < 2 * np)%nat -> (nth i (t_mask t) 0 = 1 -> j <> slot i) ->
        tsample (nth j pieces empty_track) i = no_sample) /\
    (forall i, nth i (t_mask t) 0 = 1 -> nth (S i) (t_mask t) 0 = 1 ->
        (slot i = slot (S i) <-> ~ track_break (t_z t) (t_par t) (S i))) /\
    (forall i k, (i <= k)%nat -> (slot i <= slot k)%nat) /\
    (forall i j k, (i < j)%nat -> (j < k)%nat -> nth i (t_mask t) 0 = 1 -> nth k (t_mask t) 0 = 1 ->
        slot i = slot k -> nth j (t_mask t) 0 = 1).
Proof. exact split_partition. Qed.
(** over the budget a valid sample is lost, always *)
Theorem C39_overflow : forall t np L, wf_track t -> NoDup L ->
  (forall i, In i L -> piece_begins (t_z t) (t_par t) (t_mask t) i) -> (2 * np < length L)%nat ->
  exists i, nth i (t_mask t) 0 = 1 /\
    forall j, (j < 2 * np)%nat -> tsample (nth j (split_segment t np) empty_track) i = no_sample.
Proof. exact split_overflow. Qed.
Definition c39_track : track := Track [RtoC 1; RtoC 1.05; RtoC 0; RtoC 2; RtoC 2.05; RtoC 4] [1; 1; 0; 1; -1; -1] [1; 1; 0; 1; 1; 1].
Example C39_case : wf_track c39_track /\
  (forall L, NoDup L -> (forall i, In i L -> piece_begins (t_z c39_track) (t_par c39_track) (t_mask c39_track) i) -> (length L <= 2 * 5)%nat).
Proof.
  assert (W : wf_track c39_track).
  { constructor; simpl; auto; try lia.
    - intros [|[|[|[|[|[|[|i]]]]]]]; simpl; auto.
    - intros [|[|[|[|[|[|[|i]]]]]]]; simpl; intros; auto; lra. }
  split; [exact W|]. intros L N H.
  enough (length L <= length (seq 0 6))%nat by (rewrite seq_length in *; lia).
  apply NoDup_incl_length; auto. intros i Hi. apply in_seq. destruct (H i Hi) as [H1 _].
  destruct (Nat.lt_ge_cases i 6); [lia|]. rewrite nth_overflow in H1 by (simpl; auto). lra.
Qed.
Example C39_overflow_case : wf_track c39_track /\ NoDup [0; 3; 4]%nat /\
  (forall i, In i [0; 3; 4]%nat -> piece_begins (t_z c39_track) (t_par c39_track) (t_mask c39_track) i) /\ (2 * 1 < length [0; 3; 4]%nat)%nat.
Proof.
  split; [apply C39_case|]. split; [repeat constructor; simpl; intuition lia|]. split; [|simpl; lia].
  intros i [<-|[<-|[<-|[]]]]; unfold piece_begins, track_break; simpl; split; auto. right. right. right. lra.
Qed.

(** ** C40: merging two segments *)
Theorem C40_merge_partial : forall n p1 r1 p2 r2, length r1 = length p1 -> length r2 = length p2 -> p1 <> [] -> p2 <> [] ->
  (forall p, In p (p1 ++ p2) -> p <> RtoC 0) -> (length p1 + length p2 <= n)%nat ->
  let buf p r := (packed (RtoC 0) n p, packed 0 n r) in
  let m := merge_two_segments (buf p1 r1) (buf p2 r2) (length p1 - 1) (length p2 - 1) in
  let t := (length p1 + length p2 - 1)%nat in
  m 0%nat = (buf (p1 ++ p2) (r1 ++ r2), t) /\
  m 1%nat = (buf (p2 ++ p1) (r2 ++ r1), t) /\
  m 2%nat = (buf (rev p2 ++ p1) (map Ropp (rev r2) ++ r1), t) /\
  m 3%nat = (buf (p1 ++ rev p2) (r1 ++ map Ropp (rev r2)), t).
Proof. exact merge_two_correct. Qed.
(** outside the buffer, or with a sample exactly at the origin, points are destroyed *)
Theorem C40_overflow_refuted : exists n p1 r1 p2 r2, length r1 = length p1 /\ length r2 = length p2 /\
  (forall p, In p (p1 ++ p2) -> p <> RtoC 0) /\ (length p1 <= n)%nat /\ (length p2 <= n)%nat /\
  ~ In (nth 0 p1 (RtoC 0)) (fst (concatenate_segments (pseg n p1 r1) (pseg n p2 r2))).
Proof. exact concat_overflow. Qed.
Print Assumptions C40_overflow_refuted.
Theorem C40_origin_refuted : exists n p1 r1 p2 r2, length r1 = length p1 /\ length r2 = length p2 /\
  (length p1 + length p2 <= n)%nat /\
  ~ In (nth 2 p1 (RtoC 0)) (fst (concatenate_segments (pseg n p1 r1) (pseg n p2 r2))).
Proof. exact concat_origin. Qed.
Print Assumptions C40_origin_refuted.
Example C40_case : merge_two_segments (pseg 6 [RtoC 1; RtoC 2] [1; 1]) (pseg 6 [RtoC 5; RtoC 6; RtoC 7] [-1; -1; -1]) 1 2 2
  = (pseg 6 [RtoC 7; RtoC 6; RtoC 5; RtoC 1; RtoC 2] [1; 1; 1; 1; 1], 4%nat).
Proof.
  destruct (C40_merge_partial 6 [RtoC 1; RtoC 2] [1; 1] [RtoC 5; RtoC 6; RtoC 7] [-1; -1; -1]) as (_ & _ & H & _); simpl; auto; try congruence.
  - intros p Hp Ez. rewrite Ez in Hp. destruct Hp as [H|[H|[H|[H|[H|[]]]]]]; apply (f_equal fst) in H; simpl in H; lra.
  - unfold pseg. simpl in H. rewrite H. simpl. replace (- -1) with 1 by lra. reflexivity.
Qed.

(** ** C50: contour assembly uses each open segment at most once, consistently oriented *)
Theorem C50_assembly_partial : forall n (pieces : list (option piece)) K M,
  (forall p, In (Some p) pieces -> image_curve 0.1 p /\ (length (fst p) <= n)%nat /\ Re (last (fst p) (RtoC 0)) <> 0) ->
  (length (concat (map fst (somes pieces))) <= 4 * n)%nat -> (K <= length pieces)%nat ->
  exists (us : list (list (piece * bool))) (unused : list (option piece)),
    merge_open_segments (map (rep n) pieces) K M =
      (map (fun u => rep (4 * n) (match u with [] => None | _ => Some (assemble u) end)) us, map (rep (4 * n)) unused) /\
    length us = K /\ Permutation (map fst (concat us) ++ somes unused) (somes pieces) /\
    (forall u, In u us -> u <> [] -> image_curve (0.1 + 2e-5) (assemble u)).
Proof.
  intros n pieces K M H H1 H2. destruct (merge_open_correct n pieces K M) as (us & lf & E & L & P & I & _); auto.
  - intros p Hp. destruct (H p Hp) as (A & B & D). split; auto. apply (image_curve_mono 0.1); auto. unfold gmax. lra.
  - exists us, lf. auto.
Qed.
Definition c50_a : piece := ([RtoC 1; RtoC 1.05], [1; 1]).
Definition c50_b : piece := ([RtoC 1.1; RtoC 1.05], [-1; -1]).
Lemma c50_curve x y s : 1 <= x <= 2 -> 1 <= y <= 2 -> Rabs (y - x) <= 0.1 -> (s = 1 \/ s = -1) -> image_curve 0.1 ([RtoC x; RtoC y], [s; s]).
Proof.
  intros Hx Hy Hd Hs. constructor; simpl.
  - lia.
  - intros q [<-|[<-|[]]]; rewrite Cmod_R, Rabs_pos_eq; lra.
  - exists s. auto.
  - intros [|i] Hi; [|lia]. rewrite <- RtoC_minus, Cmod_R. auto.
Qed.
Example C50_case : let pieces := [Some c50_a; None; Some c50_b] in
  (forall p, In (Some p) pieces -> image_curve 0.1 p /\ (length (fst p) <= 4)%nat /\ Re (last (fst p) (RtoC 0)) <> 0) /\
  (length (concat (map fst (somes pieces))) <= 4 * 4)%nat /\ (3 <= length pieces)%nat.
Proof.
  split; [|simpl; lia]. intros p [Hp|[Hp|[Hp|[]]]]; try discriminate; injection Hp as <-.
  - split; [|simpl; split; [lia|lra]]. apply c50_curve; try lra; auto. rewrite Rabs_pos_eq; lra.
  - split; [|simpl; split; [lia|lra]]. apply c50_curve; try lra; auto. rewrite Rabs_left; lra.
Qed.
(** the two pieces of the example do satisfy the connection test (tail to tail) *)
Example C50_connects : connection_condition (rep 16 (Some c50_a)) (rep 16 (Some c50_b)) 1 1 3 = true.
Proof.
  unfold connection_condition. change (nth 0 (snd (rep 16 (Some c50_a))) 0) with 1. change (nth 0 (snd (rep 16 (Some c50_b))) 0) with (-1).
  destruct (Rltb_spec 0 (1 * -1)); [lra|]. cbn [Nat.leb negb andb].
  unfold end_lines, segment_tail. cbn [Nat.leb]. rewrite !orb_true_r. cbn [fst snd].
  change (c_at (fst (rep 16 (Some c50_a))) 1) with (RtoC 1.05). change (c_at (fst (rep 16 (Some c50_b))) 1) with (RtoC 1.05).
  rewrite Cmod_sub_self. destruct (Rltb_spec 0 1e-5); [|lra]. apply orb_true_r.
Qed.

(** ** C68: a contour grows from the shortest remaining segment to its nearest smooth continuation *)
Theorem C68_condition : forall n g (p q : piece) c, image_curve g p -> image_curve g q -> (c < 4)%nat ->
  (connection_condition (rep n (Some p)) (rep n (Some q)) (length (fst p) - 1) (length (fst q) - 1) c = true <-> continues c p q).
Proof. intros n g p q c Hp Hq Hc. apply (conn_iff n p q _ _ c g); auto; reflexivity. Qed.
(** one step: what is joined is the nearest continuation; the full claim also says that a continuation is joined whenever
    there is one, here only if fewer than four other ends, those of empty slots included, are as near *)
Theorem C68_nearest_partial : forall n (p : piece) (rem : list (option piece)) (tid : list nat),
  image_curve (0.1 + 2e-5) p -> (forall q, In (Some q) rem -> image_curve (0.1 + 2e-5) q) ->
  length tid = length rem -> (forall i q, nth i rem None = Some q -> nth i tid 0%nat = (length (fst q) - 1)%nat) ->
  rem <> [] -> (length (fst p) + length (concat (map fst (somes rem))) <= n)%nat ->
  let r := merge_with_another (rep n (Some p)) (length (fst p) - 1) (map (rep n) rem) tid in
  (r = (rep n (Some p), (length (fst p) - 1)%nat, map (rep n) rem, tid) /\
   forall c i q, (c < 4)%nat -> (i < length rem)%nat -> nth i rem None = Some q -> continues c p q ->
     exists L : list (nat * nat), NoDup L /\ (4 <= length L)%nat /\
       forall ci, In ci L -> ci <> (c, i) /\ (fst ci < 4)%nat /\ (snd ci < length rem)%nat /\ end_gap (fst ci) p (nth (snd ci) rem None) <= end_gap c p (Some q)) \/
  (exists q i c, (c < 4)%nat /\ (i < length rem)%nat /\ nth i rem None = Some q /\ continues c p q /\
     r = (rep n (Some (join c p q)), (length (fst (join c p q)) - 1)%nat, map (rep n) (upd rem i None), tid) /\
     (forall c' i' q', (c' < 4)%nat -> (i' < length rem)%nat -> nth i' rem None = Some q' -> continues c' p q' -> end_gap c p (Some q) <= end_gap c' p (Some q')) /\
     (forall L : list (nat * nat), NoDup L -> (forall ci, In ci L -> (fst ci < 4)%nat /\ (snd ci < length rem)%nat /\ end_gap (fst ci) p (nth (snd ci) rem None) < end_gap c p (Some q)) -> (length L <= 3)%nat)).
Proof.
  intros n p rem tid Hp Hr Ht Hi Hne Hcap. apply pick_nearest; auto.
  - reflexivity.
  - split; auto. intros i Hl. destruct (nth i rem None) as [q|] eqn:E; simpl; auto.
  - destruct rem; simpl; [congruence|lia].
Qed.
(** every contour contains the shortest of the segments not used by the contours before it *)
Theorem C68_shortest : forall n (pieces : list (option piece)) K M,
  (forall p, In (Some p) pieces -> image_curve 0.1 p /\ (length (fst p) <= n)%nat /\ Re (last (fst p) (RtoC 0)) <> 0) ->
  (forall p, In (Some p) pieces -> 0 < path_length (fst p)) ->
  (length (concat (map fst (somes pieces))) <= 4 * n)%nat -> (K <= length pieces)%nat ->
  exists (us : list (list (piece * bool))) (unused : list (option piece)),
    merge_open_segments (map (rep n) pieces) K M =
      (map (fun u => rep (4 * n) (match u with [] => None | _ => Some (assemble u) end)) us, map (rep (4 * n)) unused) /\
    length us = K /\ Permutation (map fst (concat us) ++ somes unused) (somes pieces) /\
    forall us1 u us2, us = us1 ++ u :: us2 -> map fst (concat (u :: us2)) ++ somes unused <> [] ->
      exists p0, In p0 (map fst u) /\ forall q, In q (map fst (concat (u :: us2)) ++ somes unused) -> path_length (fst p0) <= path_length (fst q).
Proof.
  intros n pieces K M H Hpos H1 H2. destruct (merge_open_correct n pieces K M) as (us & lf & E & L & P & _ & S); auto.
  - intros p Hp. destruct (H p Hp) as (A & B & D). split; auto. apply (image_curve_mono 0.1); auto. unfold gmax. lra.
  - exists us, lf. split; auto. split; auto. split; auto. intros us1 u us2 Q Hne. apply (S (fun p Hp => Hpos p (somes_in _ _ Hp)) us1 u us2 Q).
    destruct u; [right|left; congruence]. exact Hne.
Qed.
(** empty slots count as points at the origin: two segments that face each other across the origin, 0.04 apart, are not
    joined when two slots are empty *)
Theorem C68_hidden_refuted : ~ (forall n (p : piece) (rem : list (option piece)) (tid : list nat),
  image_curve 0.1 p -> (forall q, In (Some q) rem -> image_curve 0.1 q) ->
  length tid = length rem -> (forall i q, nth i rem None = Some q -> nth i tid 0%nat = (length (fst q) - 1)%nat) ->
  (length (fst p) + length (concat (map fst (somes rem))) <= n)%nat ->
  (exists c i q, (c < 4)%nat /\ (i < length rem)%nat /\ nth i rem None = Some q /\ continues c p q) ->
  merge_with_another (rep n (Some p)) (length (fst p) - 1) (map (rep n) rem) tid <> (rep n (Some p), (length (fst p) - 1)%nat, map (rep n) rem, tid)).
Proof.
  intros H. set (p := ([RtoC 0.06; RtoC 0.02], [1; 1]) : piece). set (q := ([RtoC (-0.02); RtoC (-0.06)], [1; 1]) : piece).
  set (rem := [Some q; None; None]). set (tid := [1%nat; 0%nat; 0%nat]).
  assert (Ip : image_curve 0.1 p).
  { constructor; simpl; [lia| |exists 1; auto|].
    - intros z [<-|[<-|[]]]; rewrite Cmod_R, Rabs_pos_eq; lra.
    - intros [|i] Hi; [|lia]. rewrite <- RtoC_minus, Cmod_R, Rabs_left1; lra. }
  assert (Iq : image_curve 0.1 q).
  { constructor; simpl; [lia| |exists 1; auto|].
    - intros z [<-|[<-|[]]]; rewrite Cmod_R, Rabs_left1; lra.
    - intros [|i] Hi; [|lia]. rewrite <- RtoC_minus, Cmod_R, Rabs_left1; lra. }
  assert (Ir : forall x, In (Some x) rem -> image_curve 0.1 x) by (intros x [Hx|[Hx|[Hx|[]]]]; try discriminate; injection Hx as <-; auto).
  assert (It : forall i x, nth i rem None = Some x -> nth i tid 0%nat = (length (fst x) - 1)%nat) by (intros [|[|[|[|i]]]] x Hx; simpl in Hx; try discriminate; injection Hx as <-; reflexivity).
  assert (Hc : continues 0 p q).
  { split; [reflexivity|]. right. unfold p, q, tail_line, head_line. cbn [fst snd rev app]. rewrite <- !RtoC_minus, !Cmod_R. simpl Re. simpl Im. assert (A1 : Rabs (0.02 - -0.02) = 0.04) by (rewrite Rabs_right; lra). assert (A2 : Rabs (0.06 - -0.06) = 0.12) by (rewrite Rabs_right; lra). assert (A3 : Rabs (0.02 - 0.06) = 0.04) by (rewrite Rabs_left; lra). assert (A4 : Rabs (-0.02 - -0.06) = 0.04) by (rewrite Rabs_right; lra). rewrite A1, A2, A3, A4. split; [|split]; lra. }
  destruct (C68_nearest_partial 4 p rem tid) as [[E _]|(x & i & c & C1 & C2 & C3 & C4 & _ & _ & C5)]; try reflexivity; try (simpl; lia).
  - apply (image_curve_mono 0.1); auto. lra.
  - intros x Hx. apply (image_curve_mono 0.1); auto. lra.
  - auto.
  - discriminate.
  - revert E. apply (H 4%nat p rem tid); auto. exists 0%nat, 0%nat, q. repeat split; simpl; auto with arith. apply Hc.
  - destruct i as [|[|[|i]]]; simpl in C3; try discriminate; [|simpl in C2; lia]. injection C3 as <-. destruct c as [|[|[|[|c]]]]; [| | | |lia].
    + specialize (C5 [(0%nat, 1%nat); (0%nat, 2%nat); (3%nat, 1%nat); (3%nat, 2%nat)]).
      assert (Q : (4 <= 3)%nat); [|lia]. apply C5.
      * repeat constructor; simpl; intuition congruence.
      * assert (W : Cmod (RtoC 0.02 - RtoC 0)%C < Cmod (RtoC 0.02 - RtoC (-0.02))%C) by (rewrite <- !RtoC_minus, !Cmod_R, !Rabs_right; lra).
        intros ci [<-|[<-|[<-|[<-|[]]]]]; (split; [simpl; lia|split; [simpl; lia|exact W]]).
    + destruct C4 as [_ [C4|[C4 _]]]; unfold p, q, tail_line, head_line in C4; cbn [fst snd rev app] in C4; rewrite <- RtoC_minus, Cmod_R, Rabs_right in C4; lra.
    + destruct C4 as [C4 _]. unfold parity in C4. simpl in C4. lra.
    + destruct C4 as [C4 _]. unfold parity in C4. simpl in C4. lra.
Qed.
(** two pieces that do continue each other: the first condition is met, and one step joins them *)
Example C68_case : continues 3 c50_a c50_b /\ path_length (fst c50_a) = 0.05.
Proof.
  split.
  - split; [unfold parity; simpl; lra|]. left. unfold c50_a, c50_b, tail_line, head_line. cbn [fst snd rev app]. rewrite <- RtoC_minus, Cmod_R, Rabs_right; lra.
  - unfold c50_a. cbn [fst path_length]. rewrite <- RtoC_minus, Cmod_R, Rabs_right; lra.
Qed.
Example C68_joined : let rem := [None; Some c50_b] in
  exists c, continues c c50_a c50_b /\
  merge_with_another (rep 8 (Some c50_a)) 1 (map (rep 8) rem) [0%nat; 1%nat] = (rep 8 (Some (join c c50_a c50_b)), 3%nat, map (rep 8) [None; None], [0%nat; 1%nat]).
Proof.
  intros rem. assert (Ia : image_curve 0.1 c50_a) by (apply c50_curve; try lra; auto; rewrite Rabs_pos_eq; lra). assert (Ib : image_curve 0.1 c50_b) by (apply c50_curve; try lra; auto; rewrite Rabs_left; lra).
  destruct (C68_nearest_partial 8 c50_a rem [0%nat; 1%nat]) as [[_ E]|(x & i & c & C1 & C2 & C3 & C4 & C5 & _)].
  - apply (image_curve_mono 0.1); auto. lra.
  - intros x [Hx|[Hx|[]]]; [discriminate|]. injection Hx as <-. apply (image_curve_mono 0.1); auto. lra.
  - reflexivity.
  - intros [|[|[|i]]] x Hx; simpl in Hx; try discriminate. injection Hx as <-. reflexivity.
  - discriminate.
  - simpl. lia.
  - exfalso. destruct (E 3%nat 1%nat c50_b ltac:(lia) ltac:(simpl; lia) eq_refl (proj1 C68_case)) as (L & N1 & N2 & N3).
    assert (W : forall ci, In ci L -> end_gap (fst ci) c50_a (nth (snd ci) rem None) <= 0 /\ (fst ci < 4)%nat /\ (snd ci < 2)%nat /\ ci <> (3%nat, 1%nat)).
    { intros ci Hci. destruct (N3 ci Hci) as (A1 & A2 & A3 & A4). split; [|auto]. revert A4. unfold end_gap at 2, c50_a, c50_b. cbn [fst last]. rewrite <- RtoC_minus, Cmod_R. replace (1.05 - 1.05) with 0 by lra. rewrite Rabs_R0. auto. }
    destruct L as [|[c i] L]; [simpl in N2; lia|]. destruct (W (c, i) ltac:(left; auto)) as (A1 & A2 & A3 & A4). cbn [fst snd] in *. revert A1. unfold rem, c50_a, c50_b.
    destruct i as [|[|i]]; [| |lia]; (destruct c as [|[|[|[|c]]]]; [| | | |lia]); cbn [nth end_gap fst snd hd last]; rewrite <- ?RtoC_minus, ?Cmod_R; intros A1; try congruence;
      (match type of A1 with Rabs ?t <= 0 => assert (t <> 0) by lra; pose proof (Rabs_pos_lt t ltac:(auto)); lra end).
  - destruct i as [|[|i]]; simpl in C3; try discriminate; [|simpl in C2; lia]. injection C3 as <-. exists c. split; auto. change 1%nat with (length (fst c50_a) - 1)%nat at 1. etransitivity; [exact C5|].
    destruct c as [|[|[|[|c]]]]; try reflexivity.
Qed.

(** ** C51: limb-darkened contour integral *)
Theorem C51_uniform_limit : forall lens gl1 gl2 (l : list C) k w0 rho, l <> [] -> closed_list l ->
  sumR (map snd gl1) = 2 -> sumR (map snd gl2) = 2 ->
  integrate_ld lens gl1 gl2 (l ++ repeat (RtoC 0) k) (length l - 1) w0 rho 0 = shoelace l.
Proof. exact ld_uniform. Qed.
Theorem C51_profile : forall lens rho w0 u1 z, 0 < rho -> Cmod (lens z - w0)%C <= rho -> u1 <> 3 ->
  brightness_profile lens rho w0 u1 z =
  (1 - u1 * (1 - sqrt (1 - (Cmod (lens z - w0)%C / rho) ^ 2))) / (1 - u1 / 3).
Proof. exact profile_inside. Qed.
(** outside the disk the profile is continued by reflection in its limb: two points whose distances from the centre have
    the product rho^2 get brightnesses with the same sum, twice that of the limb *)
Theorem C51_reflection : forall lens rho w0 u1 z z', 0 < rho -> u1 <> 3 ->
  Cmod (lens z - w0)%C * Cmod (lens z' - w0)%C = rho ^ 2 ->
  brightness_profile lens rho w0 u1 z + brightness_profile lens rho w0 u1 z' = 2 * ((1 - u1) / (1 - u1 / 3)).
Proof.
  intros lens rho w0 u1 z z' Hr Hu Hp. unfold brightness_profile. set (r := Cmod (lens z - w0)%C / rho). set (r' := Cmod (lens z' - w0)%C / rho).
  assert (R1 : r * r' = 1) by (unfold r, r'; transitivity (Cmod (lens z - w0)%C * Cmod (lens z' - w0)%C / rho ^ 2); [field; lra|rewrite Hp; field; lra]).
  assert (P1 : 0 < r).
  { assert (0 <= r) by (apply Rmult_le_pos; [apply Cmod_ge_0|left; apply Rinv_0_lt_compat; auto]). destruct H as [H|H]; auto. rewrite <- H in R1. lra. }
  assert (B : profile_B r + profile_B r' = 2).
  { assert (E : r' = / r) by (field_simplify_eq; lra). clearbody r r'. subst r'. assert (I : 0 < / r) by (apply Rinv_0_lt_compat; auto). unfold profile_B, safe_sqrt.
    assert (S0 : sqrt 0 = 0) by apply sqrt_0. destruct (Rtotal_order r 1) as [Q|[->|Q]].
    - assert (1 < / r) by (rewrite <- Rinv_1; apply Rinv_lt_contravar; lra). destruct (Rleb_spec r 1); [|lra]. destruct (Rleb_spec (/ r) 1); [lra|]. replace (1 / (/ r) ^ 2) with (r ^ 2) by (field; lra). lra.
    - rewrite Rinv_1. destruct (Rleb_spec 1 1); [|lra]. replace (1 - 1 ^ 2) with 0 by ring. destruct (Rltb_spec 0 0); rewrite S0; lra.
    - assert (/ r < 1) by (rewrite <- Rinv_1; apply Rinv_lt_contravar; lra). destruct (Rleb_spec r 1); [lra|]. destruct (Rleb_spec (/ r) 1); [|lra]. replace (1 / r ^ 2) with ((/ r) ^ 2) by (field; lra). lra. }
  replace (profile_B r') with (2 - profile_B r) by lra. field. lra.
Qed.
Print Assumptions C51_reflection.
Example C51_reflection_case : brightness_profile (fun z => z) 1 (RtoC 0) (1 / 2) (RtoC 2) + brightness_profile (fun z => z) 1 (RtoC 0) (1 / 2) (RtoC (1 / 2)) = 6 / 5.
Proof.
  rewrite C51_reflection; try lra. rewrite <- !RtoC_minus, !Cmod_R, !Rabs_right; lra.
Qed.
(** the split point stays inside the integration interval only for increasing limits *)
Theorem C51_split : forall rho a b, 0 < rho -> a <= b -> a <= ld_split rho a b <= b.
Proof. exact ld_split_inside. Qed.
Print Assumptions C51_split.
Theorem C51_split_outside : forall rho a b, 0 < rho -> b < a -> a - b <= 4 * rho -> a < ld_split rho a b.
Proof. exact ld_split_outside. Qed.
Print Assumptions C51_split_outside.
Example C51_case : let l := [(2, 1) : C; (3, 1) : C; (2, 2) : C; (2, 1) : C] in
  l <> [] /\ closed_list l /\ sumR (map snd [(-1, 1); (1, 1)]) = 2 /\
  integrate_ld (fun z => z) [(-1, 1); (1, 1)] [(0, 2)] (l ++ [RtoC 0]) 3 (RtoC 0) 1 0 = 1 / 2.
Proof.
  assert (E : forall a b : R, a + b = 2 -> sumR [a; b] = 2) by (intros; simpl; lra).
  split; [congruence|]. split; [reflexivity|]. split; [simpl; lra|].
  etransitivity; [apply (C51_uniform_limit (fun z => z) [(-1, 1); (1, 1)] [(0, 2)] [(2, 1) : C; (3, 1) : C; (2, 2) : C; (2, 1) : C] 1)|].
  - congruence. - reflexivity. - simpl; lra. - simpl; lra. - simpl. unfold cross. simpl. lra.
Qed.

Print Assumptions C38_shoelace.
Print Assumptions C38_total_partial.
Print Assumptions C38_regular_polygon.
Print Assumptions C39_partition.
Print Assumptions C39_overflow.
Print Assumptions C40_merge_partial.
Print Assumptions C50_assembly_partial.
Print Assumptions C51_uniform_limit.
Print Assumptions C51_profile.
Print Assumptions C68_condition.
Print Assumptions C68_nearest_partial.
Print Assumptions C68_shortest.
Print Assumptions C68_hidden_refuted.
