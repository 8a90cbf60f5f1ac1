(** Inverse-ray extended source: properties C29, C30, C31, C48 and C49. *)
From Coq Require Import Reals List Bool Arith ZArith Lia Lra Sorted.
From Coquelicot Require Import Complex.
From Verif Require Import Base_R Base_List Base_C M_Utils M_PointSource M_Limb S_MergeArea M_MergeArea M_ExtSource P_Limb P_ExtSource P_MergeArea P_MergeRows P_Regions.
Import ListNotations.
Local Open Scope R_scope.

(** ** C29 *)
(** The angular sum is r0 dth times a sum of one weight per interior cell, all weights in [0,1]; a cell with both
    ends inside the source weighs one, with both ends outside zero. *)
Theorem C29_weights_partial : forall rho r0 dth d v, process_r_uniform rho r0 dth d = Ok (Some v) ->
  exists ws, length ws = (length d - 3)%nat /\ v = r0 * dth * sumR ws /\
  forall i, (i < length d - 3)%nat ->
    0 <= nth i ws 0 <= 1 /\
    (nth (i + 1) d 0 < rho -> nth (i + 2) d 0 < rho -> nth i ws 0 = 1) /\
    (rho <= nth (i + 1) d 0 -> rho <= nth (i + 2) d 0 -> nth i ws 0 = 0).
Proof. exact uniform_weights. Qed.
(** hence between zero and the sampled extent *)
Theorem C29_bounds_partial : forall rho r0 dth d v, 0 <= r0 -> 0 <= dth -> process_r_uniform rho r0 dth d = Ok (Some v) ->
  0 <= v <= r0 * (dth * INR (length d - 1)).
Proof. exact uniform_bounds. Qed.
Theorem C29_outside_partial : forall rho r0 dth d v, (forall x, In x d -> rho <= x) -> process_r_uniform rho r0 dth d = Ok (Some v) -> v = 0.
Proof. exact uniform_outside. Qed.
Theorem C29_inside_partial : forall rho r0 dth d v, (forall x, In x d -> x < rho) -> process_r_uniform rho r0 dth d = Ok (Some v) ->
  v = r0 * dth * INR (length d - 3).
Proof. exact uniform_inside. Qed.
(** the sum exists when no two of four neighbouring distances differ by exactly the regularisation ... *)
Theorem C29_defined_partial : forall rho r0 dth d, (4 <= length d)%nat -> generic d -> exists v, process_r_uniform rho r0 dth d = Ok (Some v).
Proof. exact uniform_defined. Qed.
(** ... and not otherwise *)
Theorem C29_defined_refuted : forall r0 dth, process_r_uniform (1 / 2) r0 dth [1; 1 + 1e-10; 2; 2] = Ok None.
Proof. exact uniform_undefined. Qed.
Theorem C29_too_few_points : forall rho r0 dth d, (length d < 4)%nat -> process_r_uniform rho r0 dth d = Raise ValueError.
Proof. exact uniform_short. Qed.
(** one region of the (r, theta) grid *)
Theorem C29_region_partial : forall dist rho nr nth r_lo r_hi t_lo t_hi v, (2 <= nr)%nat -> (2 <= nth)%nat -> 0 <= r_lo <= r_hi -> t_lo <= t_hi ->
  compute_for_range dist (process_r_uniform rho) nr nth ((r_lo, r_hi), (t_lo, t_hi)) = Ok (Some v) ->
  0 <= v <= (r_hi - r_lo) / INR (nr - 1) * INR nr * r_hi * (t_hi - t_lo).
Proof. exact region_bounds. Qed.
(** limb-darkened source *)
Theorem C29_limb_weights : forall rho u1 dc r0 dth d v, process_r_limb rho u1 dc r0 dth d = Ok (Some v) ->
  exists ws, length ws = (length d - 4)%nat /\ v = r0 * dth * sumR ws /\
  forall i, (i < length d - 4)%nat -> exists I2 k, Is_limb_1st (nth (i + 2) d 0 / rho) u1 = Some I2 /\ nth i ws 0 = I2 * k /\ 0 <= k <= 1e5 /\
    (nth (i + 1) d 0 < rho -> nth (i + 2) d 0 < rho -> nth (i + 3) d 0 < rho -> k = 1) /\
    (rho <= nth (i + 2) d 0 -> k = 0).
Proof. exact limb_weights. Qed.
Theorem C29_limb_nonneg : forall rho u1 dc r0 dth d v, 0 < rho -> 0 <= u1 <= 1 -> 0 <= r0 -> 0 <= dth -> (forall x, In x d -> 0 <= x) ->
  process_r_limb rho u1 dc r0 dth d = Ok (Some v) -> 0 <= v.
Proof. exact limb_nonneg. Qed.
Theorem C29_limb_outside : forall rho u1 dc r0 dth d v, (forall x, In x d -> rho <= x) -> process_r_limb rho u1 dc r0 dth d = Ok (Some v) -> v = 0.
Proof. exact limb_outside. Qed.
Theorem C29_limb_inside : forall rho u1 dc r0 dth d v f, (forall x, In x d -> x < rho) ->
  (forall x, In x d -> Is_limb_1st (x / rho) u1 = Some (f x)) ->
  process_r_limb rho u1 dc r0 dth d = Ok (Some v) -> v = r0 * dth * sumR (map f (firstn (length d - 4) (skipn 2 d))).
Proof. exact limb_inside. Qed.
Example C29_case : exists v, process_r_uniform 3 1 1 [4; 3; 2; 1; 2; 3; 4] = Ok (Some v) /\ 3.98 <= v <= 1 * (1 * INR 6).
Proof.
  destruct vshape_uniform as (v & E & H). exists v. split; [exact E|]. split; [exact H|].
  exact (proj2 (C29_bounds_partial 3 1 1 _ v ltac:(lra) ltac:(lra) E)).
Qed.

(** ** C30 *)
Theorem C30_cubic : forall nodes i x0 x1 x2 x3 a0 a1 a2 a3 x,
  nth_error nodes i = Some (x0, x1, x2, x3) -> distinct4 (x0, x1, x2, x3) ->
  let p := cubic a0 a1 a2 a3 in
  nth_error (cubic_interp x nodes (p x0) (p x1) (p x2) (p x3) 0) i = Some (Some (p x)).
Proof. exact interp_cubic. Qed.
Theorem C30_nodes : forall nodes i x0 x1 x2 x3 y0 y1 y2 y3,
  nth_error nodes i = Some (x0, x1, x2, x3) -> distinct4 (x0, x1, x2, x3) ->
  let f x := nth_error (cubic_interp x nodes y0 y1 y2 y3 0) i in
  f x0 = Some (Some y0) /\ f x1 = Some (Some y1) /\ f x2 = Some (Some y2) /\ f x3 = Some (Some y3).
Proof. exact interp_nodes. Qed.
(** a boundary profile with a cubic inverse: the crossing position is found exactly *)
Theorem C30_crossing : forall (dist : R -> R) a0 a1 a2 a3, (forall t, cubic a0 a1 a2 a3 (dist t) = t) ->
  forall nodes i t, nth_error nodes i = Some (dist 0, dist 1, dist 2, dist 3) ->
  nth_error (cubic_interp (dist t) nodes 0 1 2 3 0) i = Some (Some t).
Proof. exact interp_crossing. Qed.
(** With a positive regularisation the interpolant is perturbed by at most the stated amount ... *)
Theorem C30_regularised : forall nodes i x0 x1 x2 x3 a0 a1 a2 a3 x e h,
  nth_error nodes i = Some (x0, x1, x2, x3) -> sep4 h (x0, x1, x2, x3) -> 0 < e -> e * scale_of nodes e < h ->
  let p := cubic a0 a1 a2 a3 in
  exists v, nth_error (cubic_interp x nodes (p x0) (p x1) (p x2) (p x3) e) i = Some (Some v) /\
  Rabs (v - p x) <= (Rabs (p x0 * basis x x0 x1 x2 x3) + Rabs (p x1 * basis x x1 x0 x2 x3)
     + Rabs (p x2 * basis x x2 x0 x1 x3) + Rabs (p x3 * basis x x3 x0 x1 x2))
     * ((h / (h - e * scale_of nodes e)) ^ 3 - 1).
Proof. exact interp_regularised. Qed.
(** ... and does not pass through its nodes. *)
Theorem C30_regularised_refuted : exists v, cubic_interp 1 [(0, 1, 2, 3)] 0 1 2 3 zero_term = [Some v] /\ v <> 1.
Proof. exact regularised_node. Qed.
Example C30_case : cubic_interp (5 / 2) [(1, 2, 3, 5); (0, 1, 4, 2)] (1 ^ 3) (2 ^ 3) (3 ^ 3) (5 ^ 3) 0 <> [] /\
  nth_error (cubic_interp (5 / 2) [(1, 2, 3, 5); (0, 1, 4, 2)] (cubic 0 0 0 1 1) (cubic 0 0 0 1 2) (cubic 0 0 0 1 3) (cubic 0 0 0 1 5) 0) 0
   = Some (Some (125 / 8)).
Proof.
  split; [intros Q; apply (f_equal (@length _)) in Q; rewrite cubic_interp_length in Q; discriminate|].
  rewrite (C30_cubic _ 0 1 2 3 5 0 0 0 1 (5 / 2)); [|reflexivity|unfold distinct4; repeat split; lra]. do 2 f_equal. unfold cubic. lra.
Qed.

(** ** C31 *)
(** [cluster_1d]: with no more groups (maximal runs of occupied bins) than the budget every non-zero sample is in
    one of the returned intervals. *)
Theorem C31_radial : forall arr bins mc lo hi, (1 <= bins)%nat -> (1 <= mc)%nat -> 0 <= lo -> sample_range arr lo hi ->
  groups_at_most lo hi bins arr mc ->
  exists starts ends, cluster_1d arr bins mc true = Some (starts, ends) /\ length starts = length ends /\
    forall x, In x arr -> x <> 0 -> covered starts ends x.
Proof. exact cluster_covers_r. Qed.
Theorem C31_angular : forall arr bins mc, (1 <= bins)%nat -> (1 <= mc)%nat -> groups_at_most 0 (2 * PI) bins arr mc ->
  exists starts ends, cluster_1d arr bins mc false = Some (starts, ends) /\ length starts = length ends /\
    forall x, In x arr -> 0 <= x <= 2 * PI -> covered starts ends x.
Proof. exact cluster_covers_th. Qed.
(** no slack: every point of an interval is within one bin width of a sample *)
Theorem C31_tight : forall arr bins mc lo hi starts ends i y, (1 <= bins)%nat -> (forall x, In x arr -> 0 <= x) -> sample_range arr lo hi ->
  cluster_1d arr bins mc true = Some (starts, ends) -> (i < length starts)%nat -> nth i starts 0 <= y < nth i ends 0 ->
  exists x, In x arr /\ x <> 0 /\ Rabs (x - y) <= (hi - lo) / INR bins.
Proof. exact cluster_tight_r. Qed.
(** the budget hypothesis is needed: beyond it the smallest sample is lost *)
Theorem C31_over_budget : forall arr bins mc lo hi starts ends, (1 <= bins)%nat -> (1 <= mc)%nat -> 0 <= lo < hi -> sample_range arr lo hi ->
  groups_more_than lo hi bins arr mc -> cluster_1d arr bins mc true = Some (starts, ends) -> ~ covered starts ends lo.
Proof. exact cluster_drops_r. Qed.
Example C31_case : sample_range [0; 1; 2] 1 2 /\ groups_at_most 1 2 4 [0; 1; 2] 3.
Proof.
  split; [unfold sample_range; simpl; repeat split; auto; intros; try lra; intuition lra|].
  exists [1%nat; 4%nat]. split; [simpl; lia|]. intros j [(x & Hx & B1 & B2 & B3) H].
  simpl in Hx. assert (J : j = 1%nat \/ j = 2%nat \/ j = 3%nat \/ j = 4%nat) by lia.
  unfold bin_left in *. destruct J as [-> | [-> | [-> | ->]]]; simpl; auto; exfalso;
    destruct B2 as [B2|B2], B3 as [B3|B3]; try discriminate; simpl in B2, B3; intuition (subst; lra).
Qed.

(** ** C49: later stages of [define_regions] *)
(** Radial ranges in increasing order, each holding a sample strictly inside: every such sample is covered by a
    merged row together with its margin, and merged rows do not overlap (no area is counted twice). *)
Theorem C49_merge_covers_partial : forall r_limb ranges margin, 0 <= margin -> good_ranges r_limb ranges ->
  forall g r, In g ranges -> In r r_limb -> fst g < r < snd g -> 0 < r ->
  exists row, In row (refine_addmargin_merge_r r_limb ranges margin) /\ fst row <= Rmax 0 (r - margin) /\ r + margin <= snd row.
Proof. exact merge_r_covers. Qed.
Theorem C49_merge_disjoint_partial : forall r_limb ranges margin, 0 <= margin -> good_ranges r_limb ranges ->
  let rows := refine_addmargin_merge_r r_limb ranges margin in
  forall i j, (i < j < length rows)%nat -> nth i rows (0, 0) = (0, 0) \/ nth j rows (0, 0) = (0, 0) \/ snd (nth i rows (0, 0)) <= fst (nth j rows (0, 0)).
Proof. exact merge_r_disjoint. Qed.
(** the last stage keeps every limb image that lies strictly inside the region it is given *)
Theorem C49_refine_covers_partial : forall limb mr mth r_min r_max th_min th_max r t t', 0 <= mr -> 0 <= mth -> 0 <= r_min ->
  In (r, t) limb -> 0 <= t < 2 * PI -> t' = t \/ t' = t - 2 * PI ->
  r_min < r < r_max -> th_min < t' < th_max -> t' <> 0 ->
  let g := refine_region limb mr mth ((r_min, r_max), (th_min, th_max)) in
  fst (fst g) <= r <= snd (fst g) /\ fst (snd g) <= t' - mth /\ t' + mth <= snd (snd g).
Proof. exact refine_region_covers. Qed.
(** Full coverage fails: samples exactly on a bin edge (the smallest and the largest radius always are) are not
    strictly inside, and their range is dropped; *)
Theorem C49_edge_samples_refuted : forall margin, 0 <= margin ->
  refine_addmargin_merge_r [1; 2] [(1, 5 / 4); (7 / 4, 2)] margin = [(0, 0); (0, 0)].
Proof. exact edge_samples_lost. Qed.
(** a dropped last range swallows the healthy range before it; *)
Theorem C49_last_range_refuted : forall a b margin, 1 < a <= b -> b < 5 / 4 -> 0 <= margin <= 1 ->
  refine_addmargin_merge_r [1; a; b; 2] [(1, 5 / 4); (7 / 4, 2)] margin = [(0, 0); (a - margin, 0)].
Proof. exact last_range_swallowed. Qed.
(** the wrap-around merge deletes every region ending at 2 pi as soon as any radial range has two regions of which
    one starts at 0, even when nothing was merged with the deleted region. *)
Theorem C49_wrap_refuted : forall ra rb t1 t2 t3 t4, ra <> rb -> snd ra <> 0 -> snd rb <> 0 -> 0 < t1 -> t1 < t2 < t3 -> t3 < 2 * PI ->
  let rows := [(ra, (0, t1)); (ra, (t2, t3)); (rb, (t4, 2 * PI))] in
  ~ exists g, In g (merge_final rows) /\ fst g = rb.
Proof. exact merge_final_drops. Qed.
(** From the images to the regions.  When the groups are [separated] - few enough of them, every radius with a close
    neighbour in its group off the edges, and groups that reach 2 pi continued at 0 - every unmasked limb image whose
    angle is not on an edge of its angular group lies in a returned region together with the angular margin. *)
Theorem C49_regions_cover_partial : forall images mask samples rho bins_r bins_th margin_r margin_th nl n0 nreal lo hi,
  Forall2 limb_sample (combine images mask) samples ->
  nl = 2%Z /\ n0 = 10%nat /\ nreal = 5%nat \/ nl = 3%Z /\ n0 = 18%nat /\ nreal = 9%nat ->
  (1 <= bins_r)%nat -> (1 <= bins_th)%nat -> INR bins_th <= 10000 -> 0 < margin_r * rho -> 0 <= margin_th ->
  separated samples lo hi bins_r bins_th (margin_r * rho) n0 nreal ->
  exists out, define_regions images mask rho bins_r bins_th margin_r margin_th nl = Ok (Some out) /\ (length out <= nreal)%nat /\
  forall z r t u v, In (z, true) (combine images mask) -> polar z r t -> inside_group 0 (2 * PI) bins_th (map snd samples) t u v ->
  exists g t', In g out /\ (t' = t \/ t' = t - 2 * PI) /\ fst (fst g) <= r <= snd (fst g) /\
    fst (snd g) <= t' - margin_th * PI / 180 /\ t' + margin_th * PI / 180 <= snd (snd g).
Proof. exact define_regions_cover. Qed.
(** No point of the plane is scanned twice: of the polar coordinates (r, t + 2 pi k) of a point, at most one lies in at
    most one of the regions.  Missing: radii on the edge of their group other than the smallest and the largest, angular
    margins above half a bin (the defaults are half a degree and bins of 3 degrees), and images that go all the way round. *)
Theorem C49_no_overlap_partial : forall images mask samples rho bins_r bins_th margin_r margin_th nl n0 nreal lo hi,
  Forall2 limb_sample (combine images mask) samples ->
  nl = 2%Z /\ n0 = 10%nat /\ nreal = 5%nat \/ nl = 3%Z /\ n0 = 18%nat /\ nreal = 9%nat ->
  (1 <= bins_r)%nat -> (1 <= bins_th)%nat -> INR bins_th <= 10000 -> 0 < margin_r * rho -> 0 <= margin_th ->
  separated samples lo hi bins_r bins_th (margin_r * rho) n0 nreal ->
  (forall r, In r (map fst samples) -> r <> 0 -> r <> lo -> r <> hi -> exists s e, inside_group lo hi bins_r (map fst samples) r s e) ->
  hi < 1e5 -> margin_th * INR bins_th <= 180 ->
  exists out, define_regions images mask rho bins_r bins_th margin_r margin_th nl = Ok (Some out) /\
  forall i j g g' r t (k l : Z), nth_error out i = Some g -> nth_error out j = Some g' ->
    scans g r (t + 2 * PI * IZR k) -> scans g' r (t + 2 * PI * IZR l) ->
    i = j /\ (~ group 0 (2 * PI) bins_th (map snd samples) 1 bins_th -> k = l).
Proof. exact define_regions_apart. Qed.
(** When the images go all the way round, the region reaches from minus the margin to 2 pi plus the margin: the wedge
    within the margin of angle 0 is scanned twice, so its area is counted twice. *)
Theorem C49_ring_refuted : forall images mask samples rho bins_r bins_th margin_r margin_th nl n0 nreal lo hi,
  Forall2 limb_sample (combine images mask) samples ->
  nl = 2%Z /\ n0 = 10%nat /\ nreal = 5%nat \/ nl = 3%Z /\ n0 = 18%nat /\ nreal = 9%nat ->
  (1 <= bins_r)%nat -> (1 <= bins_th)%nat -> INR bins_th <= 10000 -> 0 < margin_r * rho -> 0 <= margin_th ->
  separated samples lo hi bins_r bins_th (margin_r * rho) n0 nreal ->
  group 0 (2 * PI) bins_th (map snd samples) 1 bins_th ->
  exists out, define_regions images mask rho bins_r bins_th margin_r margin_th nl = Ok (Some out) /\
  forall z r t, In (z, true) (combine images mask) -> polar z r t -> 0 < t ->
  exists g, In g out /\ fst (fst g) < r < snd (fst g) /\ snd g = (- (margin_th * PI / 180), 2 * PI + margin_th * PI / 180).
Proof. exact define_regions_ring. Qed.
(** Limbs to which the two apply: two radial groups, one of which crosses angle 0, with a masked slot; and a ring. *)
Example C49_separated_case : separated [(1, PI / 4); (1.1, PI / 4); (0, 0); (1.9, 7 * PI / 4); (2, PI / 4)] 1 2 4 4 (1 / 5) 10 5.
Proof. exact samples0_separated. Qed.
Example C49_no_overlap_case : let samples := [(1, PI / 4); (1.1, PI / 4); (0, 0); (1.9, 7 * PI / 4); (2, PI / 4)] in
  (forall r, In r (map fst samples) -> r <> 0 -> r <> 1 -> r <> 2 -> exists s e, inside_group 1 2 4 (map fst samples) r s e) /\
  ~ group 0 (2 * PI) 4 (map snd samples) 1 4.
Proof. exact samples0_apart. Qed.
Example C49_ring_case : let samples := [(1, PI / 4); (1.5, 3 * PI / 4); (1.5, 5 * PI / 4); (2, 7 * PI / 4)] in
  separated samples 1 2 1 4 1 10 5 /\ group 0 (2 * PI) 4 (map snd samples) 1 4.
Proof. exact (conj samples1_separated t1_1). Qed.
Example C49_case : good_ranges [1; 1.1; 2; 2.1; 2.2] [(0, 0); (1, 1.2); (2, 2.2)].
Proof.
  split; [repeat constructor; simpl; lra|]. intros g [<-|[<-|[<-|[]]]]; auto; right; simpl; split; try lra.
  - exists 1.1. split; [simpl; tauto|lra].
  - exists 2.1. split; [simpl; tauto|lra].
Qed.

(** ** C48 *)
(** With zero limb darkening the limb-darkened angular sum should be the uniform one (times 1/pi).  The boundary
    weight agrees with the linear one at a single position only, *)
Theorem C48_boundary_weight_partial : forall x c, c < x -> 0 < x -> (calc_facB x c = 1 / 2 + x <-> x = 2 / 5).
Proof. exact facB_uniform_weight. Qed.
(** and the sums differ by more than a tenth. *)
Theorem C48_uniform_limit_refuted : exists d vu vl, process_r_uniform 3 1 1 d = Ok (Some vu) /\ process_r_limb 3 0 0.01 1 1 d = Ok (Some vl) /\
  0 < vu /\ vl * PI < 0.9 * vu.
Proof. exact uniform_limb_mismatch. Qed.

Print Assumptions C29_weights_partial.
Print Assumptions C29_bounds_partial.
Print Assumptions C29_outside_partial.
Print Assumptions C29_inside_partial.
Print Assumptions C29_defined_partial.
Print Assumptions C29_defined_refuted.
Print Assumptions C29_too_few_points.
Print Assumptions C29_region_partial.
Print Assumptions C29_limb_weights.
Print Assumptions C29_limb_nonneg.
Print Assumptions C29_limb_outside.
Print Assumptions C29_limb_inside.
Print Assumptions C30_cubic.
Print Assumptions C30_nodes.
Print Assumptions C30_crossing.
Print Assumptions C30_regularised.
Print Assumptions C30_regularised_refuted.
Print Assumptions C31_radial.
Print Assumptions C31_angular.
Print Assumptions C31_tight.
Print Assumptions C31_over_budget.
Print Assumptions C49_merge_covers_partial.
Print Assumptions C49_merge_disjoint_partial.
Print Assumptions C49_refine_covers_partial.
Print Assumptions C49_edge_samples_refuted.
Print Assumptions C49_last_range_refuted.
Print Assumptions C49_wrap_refuted.
Print Assumptions C49_regions_cover_partial.
Print Assumptions C49_no_overlap_partial.
Print Assumptions C49_ring_refuted.
Print Assumptions C48_boundary_weight_partial.
Print Assumptions C48_uniform_limit_refuted.
