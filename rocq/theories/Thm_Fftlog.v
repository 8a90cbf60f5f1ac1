(** FFTLog: properties C41 to C43, C53 and C61. *)
From Coq Require Import Reals List Bool Arith ZArith Lia Lra.
From Coquelicot Require Import Complex.
From Verif Require Import Base_R Base_C Base_List M_Fftlog M_Kernels S_Fftlog P_Fftlog P_FftConv P_Kernels P_Round.
Import ListNotations.
Local Open Scope R_scope.

(** ** C41: log extrapolation continues power laws *)
Theorem C41_geometric_partial : forall a r n nl nh, a <> 0 -> 0 < r -> (2 <= n)%nat ->
  log_extrap (geom a r n) nl nh = Ok (geom (a * Rpower r (- INR nl)) r (nl + n + nh)).
Proof. exact geom_extrap. Qed.
(** any samples, numbers or NaN: the originals are kept and the length is as announced *)
Theorem C41_originals : forall x nl nh, (2 <= length x)%nat -> exists low high,
  log_extrap x nl nh = Ok (low ++ x ++ high) /\ length low = nl /\ length high = nh.
Proof. exact log_extrap_shape. Qed.
Print Assumptions C41_originals.
(** each end is continued with the ratio of its last two samples *)
Theorem C41_ends_partial : forall x nl nh x0 x1 xa xb y, nth 0 x None = Some x0 -> nth 1 x None = Some x1 -> 0 < x1 / x0 ->
  nth (length x - 2) x None = Some xa -> nth (length x - 1) x None = Some xb -> 0 < xb / xa -> log_extrap x nl nh = Ok y ->
  (forall k, (k < nl)%nat -> nth k y None = Some (x0 * Rpower (x1 / x0) (- INR (nl - k)))) /\
  (forall k, (k < nh)%nat -> nth (nl + length x + k) y None = Some (xb * Rpower (xb / xa) (INR (k + 1)))).
Proof.
  intros x nl nh x0 x1 xa xb y H0 H1 Hr Ha Hb Hr' E. split; intros k Hk;
    [exact (log_extrap_low x nl nh k x0 x1 y H0 H1 Hr E Hk)|exact (log_extrap_high x nl nh k xa xb y Ha Hb Hr' E Hk)].
Qed.
Print Assumptions C41_ends_partial.
Theorem C41_too_short : forall x nl nh, (length x < 2)%nat -> (0 < nl \/ 0 < nh)%nat -> log_extrap x nl nh = Raise IndexError.
Proof. exact log_extrap_short. Qed.
Print Assumptions C41_too_short.
(** a zero or a sign change at an end turns the extension into NaN *)
Theorem C41_sign_change_refuted : forall x nl nh x0 x1 y k, nth 0 x None = Some x0 -> nth 1 x None = Some x1 -> x1 / x0 <= 0 ->
  log_extrap x nl nh = Ok y -> (k < nl)%nat -> nth k y None = None.
Proof.
  intros x nl nh x0 x1 y k H0 H1 Hr H Hk. unfold log_extrap in H. cbv zeta in H. destruct (_ && _)%bool; [discriminate|].
  apply (f_equal (fun r => match r with Ok l => l | _ => [] end)) in H. cbv beta iota in H. subst y.
  rewrite app_nth1 by (rewrite map_length, seq_length; auto). rewrite (nth_map_lt _ _ k O) by (rewrite seq_length; auto). rewrite H0, H1.
  unfold ndiv, nlog, nmap2, nbind. destruct (Reqb_spec x0 0); [reflexivity|]. destruct (Rltb_spec 0 (x1 / x0)); [lra|reflexivity].
Qed.
Print Assumptions C41_sign_change_refuted.
Example C41_case : geom 3 2 3 = [Some 3; Some 6; Some 12] /\
  log_extrap (geom 3 2 3) 1 1 = Ok [Some (3 / 2); Some 3; Some 6; Some 12; Some 24].
Proof.
  assert (Q : forall (a b : R) l l', a = b -> l = l' -> Some a :: l = Some b :: l') by (intros; subst; reflexivity).
  assert (P : forall n, Rpower 2 (INR n) = 2 ^ n) by (intros; apply Rpower_pow; lra). split.
  - unfold geom. cbn [seq map]. rewrite !P. repeat apply Q; try reflexivity; simpl; lra.
  - rewrite C41_geometric_partial by (lra || lia). f_equal. unfold geom. cbn [seq map Nat.add]. rewrite !P. change (INR 1) with (INR 1). rewrite Rpower_Ropp, P. repeat apply Q; try reflexivity; simpl; lra.
Qed.

(** ** C42: outputs align with inputs *)
Theorem C42_even_size : forall x fx nl nh npad s, (2 <= length x)%nat -> length fx = length x -> fftlog_init x fx nl nh npad = Ok s ->
  Nat.even (f_N s) = true /\ length (f_x s) = f_N s /\ length (f_fx s) = f_N s /\
  (f_N s = length x + nl + nh + 2 * npad \/ Nat.odd (length x + nl + nh + 2 * npad) = true /\ f_N s = length x + nl + nh + 2 * npad - 1)%nat.
Proof. exact init_lengths. Qed.
Print Assumptions C42_even_size.
Theorem C42_constructed : forall x fx nl nh npad, (2 <= length x)%nat -> length fx = length x -> exists s, fftlog_init x fx nl nh npad = Ok s.
Proof. intros x fx nl nh npad Hx Hf. destruct (init_ok x fx nl nh npad Hx Hf) as (s & H). decompose [ex and] H. eauto. Qed.
Print Assumptions C42_constructed.
(** one output per sample when the total is even or there is padding *)
Theorem C42_aligned_partial : forall g nu width ell x fx nl nh npad s y F, (2 <= length x)%nat -> length fx = length x ->
  Nat.even (length x + nl + nh) = true \/ (0 < npad)%nat ->
  fftlog_init x fx nl nh npad = Ok s -> fftlog g nu width ell s = (y, F) ->
  length y = length x /\ length F = length x /\
  forall i, (i < length x)%nat -> nth i y None = ndiv (Some (ell + 1)) (nth (length x - 1 - i) x None).
Proof. exact outputs_aligned. Qed.
Theorem C42_hankel_partial : forall g nu width n x fx nl nh npad y H, (2 <= length x)%nat -> length fx = length x ->
  Nat.even (length x + nl + nh) = true \/ (0 < npad)%nat -> hankel g nu width n x fx nl nh npad = Ok (y, H) ->
  length y = length x /\ length H = length x /\
  forall i, (i < length x)%nat -> nth i y None = ndiv (Some (n + 0.5)) (nth (length x - 1 - i) x None).
Proof.
  intros g nu width n x fx nl nh npad y H Hx Hf Hc E. unfold hankel in E.
  set (f2 := map (fun '(x, f) => nmul (nsqrt x) f) (combine x fx)) in E.
  assert (Hf2 : length f2 = length x) by (unfold f2; rewrite map_length, combine_length; lia).
  destruct (fftlog_init x f2 nl nh npad) as [s|e] eqn:Es; [|discriminate]. cbn [bind] in E.
  destruct (fftlog g nu width (n - 0.5) s) as [y' F] eqn:Ey.
  destruct (outputs_aligned g nu width (n - 0.5) x f2 nl nh npad s y' F Hx Hf2 Hc Es Ey) as (A & B & C).
  apply (f_equal (fun r => match r with Ok p => p | _ => ([], []) end)) in E. cbv beta iota in E.
  pose proof (f_equal fst E) as E1. pose proof (f_equal snd E) as E2. cbn [fst snd] in E1, E2. subst y H.
  split; auto. split; [rewrite map_length, combine_length; lia|]. intros i Hi. rewrite C by auto. f_equal. f_equal. lra.
Qed.
Print Assumptions C42_hankel_partial.
(** an odd total without padding: one output is missing, and it is the one of the largest sample, even when the point
    that was removed to make the size even was an extrapolated one *)
Theorem C42_odd_total_refuted : forall g nu width ell x fx nl nh s y F, (2 <= length x)%nat -> length fx = length x ->
  Nat.odd (length x + nl + nh) = true -> fftlog_init x fx nl nh 0 = Ok s -> fftlog g nu width ell s = (y, F) ->
  length y = (length x - 1)%nat /\ length F = (length x - 1)%nat /\
  forall i, (i < length x - 1)%nat -> nth i y None = ndiv (Some (ell + 1)) (nth (length x - 2 - i) x None).
Proof. exact outputs_lost. Qed.
Print Assumptions C42_odd_total_refuted.
Example C42_case : let x := geom 1 2 3 in (2 <= length x)%nat /\ (Nat.even (length x + 1 + 0) = true \/ (0 < 2)%nat) /\ Nat.odd (length x + 0 + 2) = true.
Proof. cbv zeta. rewrite geom_length. split; [lia|]. split; [right; lia|reflexivity]. Qed.

(** ** C43: the window is a taper *)
Theorem C43_taper_partial : forall L c m, (2 <= c)%nat -> exists w, c_window L c m = Some w /\ 0 <= w <= 1 /\
  ((m + c <= L + 1)%nat -> w = 1) /\ ((L <= m)%nat -> w = 0).
Proof. exact window_range. Qed.
Theorem C43_non_increasing_partial : forall L c m m' w w', (2 <= c)%nat -> (m <= m')%nat ->
  c_window L c m = Some w -> c_window L c m' = Some w' -> w' <= w.
Proof. exact window_mono. Qed.
Print Assumptions C43_non_increasing_partial.
Theorem C43_no_cut : forall L m, (m <= L)%nat -> c_window L 0 m = Some 1.
Proof. intros. apply window_below. lia. Qed.
Print Assumptions C43_no_cut.
(** a cut of one index divides by zero at the edge, and the default width selects it for 8 to 15 points: every output is NaN *)
Theorem C43_single_cut_refuted : forall L m, (m <= L)%nat -> (c_window L 1 m = None <-> m = L).
Proof. exact window_none. Qed.
Print Assumptions C43_single_cut_refuted.
Theorem C43_default_width_refuted : forall g nu ell s, (8 <= f_N s < 16)%nat ->
  Fy_array g nu 0.25 ell s = repeat None (f_N s).
Proof.
  intros g nu ell s H. apply one_cut_nan. rewrite cut_default. symmetry. apply (Nat.div_unique (f_N s) 8 1 (f_N s - 8)); lia.
Qed.
Theorem C43_default_width : forall N, cut_of 0.25 N = (N / 8)%nat.
Proof. exact cut_default. Qed.
Print Assumptions C43_default_width.
Example C43_case : (2 <= 4)%nat /\ c_window 16 4 2 = Some 1 /\ c_window 16 4 16 = Some 0.
Proof.
  split; [lia|]. split; [apply window_below; lia|]. destruct (C43_taper_partial 16 4 16) as (w & -> & _ & _ & H); [lia|]. rewrite H by lia. reflexivity.
Qed.

(** ** C53: the transform is a convolution on the logarithmic grid, exact on its harmonics *)
(** one kernel serves every input on every grid of the same ratio and size *)
Theorem C53_convolution_partial : forall g nu width ell r N, 0 < r -> r <> 1 -> 0 < ell + 1 -> cut_of width N <> 1%nat ->
  exists kappa : R -> R, forall x0 n fx nl nh npad s X F y Fo, 0 < x0 -> (2 <= n)%nat -> length fx = n ->
  fftlog_init (geom x0 r n) fx nl nh npad = Ok s -> f_N s = N -> f_x s = map Some X -> f_fx s = map Some F -> fftlog g nu width ell s = (y, Fo) ->
  length Fo = length y /\ forall j, (j < length y)%nat -> exists yj, 0 < yj /\ nth j y None = Some yj /\
    nth j Fo None = Some (sumR (map (fun '(x, f) => f * kappa (x * yj)) (combine X F))).
Proof. exact convolution. Qed.
(** [x ^ nu] times a harmonic that fits the grid is mapped to its Mellin image, tapered by the window *)
Theorem C53_harmonics_partial : forall g nu width ell x0 r L (F : list R) (c : C) k, 0 < x0 -> 0 < r -> r <> 1 -> 0 < ell + 1 -> (0 < k < L)%nat ->
  cut_of width (2 * L) <> 1%nat -> length F = (2 * L)%nat ->
  let eta := 2 * PI * INR k / (INR (2 * L) * ln r) in
  (forall i, (i < 2 * L)%nat -> nth i F 0 = Re (c * cpw (x0 * Rpower r (INR i)) (nu, eta))%C) ->
  exists s y Fo w, fftlog_init (geom x0 r (2 * L)) (map Some F) 0 0 0 = Ok s /\ fftlog g nu width ell s = (y, Fo) /\
  c_window L (cut_of width (2 * L)) k = Some w /\
  forall j, (j < 2 * L)%nat -> let yj := (ell + 1) / (x0 * Rpower r (INR (2 * L - 1 - j))) in nth j y None = Some yj /\
    nth j Fo None = Some (w * Re (c * (RtoC (sqrt PI / 4) * g (nu, eta)) * cpw yj ((- nu)%R, (- eta)%R))%C).
Proof. exact harmonic_exact. Qed.
Theorem C53_power_law_partial : forall g nu width ell x0 r L (F : list R) v, 0 < x0 -> 0 < r -> r <> 1 -> 0 < ell + 1 -> (0 < L)%nat ->
  cut_of width (2 * L) <> 1%nat -> (cut_of width (2 * L) <= L)%nat -> length F = (2 * L)%nat ->
  (forall i, (i < 2 * L)%nat -> nth i F 0 = v * Rpower (x0 * Rpower r (INR i)) nu) ->
  exists s y Fo, fftlog_init (geom x0 r (2 * L)) (map Some F) 0 0 0 = Ok s /\ fftlog g nu width ell s = (y, Fo) /\
  forall j, (j < 2 * L)%nat -> let yj := (ell + 1) / (x0 * Rpower r (INR (2 * L - 1 - j))) in nth j y None = Some yj /\
    nth j Fo None = Some (v * (sqrt PI / 4 * Re (g (RtoC nu))) * Rpower yj (- nu)).
Proof. exact power_exact. Qed.
Print Assumptions C53_power_law_partial.
Example C53_case : 0 < 2 /\ 2 <> 1 /\ (0 < 3 < 16)%nat /\ cut_of 0.25 (2 * 16) <> 1%nat /\ (cut_of 0.25 (2 * 16) <= 16)%nat.
Proof. rewrite cut_default. change (2 * 16 / 8)%nat with 4%nat. repeat split; lra || lia. Qed.

Print Assumptions C41_geometric_partial.
Print Assumptions C42_aligned_partial.
Print Assumptions C43_taper_partial.
Print Assumptions C43_default_width_refuted.
Print Assumptions C53_convolution_partial.
Print Assumptions C53_harmonics_partial.

(** ** C61: the order-zero Hankel transform is its own inverse *)
Lemma C61_kernel (g : C -> C) : (forall t, g_l gamma_ (0 - 0.5) (1.5, t) = Some (g (1.5, t))) ->
  (forall t, Cmod (g (1.5, t)) * Cmod (g (1.5, t)) = 8) /\ Im (g (1.5, 0)) = 0.
Proof.
  intros H. split.
  - intros t. destruct (kernel_unit gamma_ t gamma_conj) as (v & E & M & _). rewrite H in E. injection E as ->. exact M.
  - destruct (kernel_unit gamma_ 0 gamma_conj) as (v & E & M & E'). rewrite Ropp_0, E in E'. rewrite H in E. injection E as ->. injection E' as E'.
    apply (f_equal Im) in E'. change (Im v = - Im v) in E'. lra.
Qed.
(** jax's gamma function gives a kernel without NaN at the bias 3/2, whatever the frequency *)
Theorem C61_kernel_defined : exists g : C -> C, forall t, g_l gamma_ (0 - 0.5) (1.5, t) = Some (g (1.5, t)).
Proof.
  exists (fun z => match g_l gamma_ (0 - 0.5) z with Some v => v | None => RtoC 0 end). intros t.
  destruct (kernel_unit gamma_ t gamma_conj) as (v & E & _). rewrite E. reflexivity.
Qed.
Print Assumptions C61_kernel_defined.
(** transforming twice multiplies every harmonic by the square of the window; the highest one can only lose more *)
Theorem C61_twice : forall g width x0 r L (f : list R), (forall t, g_l gamma_ (0 - 0.5) (1.5, t) = Some (g (1.5, t))) ->
  0 < x0 -> 0 < r -> r <> 1 -> (0 < L)%nat -> length f = (2 * L)%nat -> cut_of width (2 * L) <> 1%nat ->
  let x := rgeom x0 r (2 * L) in
  exists k F f' kappa, hankel g 1.5 width 0 (map Some x) (map Some (x2_times x f)) 0 0 0 = Ok (map Some k, map Some F) /\
    hankel g 1.5 width 0 (map Some k) (map Some (x2_times k F)) 0 0 0 = Ok (map Some x, map Some f') /\ length f' = length x /\ 0 <= kappa <= 1 /\
    forall m, (m <= L)%nat -> exists w, c_window L (cut_of width (2 * L)) m = Some w /\
      spectrum x f' m = (RtoC (w ^ 2 * if (m =? L)%nat then kappa else 1) * spectrum x f m)%C.
Proof.
  intros g width x0 r L f Hg Hx Hr Hr1 HL Hf Hcut x. destruct (C61_kernel g Hg) as [G1 G2].
  destruct (round_trip g width x0 r L f Hx Hr Hr1 HL Hf Hcut G1 G2) as (k & F & f' & kappa & A & B & D & E & S). exists k, F, f', kappa. repeat (split; [assumption|]).
  intros m Hm. destruct (window_some L (cut_of width (2 * L)) m Hcut Hm) as [w Hw]. exists w. split; auto. specialize (S m Hm). unfold window in S. rewrite Hw in S. exact S.
Qed.
Print Assumptions C61_twice.
(** without the taper, and for samples without the highest harmonic, the original samples come back *)
Theorem C61_self_inverse_partial : forall g width x0 r L (f : list R), (forall t, g_l gamma_ (0 - 0.5) (1.5, t) = Some (g (1.5, t))) ->
  0 < x0 -> 0 < r -> r <> 1 -> (0 < L)%nat -> length f = (2 * L)%nat -> cut_of width (2 * L) = 0%nat ->
  let x := rgeom x0 r (2 * L) in spectrum x f L = RtoC 0 ->
  exists k F, hankel g 1.5 width 0 (map Some x) (map Some (x2_times x f)) 0 0 0 = Ok (map Some k, map Some F) /\
    hankel g 1.5 width 0 (map Some k) (map Some (x2_times k F)) 0 0 0 = Ok (map Some x, map Some f).
Proof.
  intros g width x0 r L f Hg Hx Hr Hr1 HL Hf Hcut x HN.
  destruct (C61_twice g width x0 r L f Hg Hx Hr Hr1 HL Hf ltac:(lia)) as (k & F & f' & kappa & A & B & D & E & S). fold x in A, B, D, S. exists k, F. split; auto.
  assert (EQ : f' = f); [|rewrite <- EQ; exact B]. apply (spectrum_inj x0 r L); auto; [unfold x in D; rewrite rgeom_length in D; exact D|]. intros m Hm.
  destruct (S m Hm) as (w & Hw & Hs). fold x. rewrite Hs. rewrite Hcut, window_below in Hw by lia. injection Hw as <-. destruct (Nat.eqb_spec m L) as [->|].
  - rewrite HN. ring.
  - rewrite pow1, Rmult_1_r. ring.
Qed.
Print Assumptions C61_self_inverse_partial.
(** with the default window, on 16 or more points, an alternating input comes back as zero *)
Theorem C61_default_window_refuted : forall g x0 r L, (forall t, g_l gamma_ (0 - 0.5) (1.5, t) = Some (g (1.5, t))) ->
  0 < x0 -> 0 < r -> r <> 1 -> (8 <= L)%nat -> let x := rgeom x0 r (2 * L) in
  let f := map (fun i => cos (PI * INR i) / nth i x 0) (seq 0 (2 * L)) in
  exists k F, hankel g 1.5 0.25 0 (map Some x) (map Some (x2_times x f)) 0 0 0 = Ok (map Some k, map Some F) /\
    hankel g 1.5 0.25 0 (map Some k) (map Some (x2_times k F)) 0 0 0 = Ok (map Some x, repeat (Some 0) (2 * L)) /\ nth 0 f 0 <> 0.
Proof.
  intros g x0 r L Hg Hx Hr Hr1 HL x f. assert (Lf : length f = (2 * L)%nat) by (unfold f; rewrite map_length, seq_length; auto).
  assert (Lx : length x = (2 * L)%nat) by apply rgeom_length.
  assert (xpos : forall i, (i < 2 * L)%nat -> 0 < nth i x 0) by (intros i Hi; unfold x; rewrite rgeom_nth by auto; apply Rmult_lt_0_compat; auto; apply Rpower_pos).
  assert (Hc : (2 <= cut_of 0.25 (2 * L))%nat) by (rewrite cut_default; apply Nat.div_le_lower_bound; lia).
  destruct (C61_twice g 0.25 x0 r L f Hg Hx Hr Hr1 ltac:(lia) Lf ltac:(lia)) as (k & F & f' & kappa & A & B & D & E & S). fold x in A, B, D, S. exists k, F. split; auto.
  assert (fn : forall i, (i < 2 * L)%nat -> nth i f 0 = cos (PI * INR i) / nth i x 0) by (intros i Hi; unfold f; rewrite (nth_map_lt _ _ i O) by (rewrite seq_length; auto); rewrite seq_nth by auto; reflexivity).
  split.
  - assert (EQ : f' = repeat 0 (2 * L)); [|rewrite B, EQ; do 2 f_equal; clear; induction (2 * L)%nat; [reflexivity|cbn [repeat map]; f_equal; auto]].
    apply (spectrum_inj x0 r L); auto; [apply repeat_length|lia|]. intros m Hm. fold x. destruct (S m Hm) as (w & Hw & ->).
    replace (spectrum x (repeat 0 (2 * L)) m) with (RtoC 0).
    2: { symmetry. rewrite (spectrum_dft x _ (2 * L)) by auto. rewrite (dft_ext _ _ (fun _ => 0)); [apply dft_zero|]. intros n Hn. rewrite nth_repeat. ring. }
    rewrite (spectrum_dft x f (2 * L)) by auto. rewrite (dft_ext _ _ (fun j => 1 * cos (PI * INR j))) by (intros n Hn; rewrite fn by auto; pose proof (xpos n Hn); field; lra).
    rewrite dft_nyquist by lia. destruct (Nat.eqb_spec m L) as [->|]; [|ring]. destruct (window_range L (cut_of 0.25 (2 * L)) L Hc) as (w' & Hw' & _ & _ & Z).
    rewrite Hw' in Hw. injection Hw as <-. rewrite Z by lia. replace (0 ^ 2 * kappa) with 0 by ring. ring.
  - rewrite fn by lia. simpl (INR 0). rewrite Rmult_0_r, cos_0. pose proof (xpos 0%nat ltac:(lia)). apply Rgt_not_eq. apply Rdiv_lt_0_compat; lra.
Qed.
Print Assumptions C61_default_window_refuted.
Example C61_case : let x := rgeom 1 2 (2 * 1) in spectrum x [2; 1] 1 = RtoC 0 /\ cut_of 0 (2 * 1) = 0%nat /\ (8 <= 8)%nat.
Proof.
  cbv zeta. split; [|split; [|lia]].
  - unfold spectrum, rgeom. cbn [Nat.mul Nat.add seq map length nth sumC]. simpl (INR 0). simpl (INR 1). simpl (INR 2). rewrite Rpower_O, Rpower_1 by lra.
    replace (2 * PI * 0 * 1 / (1 + 1)) with 0 by field. replace (2 * PI * 1 * 1 / (1 + 1)) with PI by field. rewrite Ropp_0, cexpi_0. unfold cexpi. rewrite cos_neg, sin_neg, cos_PI, sin_PI. apply Ceq; simpl; ring.
  - unfold cut_of. rewrite Rmult_0_l. unfold Rdiv. rewrite Rmult_0_l. rewrite <- (Int_part_spec 0 0); [reflexivity|lra].
Qed.
