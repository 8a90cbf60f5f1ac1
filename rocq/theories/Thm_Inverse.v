(** Inverse-ray magnification from end to end: property C66. *)
From Coq Require Import Reals List Bool Arith ZArith Lia Lra Permutation ClassicalChoice Classical_Prop.
From Coquelicot Require Import Complex.
From Verif Require Import Base_R Base_List Base_C M_Utils M_Coeffs M_PointSource M_Limb M_MergeArea M_ExtSource S_Poly S_PointSource S_SourceLimb S_Inverse P_Lens P_PointSource P_Images P_AnySource P_Limb P_ExtSource P_CondExt P_Inverse.
Import ListNotations.
Local Open Scope R_scope.

(** the lens described by the parameters: separation, mass ratios, third position from the mid-point; the origin is the centre
    of mass of the first two; last argument: how exactly a listed image must satisfy the lens equation *)
Inductive lens_given : Z -> params -> lens_system -> R -> Prop :=
| two_given p s q : p_s p = Some s -> p_q p = Some q -> s <> 0 -> 0 < q -> lens_given 2 p (binary_lens s q) 1e-6
| three_given p s q q3 r3 psi : p_s p = Some s -> p_q p = Some q -> p_q3 p = Some q3 -> p_r3 p = Some r3 -> p_psi p = Some psi -> 0 < q -> 0 < q3 ->
    s <> 0 /\ from_midpoint s q r3 psi <> RtoC (- s * q / (1 + q)) /\ from_midpoint s q r3 psi <> RtoC (s / (1 + q)) ->
    lens_given 3 p (triple_lens s q q3 (from_midpoint s q r3 psi)) 1e-3.
(** the root finder lists all roots of every polynomial that is not identically zero, and not more than its degree *)
Definition exact (solver : list C -> option (list C) -> list C) : Prop :=
  forall cs, (exists z, peval cs z <> RtoC 0) -> lists_roots cs (solver cs None) /\ (length (solver cs None) <= length cs - 1)%nat.
(** [zs], as far as kept by the mask, are images of points of the limb: only such, up to the tolerance, and with an exact root
    finder all images of [n] equally spaced points *)
Definition limb_images (exact_roots : Prop) (L : lens_system) (w : C) (rho tol : R) (n : nat) (zs : list C) (mask : list bool) : Prop :=
  length mask = length zs /\
  (forall k, (k < length zs)%nat -> nth k mask false = true -> exists t, Cmod (lens_map L (nth k zs (RtoC 0)) - limb_at w rho t)%C < tol) /\
  (exact_roots -> forall j z, (j < n)%nat -> is_image L (limb_at w rho (spaced 0 (2 * PI) n j)) z ->
     exists k, (k < length zs)%nat /\ nth k zs (RtoC 0) = z /\ nth k mask false = true).

Lemma limb_at_eq w rho t : (w + RtoC rho * cexpi t)%C = limb_at w rho t.
Proof. unfold limb_at, cexpi. apply Ceq; destruct w; simpl; ring. Qed.
Definition uniform_row (rho : R) (nt : nat) (r : R) (d ws : nat -> R) : Prop := forall i, (i < nt - 3)%nat ->
  0 <= ws i <= 1 /\ (d (i + 1)%nat < rho -> d (i + 2)%nat < rho -> ws i = 1) /\ (rho <= d (i + 1)%nat -> rho <= d (i + 2)%nat -> ws i = 0).
Definition limb_row (rho u1 : R) (nt : nat) (r : R) (d ws : nat -> R) : Prop := forall i, (i < nt - 4)%nat ->
  exists I2 k, Is_limb_1st (d (i + 2)%nat / rho) u1 = Some I2 /\ ws i = I2 * k /\ 0 <= k <= 1e5 /\
    (d (i + 1)%nat < rho -> d (i + 2)%nat < rho -> d (i + 3)%nat < rho -> k = 1) /\ (rho <= d (i + 2)%nat -> k = 0).
Lemma seq_map_nth (f : nat -> R) nt i : (i < nt)%nat -> nth i (map f (seq 0 nt)) 0 = f i.
Proof. intros H. rewrite (nth_map_lt _ _ i O) by (rewrite seq_length; auto). rewrite seq_nth by auto. reflexivity. Qed.

Lemma two_limb solver s q w rho n zs mask : s <> 0 -> 0 < q ->
  source_limb (fun w => images2 solver (0.5 * s) (q / (1 + q)) w None) 5 (0.5 * s) q w rho n = (zs, mask) -> limb_images (exact solver) (binary_lens s q) w rho 1e-6 n zs mask.
Proof.
  intros Hs Hq E. pose proof (limb2 solver s q w rho n ltac:(lra)) as HI. cbv zeta in HI. rewrite E in HI. cbn [fst snd] in HI. destruct HI as [HL HI]. split; [exact HL|]. split.
  { intros k Hk Hm. destruct (HI k Hk Hm) as [t B]. exists t. rewrite <- limb_at_eq. exact B. }
  intros HE j z Hj Hz. rewrite <- limb_at_eq in Hz. set (w' := (w + RtoC rho * cexpi (spaced 0 (2 * PI) n j))%C) in *.
  destruct (HE _ (two_nonzero s q w' Hq Hs)) as [HR HN]. destruct (two_listed solver s q w' Hq z HR Hz) as (k & Hk & E1 & E2).
  destruct (limb_complete (fun w => images2 solver (0.5 * s) (q / (1 + q)) w None) 5 s q w rho n j k Hj) as (m & Hm & M1 & M2). { cbn in Hk, HN. lia. }
  rewrite E in Hm, M1, M2. cbn [fst snd] in Hm, M1, M2. exists m. split; [exact Hm|]. rewrite M1, M2. split; [exact E1|exact E2].
Qed.
Lemma three_limb solver s q q3 r3 psi w rho n zs mask : 0 < q -> 0 < q3 -> distinct_masses s q r3 psi ->
  source_limb (images3 solver (0.5 * s) r3 psi (q / (1 + q + q3)) (1 / (1 + q + q3))) 10 (0.5 * s) q w rho n = (zs, mask) ->
  limb_images (exact solver) (triple_lens s q q3 (from_midpoint s q r3 psi)) w rho 1e-3 n zs mask.
Proof.
  intros Hq Hq3 Hd E. pose proof (limb3 solver s q q3 r3 psi w rho n ltac:(lra) ltac:(lra)) as HI. cbv zeta in HI. rewrite E in HI. cbn [fst snd] in HI. destruct HI as [HL HI]. split; [exact HL|]. split.
  { intros k Hk Hm. destruct (HI k Hk Hm) as [t B]. exists t. rewrite <- limb_at_eq. exact B. }
  intros HE j z Hj Hz. rewrite <- limb_at_eq in Hz. set (w' := (w + RtoC rho * cexpi (spaced 0 (2 * PI) n j))%C) in *.
  destruct (HE _ (three_nonzero s q q3 r3 psi w' Hq Hq3 Hd)) as [HR HN]. destruct (three_listed solver s q q3 r3 psi w' Hq Hq3 z HR Hz) as (k & Hk & E1 & E2).
  destruct (limb_complete (images3 solver (0.5 * s) r3 psi (q / (1 + q + q3)) (1 / (1 + q + q3))) 10 s q w rho n j k Hj) as (m & Hm & M1 & M2). { cbn in Hk, HN. rewrite map_length in Hk. lia. }
  rewrite E in Hm, M1, M2. cbn [fst snd] in Hm, M1, M2. exists m. split; [exact Hm|]. rewrite M1, M2. split; [exact E1|exact E2].
Qed.
Ltac cbz H := cbn [Z.eqb Pos.eqb getp p_s p_q p_a p_e1 p_e2 p_r3 p_psi p_q3] in H.
Ltac open_mag H limb mask regions S0 Q0 Q Q2 :=
  destruct (source_limb _ _ _ _ _ _ _) as [limb mask] eqn:Q0 in H; cbn [fst snd res_bind] in H;
  destruct (define_regions _ _ _ _ _ _ _ _) as [[regions|]|] eqn:Q in H; try discriminate; cbn [res_bind] in H;
  destruct (scan_regions _ _) as [[S0|]|] eqn:Q2 in H; try discriminate; cbn in H; injection H as <-.

(** uniform disc: the value is the area, in units of the source's, of the grid cells of the regions laid around the images of
    the limb, each with a weight: 1 if the disc is seen at both grid points bounding the cell, 0 if at neither, in between otherwise *)
Theorem C66_uniform : forall solver nl p L tol cfg rho w v, lens_given nl p L tol -> (2 <= c_rres cfg)%nat -> (2 <= c_thres cfg)%nat ->
  mag_uniform solver nl p cfg rho w = Ok (Some v) ->
  exists limb mask regions W,
    limb_images (exact solver) L w rho tol (c_nlimb cfg) limb mask /\
    define_regions limb mask rho (c_binsr cfg) (c_binsth cfg) (c_marr cfg) (c_marth cfg) nl = Ok (Some regions) /\
    v = area_sum regions (c_rres cfg) (c_thres cfg) (c_thres cfg - 3) W / rho ^ 2 / PI /\
    forall n j i, (n < length regions)%nat -> (j < c_rres cfg)%nat -> (i < c_thres cfg - 3)%nat ->
      let point := grid_point (nth n regions no_sector) (c_rres cfg) (c_thres cfg) j in
      0 <= W n j i <= 1 /\
      (seen L w rho (point (i + 1)%nat) -> seen L w rho (point (i + 2)%nat) -> W n j i = 1) /\
      (~ seen L w rho (point (i + 1)%nat) -> ~ seen L w rho (point (i + 2)%nat) -> W n j i = 0).
Proof.
  intros solver nl p L tol cfg rho w v HL Hr Ht H.
  assert (K : exists limb mask regions D S0, limb_images (exact solver) L w rho tol (c_nlimb cfg) limb mask /\
    define_regions limb mask rho (c_binsr cfg) (c_binsth cfg) (c_marr cfg) (c_marth cfg) nl = Ok (Some regions) /\
    (forall r t, D r t = Ok (Cmod (lens_map L (polar r t) - w)%C)) /\ v = S0 / rho ^ 2 / PI /\
    scan_regions (compute_for_range D (process_r_uniform rho) (c_rres cfg) (c_thres cfg)) regions = Ok (Some S0)).
  { destruct HL as [p s q Es Eq Hs Hq|p s q q3 r3 psi Es Eq Eq3 Er Ep Hq Hq3 Hd]; unfold mag_uniform, ext_params in H; cbz H.
    - rewrite Es, Eq in H. unfold calc_source_limb in H. cbz H. open_mag H limb mask regions S0 Q0 Q Q2. eexists limb, mask, regions, _, S0.
      split; [apply (two_limb _ _ _ _ _ _ _ _ Hs Hq Q0)|]. split; [exact Q|]. split; [|split; [reflexivity|exact Q2]]. intros r t. apply dist2; auto. lra.
    - rewrite Es, Eq, Eq3, Er, Ep in H. unfold calc_source_limb in H. cbz H. open_mag H limb mask regions S0 Q0 Q Q2. eexists limb, mask, regions, _, S0.
      split; [apply (three_limb _ _ _ _ _ _ _ _ _ _ _ Hq Hq3 Hd Q0)|]. split; [exact Q|]. split; [|split; [reflexivity|exact Q2]]. intros r t. apply (dist3 s q q3 r3 psi); auto; lra. }
  destruct K as (limb & mask & regions & D & S0 & HI & HR & HD & -> & HS). exists limb, mask, regions.
  destruct (total_sum D (fun r t => Cmod (lens_map L (polar r t) - w)%C) (process_r_uniform rho) 3 (uniform_row rho)) with (nr := c_rres cfg) (nt := c_thres cfg) (gs := regions) (v := S0) as (W & -> & HW); auto.
  { intros r dth d v Hp. destruct (uniform_weights _ _ _ _ _ Hp) as (ws & Lw & Ev & G). exists ws. auto. }
  exists W. split; [exact HI|]. split; [exact HR|]. split; [reflexivity|]. intros n j i Hn Hj Hi point. specialize (HW n j Hn Hj). unfold point, seen. destruct (nth n regions no_sector) as [[rl rh] [tl th]]. unfold grid_point. specialize (HW i Hi). cbv beta in HW. rewrite !seq_map_nth in HW by lia.
  destruct HW as (A & B & C0). split; [exact A|]. split; [exact B|]. intros N1 N2. apply C0; apply Rnot_lt_le; assumption.
Qed.

(** limb darkening, two lenses: each cell counts with the brightness at its inner grid point; weight 1 if the disc is seen at that
    point and at both its neighbours, none if it is not seen there *)
Theorem C66_limb_dark : forall solver s q p cfg u1 delta_c rho w v, p_s p = Some s -> p_q p = Some q -> s <> 0 -> 0 < q -> (2 <= c_rres cfg)%nat -> (2 <= c_thres cfg)%nat ->
  mag_limb_dark solver 2 p cfg u1 delta_c rho w = Ok (Some v) ->
  exists limb mask regions W,
    limb_images (exact solver) (binary_lens s q) w rho 1e-6 (c_nlimb cfg) limb mask /\
    define_regions limb mask rho (c_binsr cfg) (c_binsth cfg) (c_marr cfg) (c_marth cfg) 2 = Ok (Some regions) /\
    v = area_sum regions (c_rres cfg) (c_thres cfg) (c_thres cfg - 4) W / rho ^ 2 /\
    forall n j i, (n < length regions)%nat -> (j < c_rres cfg)%nat -> (i < c_thres cfg - 4)%nat ->
      let point := grid_point (nth n regions no_sector) (c_rres cfg) (c_thres cfg) j in
      let sees z := seen (binary_lens s q) w rho z in
      let d := Cmod (lens_map (binary_lens s q) (point (i + 2)%nat) - w)%C / rho in
      exists k, 0 <= k <= 1e5 /\
        (d < 1 -> W n j i = 3 / (PI * (3 - u1)) * (1 - u1 * (1 - sqrt (1 - d ^ 2))) * k) /\
        (sees (point (i + 1)%nat) -> sees (point (i + 2)%nat) -> sees (point (i + 3)%nat) -> k = 1) /\
        (~ sees (point (i + 2)%nat) -> W n j i = 0).
Proof.
  intros solver s q p cfg u1 dc rho w v Es Eq Hs Hq Hr Ht H. unfold mag_limb_dark, ext_params in H. cbz H. rewrite Es, Eq in H. unfold calc_source_limb in H. cbz H. open_mag H limb mask regions S0 Q0 Q Q2.
  exists limb, mask, regions.
  match type of Q2 with scan_regions (compute_for_range ?D _ _ _) _ = _ => destruct (total_sum D (fun r t => Cmod (lens_map (binary_lens s q) (polar r t) - w)%C) (process_r_limb rho u1 dc) 4 (limb_row rho u1)) with (nr := c_rres cfg) (nt := c_thres cfg) (gs := regions) (v := S0) as (W & -> & HW) end; auto.
  { intros r t. apply dist2; auto. lra. }
  { intros r dth d v Hp. destruct (limb_weights _ _ _ _ _ _ _ Hp) as (ws & Lw & Ev & G). exists ws. auto. }
  exists W. split; [apply (two_limb _ _ _ _ _ _ _ _ Hs Hq Q0)|]. split; [exact Q|]. split; [reflexivity|]. intros n j i Hn Hj Hi point sees d. specialize (HW n j Hn Hj).
  subst d sees point. unfold seen. destruct (nth n regions no_sector) as [[rl rh] [tl th]]. unfold grid_point. specialize (HW i Hi). cbv beta in HW. rewrite !seq_map_nth in HW by lia.
  destruct HW as (I2 & k & HI & HW & K0 & K1 & K2). exists k. split; [exact K0|]. split; [|split; [exact K1|]].
  - intros Hd. unfold Is_limb_1st in HI. destruct (Rltb_spec (Cmod (lens_map (binary_lens s q) (polar (spaced rl rh (c_rres cfg) j) (spaced tl th (c_thres cfg) (i + 2))) - w)%C / rho) 1); [|contradiction].
    destruct (Rleb _ _) in HI; [|discriminate]. injection HI as <-. rewrite HW. f_equal. f_equal. unfold Rdiv. rewrite Rinv_mult. ring.
  - intros N. rewrite HW, K2 by (apply Rnot_lt_le; exact N). ring.
Qed.

(** limb darkening, three lenses: the grid is evaluated with the three lenses, but the regions are laid around the images that the
    first two alone would form *)
Theorem C66_triple_limb_dark_refuted :
  (forall solver s q cfg rho w, s <> 0 -> 0 < q -> (2 <= c_rres cfg)%nat -> (2 <= c_thres cfg)%nat ->
   exists limb mask, limb_images (exact solver) (binary_lens s q) w rho 1e-6 (c_nlimb cfg) limb mask /\
   forall p L u1 delta_c v, lens_given 3 p L 1e-3 -> p_s p = Some s -> p_q p = Some q -> mag_limb_dark solver 3 p cfg u1 delta_c rho w = Ok (Some v) ->
   exists regions W, define_regions limb mask rho (c_binsr cfg) (c_binsth cfg) (c_marr cfg) (c_marth cfg) 3 = Ok (Some regions) /\
     v = area_sum regions (c_rres cfg) (c_thres cfg) (c_thres cfg - 4) W / rho ^ 2 /\
     forall n j i, (n < length regions)%nat -> (j < c_rres cfg)%nat -> (i < c_thres cfg - 4)%nat ->
       let point := grid_point (nth n regions no_sector) (c_rres cfg) (c_thres cfg) j in ~ seen L w rho (point (i + 2)%nat) -> W n j i = 0) /\
  (** and these need not be images of the limb through the three lenses *)
  (forall solver n zs mask, exact solver -> (0 < n)%nat -> let w := (-1/10, 1/2) : C in
     limb_images (exact solver) (binary_lens 2 1) w (1/10) 1e-6 n zs mask ->
     ~ limb_images (exact solver) (triple_lens 2 1 1 (from_midpoint 2 1 2 (PI/2))) w (1/10) 1e-3 n zs mask).
Proof.
  split.
  - intros solver s q cfg rho w Hs Hq Hr Ht. destruct (source_limb (fun w => images2 solver (0.5 * s) (q / (1 + q)) w None) 5 (0.5 * s) q w rho (c_nlimb cfg)) as [limb mask] eqn:Q0. exists limb, mask. split; [apply (two_limb _ _ _ _ _ _ _ _ Hs Hq Q0)|].
    intros p L u1 dc v HL Es Eq H. inversion HL as [|p0 s0 q0 q3 r3 psi Es0 Eq0 Eq3 Er Ep Hq0 Hq3 Hd E1 E2 E3]. subst. rewrite Es in Es0. injection Es0 as <-. rewrite Eq in Eq0. injection Eq0 as <-. clear HL.
    unfold mag_limb_dark, ext_params in H. cbz H. rewrite Es, Eq, Eq3, Er, Ep in H. unfold calc_source_limb in H. cbz H. rewrite Q0 in H. cbn [res_bind] in H.
    destruct (define_regions _ _ _ _ _ _ _ _) as [[regions|]|] eqn:Q in H; try discriminate. cbn [res_bind] in H. destruct (scan_regions _ _) as [[S0|]|] eqn:Q2 in H; try discriminate. cbn in H. injection H as <-. exists regions.
    match type of Q2 with scan_regions (compute_for_range ?D _ _ _) _ = _ => destruct (total_sum D (fun r t => Cmod (lens_map (triple_lens s q q3 (from_midpoint s q r3 psi)) (polar r t) - w)%C) (process_r_limb rho u1 dc) 4 (limb_row rho u1)) with (nr := c_rres cfg) (nt := c_thres cfg) (gs := regions) (v := S0) as (W & -> & HW) end; auto.
    { intros r t. apply dist3; auto; lra. }
    { intros r dth d v Hp. destruct (limb_weights _ _ _ _ _ _ _ Hp) as (ws & Lw & Ev & G). exists ws. auto. }
    exists W. split; [exact Q|]. split; [reflexivity|]. intros n j i Hn Hj Hi point N. specialize (HW n j Hn Hj). subst point. unfold seen in N. destruct (nth n regions no_sector) as [[rl rh] [tl th]]. unfold grid_point in N. specialize (HW i Hi). cbv beta in HW. rewrite !seq_map_nth in HW by lia.
    destruct HW as (I2 & k & HI & HW & K0 & K1 & K2). rewrite HW, K2 by (apply Rnot_lt_le; exact N). ring.
  - intros solver n zs mask HE Hn w (_ & _ & HB) (_ & HT & _). destruct (HB HE 0%nat (0, 1) Hn) as (k & Hk & Ez & Em).
    { split.
      - intros m0 p0 I E. simpl in I. destruct I as [I|[I|[]]]; injection I as _ I; rewrite <- I in E; apply (f_equal snd) in E; simpl in E; lra.
      - unfold spaced, limb_at. simpl INR. rewrite !Rmult_0_l, Rplus_0_l, cos_0, sin_0. unfold lens_map, deflection. apply Ceq; simpl; field. }
    destruct (HT k Hk Em) as [t B]. rewrite Ez in B.
    replace (lens_map (triple_lens 2 1 1 (from_midpoint 2 1 2 (PI/2))) (0, 1)) with ((0, 1) : C) in B.
    2: { unfold lens_map, deflection, from_midpoint, from_com. rewrite cos_PI2, sin_PI2. apply Ceq; simpl; field. }
    assert (A := Rle_trans _ _ _ (Rmax_r _ _) (Rmax_Cmod (((0, 1) : C) - limb_at w (1/10) t)%C)). simpl in A. pose proof (SIN_bound t). pose proof (Rle_abs (1 + - (1 / 2 + 1 / 10 * sin t))). lra.
Qed.

(** with two or three lenses and at least four angles nothing is raised; the result can only be undefined *)
Theorem C66_returns : forall solver nl p L tol cfg rho w, lens_given nl p L tol -> (4 <= c_thres cfg)%nat -> exists o, mag_uniform solver nl p cfg rho w = Ok o.
Proof.
  assert (MM : forall (A B : Type) (f : A -> res B) l, (forall a, exists b, f a = Ok b) -> exists m, res_mapM f l = Ok m).
  { intros A B f l Hf. induction l as [|a l [m IH]]; [exists []; reflexivity|]. destruct (Hf a) as [b Hb]. exists (b :: m). cbn [res_mapM]. rewrite Hb. cbn [res_bind]. rewrite IH. reflexivity. }
  assert (SC : forall (f : region -> res (option R)) gs, (forall g, exists o, f g = Ok o) -> exists o, scan_regions f gs = Ok o).
  { intros f gs Hf. unfold scan_regions. generalize (Some 0). induction gs as [|g gs IH]; intros o; [exists o; reflexivity|]. destruct (Hf g) as [x Hx]. cbn [fold_left res_bind]. rewrite Hx. cbn [res_map]. apply IH. }
  assert (CF : forall D rho nr nt g, (4 <= nt)%nat -> (forall r t, exists d, D r t = Ok d) -> exists o, compute_for_range D (process_r_uniform rho) nr nt g = Ok o).
  { intros D rho nr nt [[rl rh] [tl th]] Hn HD. unfold compute_for_range.
    destruct (MM _ _ (fun r0 => res_bind (res_mapM (D r0) (linspace tl th nt)) (process_r_uniform rho r0 (nth 1 (linspace tl th nt) 0 - nth 0 (linspace tl th nt) 0))) (linspace rl rh nr)) as [m Hm].
    { intros r. destruct (MM _ _ (D r) (linspace tl th nt) (HD r)) as [ds Hds]. rewrite Hds. cbn [res_bind]. unfold process_r_uniform. pose proof (res_mapM_length _ _ _ Hds) as Ld. rewrite linspace_length in Ld. destruct (Nat.ltb_spec (length ds) 4); [lia|]. eexists; reflexivity. }
    rewrite Hm. eexists; reflexivity. }
  intros solver nl p L tol cfg rho w HL Ht.
  destruct HL as [p s q Es Eq Hs Hq|p s q q3 r3 psi Es Eq Eq3 Er Ep Hq Hq3 Hd]; unfold mag_uniform, ext_params; cbn [Z.eqb Pos.eqb].
  - rewrite Es, Eq. cbn [getp]. unfold calc_source_limb. cbn [Z.eqb Pos.eqb getp p_s p_q p_a p_e1 p_e2 p_r3 p_psi p_q3]. destruct (source_limb _ _ _ _ _ _ _) as [limb mask]. cbn [res_bind]. unfold define_regions at 1. cbn [Z.eqb Pos.eqb res_bind].
    destruct (regions_of_limb _ _ _ _ _ _ _ _) as [regions|]; [|eexists; reflexivity].
    match goal with |- exists o, res_map _ (scan_regions ?f _) = _ => destruct (SC f regions) as [x Hx] end. { intros g. apply CF; auto. intros r t. eexists. apply dist2; auto. lra. }
    rewrite Hx. eexists; reflexivity.
  - rewrite Es, Eq, Eq3, Er, Ep. cbn [getp]. unfold calc_source_limb. cbn [Z.eqb Pos.eqb getp p_s p_q p_a p_e1 p_e2 p_r3 p_psi p_q3]. destruct (source_limb _ _ _ _ _ _ _) as [limb mask]. cbn [res_bind]. unfold define_regions at 1. cbn [Z.eqb Pos.eqb res_bind].
    destruct (regions_of_limb _ _ _ _ _ _ _ _) as [regions|]; [|eexists; reflexivity].
    match goal with |- exists o, res_map _ (scan_regions ?f _) = _ => destruct (SC f regions) as [x Hx] end. { intros g. apply CF; auto. intros r t. eexists. apply (dist3 s q q3 r3 psi); auto; lra. }
    rewrite Hx. eexists; reflexivity.
Qed.

(** masses 1/2 at -1 and 1: a lens description, an exact root finder, and a sector two of whose grid points are seen in front of the
    disc of radius 1/10 around i/2 and in front of the sky *)
Example C66_case : (exists solver, exact solver) /\
  lens_given 2 (mkparams (Some 2) (Some 1) None None None None None None) (binary_lens 2 1) 1e-6 /\
  let g : sector := ((1, 3), (PI / 2, PI)) in
  grid_point g 3 4 0 0 = (0, 1) /\ seen (binary_lens 2 1) (0, 1/2) (1/10) (grid_point g 3 4 0 0) /\
  grid_point g 3 4 2 0 = (0, 3) /\ ~ seen (binary_lens 2 1) (0, 1/2) (1/10) (grid_point g 3 4 2 0).
Proof.
  split; [|split].
  - destruct (ClassicalChoice.choice (fun cs rs => (exists z, peval cs z <> RtoC 0) -> lists_roots cs rs /\ (length rs <= length cs - 1)%nat)) as (f & F).
    + intros cs. destruct (Classical_Prop.classic (exists z, peval cs z <> RtoC 0)) as [H|H]; [|exists []; intros; contradiction]. destruct (lists_exists cs H) as (rs & S0). exists rs; auto.
    + exists (fun cs _ => f cs). exact F.
  - constructor; auto; lra.
  - intros g. assert (E1 : grid_point g 3 4 0 0 = (0, 1)). { unfold g, grid_point, polar, spaced. simpl INR. rewrite !Rmult_0_l, !Rplus_0_r, cos_PI2, sin_PI2. f_equal; ring. }
    assert (E2 : grid_point g 3 4 2 0 = (0, 3)). { unfold g, grid_point, polar, spaced. simpl INR. rewrite !Rmult_0_l, !Rplus_0_r, cos_PI2, sin_PI2. f_equal; field. }
    rewrite E1, E2. split; [reflexivity|]. split; [|split; [reflexivity|]].
    + unfold seen. replace (lens_map (binary_lens 2 1) (0, 1)%R - (0, 1/2)%R)%C with (RtoC 0) by (unfold lens_map, deflection; apply Ceq; simpl; field). rewrite Cmod_0. lra.
    + unfold seen. replace (lens_map (binary_lens 2 1) (0, 3)%R - (0, 1/2)%R)%C with ((0, 22/10) : C) by (unfold lens_map, deflection; apply Ceq; simpl; field).
      intros B. assert (A := Rle_trans _ _ _ (Rmax_r _ _) (Rmax_Cmod ((0, 22/10) : C))). simpl in A. pose proof (Rle_abs (22/10)). lra.
Qed.
Print Assumptions C66_uniform.
Print Assumptions C66_limb_dark.
Print Assumptions C66_triple_limb_dark_refuted.
