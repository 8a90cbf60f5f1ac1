(** Convergence of inverse-ray shooting with the resolution: property C72. *)
From Coq Require Import Reals List Bool Arith ZArith Lia Lra Classical_Prop.
From Coquelicot Require Import Coquelicot.
From Verif Require Import Base_R Base_List Base_C M_Utils M_Coeffs M_PointSource M_Limb M_MergeArea M_ExtSource S_MergeArea P_Regions S_Poly S_PointSource S_SourceLimb S_Inverse P_Lens P_PointSource P_Images P_AnySource P_Limb P_ExtSource P_CondExt P_Inverse Thm_Inverse P_RowLimit P_AreaLimit P_ShootLimit P_PlaneSum P_SeenSum P_WholeImage P_PlaneFold.
Import ListNotations.
Local Open Scope R_scope.

Definition row_weights (f : nat -> R) (nt : nat) (ws : nat -> R) : Prop := forall i, (i < nt - 3)%nat ->
  0 <= ws i <= 1 /\ (f (i + 1)%nat = 1 -> f (i + 2)%nat = 1 -> ws i = 1) /\ (f (i + 1)%nat = 0 -> f (i + 2)%nat = 0 -> ws i = 0).
Definition limb_row_weights (f b : nat -> R) (nt : nat) (ws : nat -> R) : Prop := forall i, (i < nt - 4)%nat ->
  exists k, 0 <= k <= 1e5 /\ ws i = b (i + 2)%nat * k /\ (f (i + 1)%nat = 1 -> f (i + 2)%nat = 1 -> f (i + 3)%nat = 1 -> k = 1).

Lemma sumn_tail o n m f : (forall i, 0 <= f i) -> (o + n <= m)%nat -> sumn n (fun i => f (o + i)%nat) <= sumn m f.
Proof.
  intros Hf H. replace m with (o + n + (m - (o + n)))%nat by lia. rewrite !sumn_split. assert (P : forall k h, (forall i : nat, 0 <= h i) -> 0 <= sumn k h). { intros k h Hh. induction k as [|k IH]; [rewrite sumn_0; lra|]. rewrite sumn_S. specialize (Hh k). lra. }
  pose proof (P o f Hf). pose proof (P (m - (o + n))%nat (fun i => f (o + n + i)%nat) (fun i => Hf _)). lra.
Qed.
Lemma row_close (f ws : nat -> R) nt E : (5 <= nt)%nat -> (forall i, f i = 0 \/ f i = 1) -> sumn (nt - 1) (fun i => Rabs (f i - f (S i))) <= E -> row_weights f nt ws -> Rabs (sumn (nt - 3) ws - sumn nt f) <= E + 3.
Proof.
  intros Hn Hf HE HW. replace nt with (1 + (nt - 3) + 2)%nat at 2 by lia. eapply Rle_trans; [apply (weights_sum f ws 1 (nt - 3) 2 1)|].
  - intros i. destruct (Hf i) as [-> | ->]; rewrite ?Rabs_R0, ?Rabs_R1; lra.
  - simpl (INR (1 + 2)). rewrite Rmult_1_r. replace (1 + 1 + 1) with 3 by ring. apply Rplus_le_compat_r. eapply Rle_trans; [|exact HE]. eapply Rle_trans; [|apply (sumn_tail 1 (nt - 3) (nt - 1) (fun i => Rabs (f i - f (S i)))); [intros; apply Rabs_pos|lia]].
    apply sumn_le. intros i Hi. destruct (HW i Hi) as (W1 & W2 & W3). replace (1 + i)%nat with (i + 1)%nat by lia. replace (S (i + 1)) with (i + 2)%nat by lia.
    destruct (Hf (i + 1)%nat) as [E1|E1], (Hf (i + 2)%nat) as [E2|E2]; rewrite E1, E2 in *.
    + rewrite W3 by auto. rewrite !Rminus_0_r, Rabs_R0. lra.
    + rewrite Rminus_0_r, Rabs_pos_eq by lra. rewrite Rminus_0_l, Rabs_Ropp, Rabs_R1. lra.
    + rewrite Rminus_0_r, Rabs_R1. apply Rabs_le. lra.
    + rewrite W2 by auto. lra.
Qed.
Lemma limb_row_close (f b ws : nat -> R) nt E B : (5 <= nt)%nat -> (forall i, f i = 0 \/ f i = 1) -> (forall i, Rabs (b i) <= B) -> (forall i, f i = 0 -> b i = 0) -> sumn (nt - 1) (fun i => Rabs (f i - f (S i))) <= E ->
  limb_row_weights f b nt ws -> Rabs (sumn (nt - 4) ws - sumn nt b) <= B * 1e5 * (2 * E) + 4 * B.
Proof.
  intros Hn Hf HB Hz HE HW. assert (B0 : 0 <= B) by (eapply Rle_trans; [apply Rabs_pos|apply (HB O)]). set (ch := fun i => Rabs (f i - f (S i))) in *. assert (C0 : forall i, 0 <= ch i) by (intros; apply Rabs_pos).
  replace nt with (2 + (nt - 4) + 2)%nat at 2 by lia. eapply Rle_trans; [apply (weights_sum b ws 2 (nt - 4) 2 B HB)|].
  simpl (INR (2 + 2)). replace (1 + 1 + 1 + 1) with 4 by ring. apply Rplus_le_compat_r. apply Rle_trans with (sumn (nt - 4) (fun i => B * 1e5 * (ch (1 + i)%nat + ch (2 + i)%nat))).
  - apply sumn_le. intros i Hi. destruct (HW i Hi) as (k & K1 & -> & K2). replace (i + 2)%nat with (2 + i)%nat by lia. replace (b (2 + i)%nat * k - b (2 + i)%nat) with (b (2 + i)%nat * (k - 1)) by ring. rewrite Rabs_mult.
    pose proof (C0 (1 + i)%nat) as N1. pose proof (C0 (2 + i)%nat) as N2. replace (i + 1)%nat with (1 + i)%nat in K2 by lia. replace (i + 2)%nat with (2 + i)%nat in K2 by lia. replace (i + 3)%nat with (3 + i)%nat in K2 by lia.
    assert (M : Rabs (k - 1) <= 1e5) by (apply Rabs_le; lra). specialize (HB (2 + i)%nat).
    destruct (Hf (2 + i)%nat) as [E2|E2]; [rewrite (Hz _ E2), Rabs_R0, Rmult_0_l; apply Rmult_le_pos; nra|].
    assert (Q : k = 1 \/ 1 <= ch (1 + i)%nat + ch (2 + i)%nat).
    { unfold ch. change (S (1 + i)) with (2 + i)%nat. change (S (2 + i)) with (3 + i)%nat. destruct (Hf (1 + i)%nat) as [E1|E1]; [right|destruct (Hf (3 + i)%nat) as [E3|E3]; [right|left; apply K2; auto]].
      - rewrite E1, E2. rewrite (Rabs_left (0 - 1)) by lra. pose proof (Rabs_pos (1 - f (3 + i)%nat)). lra.
      - rewrite E2, E3. rewrite (Rabs_pos_eq (1 - 0)) by lra. pose proof (Rabs_pos (f (1 + i)%nat - 1)). lra. }
    destruct Q as [-> |Q]; [rewrite Rminus_eq_0, Rabs_R0, Rmult_0_r; apply Rmult_le_pos; nra|]. apply Rle_trans with (B * 1e5); [apply Rmult_le_compat; auto using Rabs_pos|]. assert (0 <= B * 1e5) by nra. nra.
  - rewrite sumn_scal, sumn_plus. apply Rmult_le_compat_l; [nra|]. pose proof (sumn_tail 1 (nt - 4) (nt - 1) ch C0 ltac:(lia)) as T1. pose proof (sumn_tail 2 (nt - 4) (nt - 1) ch C0 ltac:(lia)) as T2. lra.
Qed.

(** sums over all sectors *)
Lemma sectors_limit phi (m : nat -> nat) (good : sector -> nat -> nat -> nat -> (nat -> R) -> Prop) : (forall g, summable phi g) ->
  (forall g, exists E, 0 <= E /\ forall nr nt j ws, (2 <= nr)%nat -> (5 <= nt)%nat -> cell_area g nr nt j <> 0 -> good g nr nt j ws -> Rabs (sumn (m nt) ws - sumn nt (fun i => phi (grid_point g nr nt j i))) <= E) ->
  forall gs eps, 0 < eps -> exists N, forall nr nt W, (N <= nr)%nat -> (N <= nt)%nat -> (forall n j, (n < length gs)%nat -> (j < nr)%nat -> good (nth n gs no_sector) nr nt j (W n j)) ->
  Rabs (area_sum gs nr nt (m nt) W - sumR (map (pint phi) gs)) < eps.
Proof.
  intros HS HG. induction gs as [|g gs IH]; intros eps He.
  - exists O. intros. unfold area_sum. cbn. rewrite Rminus_0_r, Rabs_R0. auto.
  - destruct (HG g) as (E & HE & HC). destruct (rows_limit phi g E (HS g) HE (eps / 2) ltac:(lra)) as (N1 & H1). destruct (IH (eps / 2) ltac:(lra)) as (N2 & H2). exists (N1 + N2 + 5)%nat. intros nr nt W Hr Ht HW.
    specialize (H1 nr nt (fun j => sumn (m nt) (W O j)) ltac:(lia) ltac:(lia)). specialize (H2 nr nt (fun n => W (S n)) ltac:(lia) ltac:(lia) ltac:(intros n j Hn Hj; apply (HW (S n) j); cbn [length]; lia)).
    assert (Q : area_sum (@cons sector g gs) nr nt (m nt) W = sumn nr (fun j => cell_area g nr nt j * sumn (m nt) (W O j)) + area_sum gs nr nt (m nt) (fun n => W (S n))).
    { unfold area_sum. cbn [length seq map nth sumR]. rewrite <- seq_shift, map_map. reflexivity. }
    rewrite Q. cbn [map sumR]. match goal with |- Rabs (?x + ?y - (?a + ?z)) < _ => replace (x + y - (a + z)) with ((x - a) + (y - z)) by ring end. eapply Rle_lt_trans; [apply Rabs_triang|].
    assert (Rabs (sumn nr (fun j => cell_area g nr nt j * sumn (m nt) (W O j)) - pint phi g) < eps / 2); [|lra]. apply H1. intros j Hj HA. apply HC; auto; try lia. apply (HW O j); cbn [length]; lia.
Qed.
Lemma seen_sectors L w rho : 0 < rho -> forall gs eps, 0 < eps -> exists N, forall nr nt W, (N <= nr)%nat -> (N <= nt)%nat ->
  (forall n j, (n < length gs)%nat -> (j < nr)%nat -> row_weights (fun i => seen_at L w rho (grid_point (nth n gs no_sector) nr nt j i)) nt (W n j)) ->
  Rabs (area_sum gs nr nt (nt - 3) W - sumR (map (pint (seen_at L w rho)) gs)) < eps.
Proof.
  intros Hrho. apply (sectors_limit (seen_at L w rho) (fun nt => (nt - 3)%nat) (fun g nr nt j ws => row_weights (fun i => seen_at L w rho (grid_point g nr nt j i)) nt ws)); [intros g; apply summable_seen; auto|].
  intros g. destruct (row_changes L w rho g Hrho) as (E & HE & H). exists (E + 3). split; [lra|]. intros nr nt j ws Hr Ht HA HW. apply (row_close (fun i => seen_at L w rho (grid_point g nr nt j i))); auto; [intros; apply seen_at_01|]. apply H; auto; lia.
Qed.
Lemma bright_bound L w rho u1 z : 0 < rho -> Rabs (brightness_at L w rho u1 z) <= Rabs (3 / (PI * (3 - u1))) * (1 + Rabs u1).
Proof.
  intros Hrho. unfold brightness_at. pose proof (Rabs_pos u1) as U. destruct (Rlt_dec _ _) as [Q|Q]; [|rewrite Rabs_R0; apply Rmult_le_pos; [apply Rabs_pos|lra]]. rewrite Rabs_mult. apply Rmult_le_compat_l; [apply Rabs_pos|].
  set (y := (Cmod (lens_map L z - w)%C / rho) ^ 2). assert (0 <= y) by apply pow2_ge_0. set (s := sqrt (1 - y)). assert (0 <= s) by apply sqrt_pos. assert (s <= 1) by (unfold s; rewrite <- sqrt_1 at 2; apply sqrt_le_1_alt; lra).
  eapply Rle_trans; [apply Rabs_triang|]. rewrite Rabs_R1, Rabs_Ropp, Rabs_mult, (Rabs_pos_eq (1 - s)) by lra. nra.
Qed.
Lemma bright_dark L w rho u1 z : seen_at L w rho z = 0 -> brightness_at L w rho u1 z = 0.
Proof. unfold seen_at, brightness_at. destruct (Rlt_dec _ _); [lra|auto]. Qed.
Lemma bright_sectors L w rho u1 : 0 < rho -> forall gs eps, 0 < eps -> exists N, forall nr nt W, (N <= nr)%nat -> (N <= nt)%nat ->
  (forall n j, (n < length gs)%nat -> (j < nr)%nat -> limb_row_weights (fun i => seen_at L w rho (grid_point (nth n gs no_sector) nr nt j i)) (fun i => brightness_at L w rho u1 (grid_point (nth n gs no_sector) nr nt j i)) nt (W n j)) ->
  Rabs (area_sum gs nr nt (nt - 4) W - sumR (map (pint (brightness_at L w rho u1)) gs)) < eps.
Proof.
  intros Hrho. apply (sectors_limit (brightness_at L w rho u1) (fun nt => (nt - 4)%nat) (fun g nr nt j ws => limb_row_weights (fun i => seen_at L w rho (grid_point g nr nt j i)) (fun i => brightness_at L w rho u1 (grid_point g nr nt j i)) nt ws)); [intros g; apply summable_bright; auto|].
  intros g. destruct (row_changes L w rho g Hrho) as (E & HE & H). set (B := Rabs (3 / (PI * (3 - u1))) * (1 + Rabs u1)). assert (B0 : 0 <= B) by (unfold B; pose proof (Rabs_pos u1); apply Rmult_le_pos; [apply Rabs_pos|lra]).
  exists (B * 1e5 * (2 * E) + 4 * B). split; [nra|]. intros nr nt j ws Hr Ht HA HW. apply (limb_row_close (fun i => seen_at L w rho (grid_point g nr nt j i)) (fun i => brightness_at L w rho u1 (grid_point g nr nt j i))); auto.
  - intros; apply seen_at_01.
  - intros; apply bright_bound; auto.
  - intros i; apply bright_dark.
  - apply H; auto; lia.
Qed.
Lemma all_integrals phi gs : (forall g, summable phi g) -> Forall2 (plane_integral phi) gs (map (pint phi) gs).
Proof. intros H. induction gs as [|g gs IH]; cbn [map]; constructor; auto. apply summable_integral, H. Qed.

Definition with_resolution (cfg : ext_cfg) (nr nt : nat) : ext_cfg := mkcfg nr nt (c_nlimb cfg) (c_binsr cfg) (c_binsth cfg) (c_marr cfg) (c_marth cfg).
Lemma uniform_sum solver nl p L tol cfg rho w : lens_given nl p L tol -> exists limb mask, limb_images (exact solver) L w rho tol (c_nlimb cfg) limb mask /\
  forall nr nt v, (2 <= nr)%nat -> (2 <= nt)%nat -> mag_uniform solver nl p (with_resolution cfg nr nt) rho w = Ok (Some v) ->
  exists regions W, define_regions limb mask rho (c_binsr cfg) (c_binsth cfg) (c_marr cfg) (c_marth cfg) nl = Ok (Some regions) /\
    v = area_sum regions nr nt (nt - 3) W / rho ^ 2 / PI /\
    forall n j, (n < length regions)%nat -> (j < nr)%nat -> row_weights (fun i => seen_at L w rho (grid_point (nth n regions no_sector) nr nt j i)) nt (W n j).
Proof.
  intros HL.
  assert (K : exists limb mask, limb_images (exact solver) L w rho tol (c_nlimb cfg) limb mask /\ forall nr nt v, mag_uniform solver nl p (with_resolution cfg nr nt) rho w = Ok (Some v) -> exists regions D S0,
    define_regions limb mask rho (c_binsr cfg) (c_binsth cfg) (c_marr cfg) (c_marth cfg) nl = Ok (Some regions) /\
    (forall r t, D r t = Ok (Cmod (lens_map L (polar r t) - w)%C)) /\ v = S0 / rho ^ 2 / PI /\
    scan_regions (compute_for_range D (process_r_uniform rho) nr nt) regions = Ok (Some S0)).
  { destruct HL as [p s q Es Eq Hs Hq|p s q q3 r3 psi Es Eq Eq3 Er Ep Hq Hq3 Hd].
    - destruct (source_limb (fun w => images2 solver (0.5 * s) (q / (1 + q)) w None) 5 (0.5 * s) q w rho (c_nlimb cfg)) as [limb mask] eqn:Q0. exists limb, mask. split; [apply (two_limb _ _ _ _ _ _ _ _ Hs Hq Q0)|].
      intros nr nt v H. unfold mag_uniform, ext_params, with_resolution in H. cbz H. rewrite Es, Eq in H. unfold calc_source_limb in H. cbz H. cbn [c_nlimb c_binsr c_binsth c_marr c_marth c_rres c_thres] in H. rewrite Q0 in H. cbn [res_bind] in H.
      destruct (define_regions _ _ _ _ _ _ _ _) as [[regions|]|] eqn:Q in H; try discriminate. cbn [res_bind] in H. destruct (scan_regions _ _) as [[S0|]|] eqn:Q2 in H; try discriminate. cbn in H. injection H as <-.
      eexists regions, _, S0. split; [exact Q|]. split; [|split; [reflexivity|exact Q2]]. intros r t. apply dist2; auto. lra.
    - destruct (source_limb (images3 solver (0.5 * s) r3 psi (q / (1 + q + q3)) (1 / (1 + q + q3))) 10 (0.5 * s) q w rho (c_nlimb cfg)) as [limb mask] eqn:Q0. exists limb, mask. split; [apply (three_limb _ _ _ _ _ _ _ _ _ _ _ Hq Hq3 Hd Q0)|].
      intros nr nt v H. unfold mag_uniform, ext_params, with_resolution in H. cbz H. rewrite Es, Eq, Eq3, Er, Ep in H. unfold calc_source_limb in H. cbz H. cbn [c_nlimb c_binsr c_binsth c_marr c_marth c_rres c_thres] in H. rewrite Q0 in H. cbn [res_bind] in H.
      destruct (define_regions _ _ _ _ _ _ _ _) as [[regions|]|] eqn:Q in H; try discriminate. cbn [res_bind] in H. destruct (scan_regions _ _) as [[S0|]|] eqn:Q2 in H; try discriminate. cbn in H. injection H as <-.
      eexists regions, _, S0. split; [exact Q|]. split; [|split; [reflexivity|exact Q2]]. intros r t. apply (dist3 s q q3 r3 psi); auto; lra. }
  destruct K as (limb & mask & HI & K). exists limb, mask. split; [exact HI|]. intros nr nt v Hr Ht H. destruct (K nr nt v H) as (regions & D & S0 & HR & HD & -> & HS). exists regions.
  destruct (total_sum D (fun r t => Cmod (lens_map L (polar r t) - w)%C) (process_r_uniform rho) 3 (uniform_row rho)) with (nr := nr) (nt := nt) (gs := regions) (v := S0) as (W & -> & HW); auto.
  { intros r dth d v Hp. destruct (uniform_weights _ _ _ _ _ Hp) as (ws & Lw & Ev & G). exists ws. auto. }
  exists W. split; [exact HR|]. split; [reflexivity|]. intros n j Hn Hj i Hi. specialize (HW n j Hn Hj). destruct (nth n regions no_sector) as [[rl rh] [tl th]]. unfold grid_point. specialize (HW i Hi). cbv beta in HW. rewrite !seq_map_nth in HW by lia.
  destruct HW as (A & B & C0). split; [exact A|]. unfold seen_at. split; intros E1 E2.
  - destruct (Rlt_dec _ _) as [Q1|Q1] in E1; [|lra]. destruct (Rlt_dec _ _) as [Q2|Q2] in E2; [|lra]. auto.
  - destruct (Rlt_dec _ _) as [Q1|Q1] in E1; [lra|]. destruct (Rlt_dec _ _) as [Q2|Q2] in E2; [lra|]. apply C0; apply Rnot_lt_le; auto.
Qed.

Lemma limb_sum solver s q p cfg u1 dc rho w : p_s p = Some s -> p_q p = Some q -> s <> 0 -> 0 < q -> 0 < rho -> exists limb mask, limb_images (exact solver) (binary_lens s q) w rho 1e-6 (c_nlimb cfg) limb mask /\
  forall nr nt v, (2 <= nr)%nat -> (2 <= nt)%nat -> mag_limb_dark solver 2 p (with_resolution cfg nr nt) u1 dc rho w = Ok (Some v) ->
  exists regions W, define_regions limb mask rho (c_binsr cfg) (c_binsth cfg) (c_marr cfg) (c_marth cfg) 2 = Ok (Some regions) /\
    v = area_sum regions nr nt (nt - 4) W / rho ^ 2 /\
    forall n j, (n < length regions)%nat -> (j < nr)%nat -> limb_row_weights (fun i => seen_at (binary_lens s q) w rho (grid_point (nth n regions no_sector) nr nt j i)) (fun i => brightness_at (binary_lens s q) w rho u1 (grid_point (nth n regions no_sector) nr nt j i)) nt (W n j).
Proof.
  intros Es Eq Hs Hq Hrho. set (L := binary_lens s q).
  destruct (source_limb (fun w => images2 solver (0.5 * s) (q / (1 + q)) w None) 5 (0.5 * s) q w rho (c_nlimb cfg)) as [limb mask] eqn:Q0. exists limb, mask. split; [apply (two_limb _ _ _ _ _ _ _ _ Hs Hq Q0)|].
  intros nr nt v Hr Ht H. pose (cfg' := with_resolution cfg nr nt). destruct (C66_limb_dark solver s q p cfg' u1 dc rho w v Es Eq Hs Hq Hr Ht H) as (limb' & mask' & regions & W & _ & HR & HV & HW).
  unfold mag_limb_dark, ext_params, with_resolution in H. cbz H. rewrite Es, Eq in H. unfold calc_source_limb in H. cbz H. cbn [c_nlimb c_binsr c_binsth c_marr c_marth c_rres c_thres] in H. rewrite Q0 in H. cbn [res_bind] in H.
  destruct (define_regions _ _ _ _ _ _ _ _) as [[regions0|]|] eqn:Q in H; try discriminate. cbn [res_bind] in H. destruct (scan_regions _ _) as [[S0|]|] eqn:Q2 in H; try discriminate. cbn in H. injection H as <-. clear limb' mask' regions W HR HV HW.
  exists regions0. match type of Q2 with scan_regions (compute_for_range ?D _ _ _) _ = _ => destruct (total_sum D (fun r t => Cmod (lens_map (binary_lens s q) (polar r t) - w)%C) (process_r_limb rho u1 dc) 4 (limb_row rho u1)) with (nr := nr) (nt := nt) (gs := regions0) (v := S0) as (W & -> & HW) end; auto.
  { intros r t. apply dist2; auto. lra. }
  { intros r dth d v Hp. destruct (limb_weights _ _ _ _ _ _ _ Hp) as (ws & Lw & Ev & G). exists ws. auto. }
  exists W. split; [exact Q|]. split; [reflexivity|]. intros n j Hn Hj i Hi. specialize (HW n j Hn Hj). destruct (nth n regions0 no_sector) as [[rl rh] [tl th]]. unfold grid_point. specialize (HW i Hi). cbv beta in HW. rewrite !seq_map_nth in HW by lia.
  destruct HW as (I2 & k & HI & HW & K0 & K1 & K2). exists k. split; [exact K0|]. unfold seen_at, brightness_at. fold L in HI, K1, K2. set (z := fun i => polar (spaced rl rh nr j) (spaced tl th nt i)) in *. change (polar (spaced rl rh nr j) (spaced tl th nt (i + 2))) with (z (i + 2)%nat) in *. split.
  - rewrite HW. destruct (Rlt_dec (Cmod (lens_map L (z (i + 2)%nat) - w)%C) rho) as [Hd|Hd]; [|rewrite K2 by (apply Rnot_lt_le; exact Hd); ring].
    assert (Hd1 : Cmod (lens_map L (z (i + 2)%nat) - w)%C / rho < 1) by (apply (Rmult_lt_reg_r rho); auto; unfold Rdiv; rewrite Rmult_assoc, Rinv_l by lra; lra).
    unfold Is_limb_1st in HI. destruct (Rltb_spec (Cmod (lens_map L (z (i + 2)%nat) - w)%C / rho) 1); [|contradiction].
    destruct (Rleb _ _) in HI; [|discriminate]. injection HI as <-. f_equal. f_equal. unfold Rdiv. rewrite Rinv_mult. ring.
  - intros E1 E2 E3. destruct (Rlt_dec _ _) as [D1|] in E1; [|lra]. destruct (Rlt_dec _ _) as [D2|] in E2; [|lra]. destruct (Rlt_dec _ _) as [D3|] in E3; [|lra]. auto.
Qed.

(** with growing numbers of radii and angles, in whatever ratio, the values tend to the area of the part of the scan regions where
    the disc is seen, in units of the source's area *)
Theorem C72_limit_partial : forall solver nl p L tol cfg rho w, lens_given nl p L tol -> 0 < rho ->
  exists limb mask, limb_images (exact solver) L w rho tol (c_nlimb cfg) limb mask /\
  forall regions, define_regions limb mask rho (c_binsr cfg) (c_binsth cfg) (c_marr cfg) (c_marth cfg) nl = Ok (Some regions) ->
  exists areas, Forall2 (seen_area L w rho) regions areas /\
  forall eps, 0 < eps -> exists N, forall nr nt v, (N <= nr)%nat -> (N <= nt)%nat ->
    mag_uniform solver nl p (with_resolution cfg nr nt) rho w = Ok (Some v) -> Rabs (v - sumR areas / (PI * rho ^ 2)) < eps.
Proof.
  intros solver nl p L tol cfg rho w HL Hrho. destruct (uniform_sum solver nl p L tol cfg rho w HL) as (limb & mask & HI & HS). exists limb, mask. split; [exact HI|]. intros regions HR.
  exists (map (pint (seen_at L w rho)) regions). split; [apply (all_integrals (seen_at L w rho)); intros g; apply summable_seen; auto|]. set (areas := map (pint (seen_at L w rho)) regions). intros eps He. pose proof PI_RGT_0 as HP. assert (P : 0 < PI * rho ^ 2) by (apply Rmult_lt_0_compat; [auto|apply pow_lt; auto]).
  destruct (seen_sectors L w rho Hrho regions (eps * (PI * rho ^ 2)) ltac:(apply Rmult_lt_0_compat; auto)) as (N & H). exists (N + 2)%nat. intros nr nt v Hr Ht HV.
  destruct (HS nr nt v ltac:(lia) ltac:(lia) HV) as (regions' & W & HR' & -> & HW). rewrite HR in HR'. injection HR' as <-. specialize (H nr nt W ltac:(lia) ltac:(lia) HW). fold areas in H.
  replace (area_sum regions nr nt (nt - 3) W / rho ^ 2 / PI - sumR areas / (PI * rho ^ 2)) with ((area_sum regions nr nt (nt - 3) W - sumR areas) * / (PI * rho ^ 2)) by (field; split; lra).
  rewrite Rabs_mult, (Rabs_pos_eq (/ _)) by (left; apply Rinv_0_lt_compat; auto). apply (Rmult_lt_reg_r (PI * rho ^ 2)); auto. rewrite Rmult_assoc, Rinv_l, Rmult_1_r by lra. exact H.
Qed.
(** with limb darkening and two lenses, to the flux received from the scan regions, in units of the source's flux *)
Theorem C72_limb_limit_partial : forall solver s q p cfg u1 delta_c rho w, p_s p = Some s -> p_q p = Some q -> s <> 0 -> 0 < q -> 0 < rho ->
  let L := binary_lens s q in
  exists limb mask, limb_images (exact solver) L w rho 1e-6 (c_nlimb cfg) limb mask /\
  forall regions, define_regions limb mask rho (c_binsr cfg) (c_binsth cfg) (c_marr cfg) (c_marth cfg) 2 = Ok (Some regions) ->
  exists fluxes, Forall2 (seen_flux L w rho u1) regions fluxes /\
  forall eps, 0 < eps -> exists N, forall nr nt v, (N <= nr)%nat -> (N <= nt)%nat ->
    mag_limb_dark solver 2 p (with_resolution cfg nr nt) u1 delta_c rho w = Ok (Some v) -> Rabs (v - sumR fluxes / rho ^ 2) < eps.
Proof.
  intros solver s q p cfg u1 dc rho w Es Eq Hs Hq Hrho L. destruct (limb_sum solver s q p cfg u1 dc rho w Es Eq Hs Hq Hrho) as (limb & mask & HI & HS). exists limb, mask. split; [exact HI|]. intros regions HR.
  exists (map (pint (brightness_at L w rho u1)) regions). split; [apply (all_integrals (brightness_at L w rho u1)); intros g; apply summable_bright; auto|]. set (fluxes := map (pint (brightness_at L w rho u1)) regions). intros eps He. assert (P : 0 < rho ^ 2) by (apply pow_lt; auto).
  destruct (bright_sectors L w rho u1 Hrho regions (eps * rho ^ 2) ltac:(apply Rmult_lt_0_compat; auto)) as (N & H). exists (N + 2)%nat. intros nr nt v Hr Ht HV.
  destruct (HS nr nt v ltac:(lia) ltac:(lia) HV) as (regions' & W & HR' & -> & HW). rewrite HR in HR'. injection HR' as <-. specialize (H nr nt W ltac:(lia) ltac:(lia) HW). fold fluxes in H.
  replace (area_sum regions nr nt (nt - 4) W / rho ^ 2 - sumR fluxes / rho ^ 2) with ((area_sum regions nr nt (nt - 4) W - sumR fluxes) * / rho ^ 2) by (field; lra).
  rewrite Rabs_mult, (Rabs_pos_eq (/ _)) by (left; apply Rinv_0_lt_compat; auto). apply (Rmult_lt_reg_r (rho ^ 2)); auto. rewrite Rmult_assoc, Rinv_l, Rmult_1_r by lra. exact H.
Qed.

(** where the regions contain every point at which the disc is seen just once, this is the area of the images in units of
    the source's area: the magnification of the disc *)
Theorem C72_magnification_partial : forall solver nl p L tol cfg rho w, lens_given nl p L tol -> 0 < rho ->
  exists limb mask, limb_images (exact solver) L w rho tol (c_nlimb cfg) limb mask /\
  forall regions, define_regions limb mask rho (c_binsr cfg) (c_binsth cfg) (c_marr cfg) (c_marth cfg) nl = Ok (Some regions) ->
  List.Forall ordered_sector regions -> (forall r t, 0 < r -> off_edges regions r t -> off_masses L (polar r t) -> seen L w rho (polar r t) -> once regions r t) ->
  exists A, image_area L w rho A /\
  forall eps, 0 < eps -> exists N, forall nr nt v, (N <= nr)%nat -> (N <= nt)%nat ->
    mag_uniform solver nl p (with_resolution cfg nr nt) rho w = Ok (Some v) -> Rabs (v - A / (PI * rho ^ 2)) < eps.
Proof.
  intros solver nl p L tol cfg rho w HL Hrho. destruct (C72_limit_partial solver nl p L tol cfg rho w HL Hrho) as (limb & mask & HI & H). exists limb, mask. split; [exact HI|]. intros regions HR HO HC.
  destruct (H regions HR) as (areas & HA & HE). exists (sumR areas). split; [|exact HE]. apply (whole_plane (seen_at L w rho) L w rho regions areas); auto; [intros g; apply summable_seen; auto|]. intros z Hz. unfold seen_at. destruct (Rlt_dec _ _); [contradiction|reflexivity].
Qed.
Theorem C72_limb_magnification_partial : forall solver s q p cfg u1 delta_c rho w, p_s p = Some s -> p_q p = Some q -> s <> 0 -> 0 < q -> 0 < rho ->
  let L := binary_lens s q in
  exists limb mask, limb_images (exact solver) L w rho 1e-6 (c_nlimb cfg) limb mask /\
  forall regions, define_regions limb mask rho (c_binsr cfg) (c_binsth cfg) (c_marr cfg) (c_marth cfg) 2 = Ok (Some regions) ->
  List.Forall ordered_sector regions -> (forall r t, 0 < r -> off_edges regions r t -> off_masses L (polar r t) -> seen L w rho (polar r t) -> once regions r t) ->
  exists A, image_flux L w rho u1 A /\
  forall eps, 0 < eps -> exists N, forall nr nt v, (N <= nr)%nat -> (N <= nt)%nat ->
    mag_limb_dark solver 2 p (with_resolution cfg nr nt) u1 delta_c rho w = Ok (Some v) -> Rabs (v - A / rho ^ 2) < eps.
Proof.
  intros solver s q p cfg u1 dc rho w Es Eq Hs Hq Hrho L. destruct (C72_limb_limit_partial solver s q p cfg u1 dc rho w Es Eq Hs Hq Hrho) as (limb & mask & HI & H). exists limb, mask. split; [exact HI|]. intros regions HR HO HC.
  destruct (H regions HR) as (areas & HA & HE). exists (sumR areas). split; [|exact HE]. apply (whole_plane (brightness_at L w rho u1) L w rho regions areas); auto; [intros g; apply summable_bright; auto|]. intros z Hz. unfold brightness_at. destruct (Rlt_dec _ _); [contradiction|reflexivity].
Qed.

(** The limb images are grouped as C49 asks: the groups are separated and within the budgets, radii are off the edges of their
    groups except the smallest and the largest, the angular margin is at most half a bin, and the images do not go all the
    way round. *)
Definition well_grouped (nl : Z) (cfg : ext_cfg) (rho : R) (images : list C) (mask : list bool) : Prop := exists samples n0 nreal lo hi,
  Forall2 limb_sample (combine images mask) samples /\
  (nl = 2%Z /\ n0 = 10%nat /\ nreal = 5%nat \/ nl = 3%Z /\ n0 = 18%nat /\ nreal = 9%nat) /\
  (1 <= c_binsr cfg)%nat /\ (1 <= c_binsth cfg)%nat /\ INR (c_binsth cfg) <= 10000 /\ 0 < c_marr cfg * rho /\ 0 <= c_marth cfg /\
  separated samples lo hi (c_binsr cfg) (c_binsth cfg) (c_marr cfg * rho) n0 nreal /\
  (forall r, In r (map fst samples) -> r <> 0 -> r <> lo -> r <> hi -> exists s e, inside_group lo hi (c_binsr cfg) (map fst samples) r s e) /\
  hi < 1e5 /\ c_marth cfg * INR (c_binsth cfg) <= 180 /\ ~ group 0 (2 * PI) (c_binsth cfg) (map snd samples) 1 (c_binsth cfg).
Lemma grouped_regions nl cfg rho images mask : well_grouped nl cfg rho images mask ->
  exists regions, define_regions images mask rho (c_binsr cfg) (c_binsth cfg) (c_marr cfg) (c_marth cfg) nl = Ok (Some regions) /\ List.Forall ordered_sector regions /\ forall r t, at_most_once regions r t.
Proof.
  intros (samples & n0 & nreal & lo & hi & H1 & H2 & H3 & H4 & H5 & H6 & H7 & H8 & H9 & H10 & H11 & H12).
  destruct (define_regions_ordered _ _ _ _ _ _ _ _ _ _ _ _ _ H1 H2 H3 H4 H5 H6 H7 H8) as (out & D1 & D2). destruct (define_regions_apart _ _ _ _ _ _ _ _ _ _ _ _ _ H1 H2 H3 H4 H5 H6 H7 H8 H9 H10 H11) as (out' & E1 & E2).
  rewrite D1 in E1. injection E1 as <-. exists out. split; [exact D1|]. split.
  - apply Forall_forall. intros g Hg. specialize (D2 g Hg). destruct g as [[x y] [c d]]. exact D2.
  - intros r t [i k] [j l] Hi Hj A B. cbn [fst snd] in *. destruct (E2 i j (nth i out no_sector) (nth j out no_sector) r t k l) as [-> K].
    + apply nth_error_nth'; auto.
    + apply nth_error_nth'; auto.
    + apply inside_iff in A. exact A.
    + apply inside_iff in B. exact B.
    + rewrite K by exact H12. reflexivity.
Qed.
(** then no area is counted twice: the limit is at most the magnification *)
Theorem C72_not_above_partial : forall solver nl p L tol cfg rho w, lens_given nl p L tol -> 0 < rho ->
  exists limb mask, limb_images (exact solver) L w rho tol (c_nlimb cfg) limb mask /\
  (well_grouped nl cfg rho limb mask -> exists A a, image_area L w rho A /\ 0 <= a <= A /\
   forall eps, 0 < eps -> exists N, forall nr nt v, (N <= nr)%nat -> (N <= nt)%nat ->
     mag_uniform solver nl p (with_resolution cfg nr nt) rho w = Ok (Some v) -> Rabs (v - a / (PI * rho ^ 2)) < eps).
Proof.
  intros solver nl p L tol cfg rho w HL Hrho. destruct (C72_limit_partial solver nl p L tol cfg rho w HL Hrho) as (limb & mask & HI & H). exists limb, mask. split; [exact HI|]. intros HG.
  destruct (grouped_regions _ _ _ _ _ HG) as (regions & HR & HO & HM). destruct (H regions HR) as (areas & HA & HE).
  destruct (plane_most (seen_at L w rho) L w rho regions areas) as (R0 & A & A1 & A2 & A3); auto; [intros g; apply summable_seen; auto|intros z; destruct (seen_at_01 L w rho z) as [-> | ->]; lra|].
  exists A, (sumR areas). split; [exists R0; auto|]. split; [exact A3|exact HE].
Qed.
Theorem C72_limb_not_above_partial : forall solver s q p cfg u1 delta_c rho w, p_s p = Some s -> p_q p = Some q -> s <> 0 -> 0 < q -> 0 < rho -> 0 <= u1 <= 1 ->
  let L := binary_lens s q in
  exists limb mask, limb_images (exact solver) L w rho 1e-6 (c_nlimb cfg) limb mask /\
  (well_grouped 2 cfg rho limb mask -> exists A a, image_flux L w rho u1 A /\ 0 <= a <= A /\
   forall eps, 0 < eps -> exists N, forall nr nt v, (N <= nr)%nat -> (N <= nt)%nat ->
     mag_limb_dark solver 2 p (with_resolution cfg nr nt) u1 delta_c rho w = Ok (Some v) -> Rabs (v - a / rho ^ 2) < eps).
Proof.
  intros solver s q p cfg u1 dc rho w Es Eq Hs Hq Hrho Hu L. destruct (C72_limb_limit_partial solver s q p cfg u1 dc rho w Es Eq Hs Hq Hrho) as (limb & mask & HI & H). exists limb, mask. split; [exact HI|]. intros HG.
  destruct (grouped_regions _ _ _ _ _ HG) as (regions & HR & HO & HM). destruct (H regions HR) as (areas & HA & HE).
  destruct (plane_most (brightness_at L w rho u1) L w rho regions areas) as (R0 & A & A1 & A2 & A3); auto; [intros g; apply summable_bright; auto| |].
  { intros z. unfold brightness_at. destruct (Rlt_dec _ _); [|lra]. pose proof PI_RGT_0 as HP. set (x := sqrt _). assert (0 <= x) by apply sqrt_pos. apply Rmult_le_pos; [left; apply Rdiv_lt_0_compat; nra|nra]. }
  exists A, (sumR areas). split; [exists R0; auto|]. split; [exact A3|exact HE].
Qed.

(** masses 1/2 at -1 and 1, disc of radius 1/10 around i/2: one sector, the plane cut along the
    positive real axis up to some radius, contains every point where the disc is seen just once *)
Example C72_case : let L := binary_lens 2 1 in let w : C := (0, 1/2) in
  exists R0, let gs : list sector := [((0, R0), (0, 2 * PI))] in
    List.Forall ordered_sector gs /\ (forall r t, 0 < r -> off_edges gs r t -> off_masses L (polar r t) -> seen L w (1/10) (polar r t) -> once gs r t).
Proof.
  intros L w. destruct (far_dark L w (1/10) ltac:(lra)) as (R0 & HR & HD). exists R0. pose proof PI_RGT_0 as HP. split; [constructor; [split; lra|constructor]|]. intros r t Hr _ HO HS.
    assert (Rr : r < R0). { apply Rnot_le_lt. intros Q. apply (HD (polar r t)); auto. replace (Cmod (polar r t)) with r; auto. symmetry. unfold Cmod, polar. cbn [fst snd]. replace ((r * cos t) ^ 2 + (r * sin t) ^ 2) with (r ^ 2 * ((sin t)² + (cos t)²)) by (unfold Rsqr; ring). rewrite sin2_cos2, Rmult_1_r. apply sqrt_pow2. lra. }
    assert (NR : forall k : Z, t + 2 * PI * IZR k <> 0).
    { intros k E. rewrite <- (polar_turn r t k), E in HS, HO. unfold polar in HS, HO. rewrite sin_0, cos_0, Rmult_0_r, Rmult_1_r in HS, HO. unfold seen in HS.
      assert (r <> 1). { intros ->. apply (HO (1 / (1 + 1)) (RtoC 1)); [|reflexivity]. unfold L, binary_lens. right. left. f_equal. f_equal. field. }
      assert (A := Rle_trans _ _ _ (Rmax_r _ _) (Rmax_Cmod (lens_map L (r, 0) - w)%C)). replace (snd (lens_map L (r, 0) - w)%C) with (- (1/2)) in A. { rewrite Rabs_Ropp, Rabs_pos_eq in A by lra. lra. }
      unfold L, w, lens_map, deflection, binary_lens. simpl. field. split; [intros Q; apply H; nra|nra]. }
    assert (FL : exists k : Z, 0 < t + 2 * PI * IZR k < 2 * PI).
    { destruct (base_Int_part (t / (2 * PI))) as [B1 B2]. exists (- Int_part (t / (2 * PI)))%Z. specialize (NR (- Int_part (t / (2 * PI)))%Z). rewrite opp_IZR in *. set (n := IZR (Int_part (t / (2 * PI)))) in *. set (x := t / (2 * PI)) in *. assert (Et : t = x * (2 * PI)) by (unfold x; field; lra). rewrite Et in *. assert (n <> x). { intros E. apply NR. rewrite E. ring. } split; nra. }
    destruct FL as (k & Hk). exists (O, k). split.
    + cbn. split; [lia|]. split; lra.
    + intros [i k'] [Hi Hin]. cbn [fst snd] in *. cbn [length] in Hi. assert (i = O) by lia. subst i. cbn in Hin. destruct Hin as [_ Hin]. f_equal. assert (D : IZR k - IZR k' < 1 /\ IZR k' - IZR k < 1) by nra. destruct D as [D1 D2]. rewrite <- minus_IZR in D1, D2. apply lt_IZR in D1. apply lt_IZR in D2. lia.
Qed.
(** two radial groups, one of which crosses angle 0, with a masked slot *)
Example C72_grouped_case : well_grouped 2 (mkcfg 500 500 200 4 4 (1 / 5) (1 / 2)) 1 [polar 1 (PI / 4); polar 1.1 (PI / 4); RtoC 5; polar 1.9 (7 * PI / 4); polar 2 (PI / 4)] [true; true; false; true; true].
Proof.
  exists [(1, PI / 4); (1.1, PI / 4); (0, 0); (1.9, 7 * PI / 4); (2, PI / 4)], 10%nat, 5%nat, 1, 2. pose proof PI_RGT_0 as HP. destruct samples0_apart as [S1 S2]. cbn [c_binsr c_binsth c_marr c_marth].
  split; [repeat constructor; cbn; lra|]. split; [auto|]. split; [lia|]. split; [lia|]. split; [cbn; lra|]. split; [lra|]. split; [lra|]. split; [rewrite Rmult_1_r; exact samples0_separated|]. split; [exact S1|]. split; [lra|]. split; [cbn; lra|exact S2].
Qed.
Print Assumptions C72_magnification_partial.
Print Assumptions C72_limb_magnification_partial.
Print Assumptions C72_not_above_partial.
Print Assumptions C72_limb_not_above_partial.
