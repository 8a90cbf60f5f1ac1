(** The jax fast-magnification classes on grids of two, four and six points: property C80, continued. *)
From Coq Require Import Reals List Bool Arith ZArith Lia Lra.
From Coquelicot Require Import Coquelicot.
From Verif Require Import Base_R Base_C Base_List M_Fftlog M_Special M_MagFft M_MagCurve M_LimbCurve S_Fftlog S_MagCurve P_Fftlog P_FftConv P_HankelConv P_MagCurve P_MagSamples P_SmallGrid P_Profile2 Thm_MagCurve Thm_LimbCurve.
Import ListNotations.
Local Open Scope R_scope.

Lemma Apk_tiny g lo hi N : lo < hi -> Nat.even N = true -> (2 <= N)%nat -> (N / 8 <> 1)%nat ->
  exists P, length P = N /\ init_Apk g lo hi N 0 = Ok (map Some (rgeom (0.5 / Rpower 10 hi) (Rpower 10 ((hi - lo) / INR (N - 1))) N), map Some P).
Proof.
  intros H Ev HN2 Hc. set (r := Rpower 10 ((hi - lo) / INR (N - 1))). assert (Hr : 0 < r) by apply Rpower_pos. assert (Hr1 : r <> 1) by (apply ratio_neq1; auto).
  assert (Hx : 0 < Rpower 10 lo) by apply Rpower_pos.
  destruct (hankel_extrap g 0.25 r N 0 0 (Rpower 10 lo) (map u2Au (logspace lo hi N))) as (Q & LQ & E); auto.
  - rewrite !Nat.add_0_r. exact Ev.
  - rewrite cut_default, !Nat.add_0_r. exact Hc.
  - rewrite map_length, logspace_len. reflexivity.
  - intros i Hi. rewrite (nth_map_lt _ _ i 0) by (rewrite logspace_len; auto). apply u2Au_pos. apply (logspace_pos lo hi N). apply nth_In. rewrite logspace_len. auto.
  - exists (map (fun a => a * 2 * PI) Q). split; [rewrite map_length; auto|]. unfold init_Apk. cbv zeta. replace (map (fun u => Some (u2Au u)) (logspace lo hi N)) with (map Some (map u2Au (logspace lo hi N))) by (rewrite map_map; reflexivity).
    rewrite logspace_geom at 1. fold r. rewrite <- geom_map_Some, E. cbn [bind]. rewrite geom_map_Some. do 2 f_equal; [|rewrite !map_map; reflexivity].
    do 2 f_equal. f_equal. pose proof (logspace_last lo hi N HN2) as Lst. rewrite logspace_geom, rgeom_at in Lst by lia. exact Lst.
Qed.
Lemma kernel_cut g r n npad : 0 < r -> r <> 1 -> (2 <= n)%nat -> Nat.even n = true -> ((n + 2 * npad) / 8 <> 1)%nat -> exists kappa, kernel_of g r n npad kappa.
Proof.
  intros Hr Hr1 Hn Hc H16. destruct (hankel_conv g 0.25 r n npad Hr Hr1 Hn ltac:(auto)) as [kappa HK].
  { rewrite cut_default. unfold half_size. assert (E : Nat.even (n + 2 * npad) = true) by (rewrite Nat.even_add, Hc, Nat.even_mul; reflexivity). apply Nat.even_spec in E. destruct E as (m & E). rewrite E in *. replace (2 * m / 2)%nat with m by (rewrite (Nat.mul_comm 2 m), Nat.div_mul; lia). exact H16. }
  exists kappa. intros x0 f Hx Hf x y. unfold x, y. rewrite <- !geom_map_Some. rewrite (HK x0 f Hx Hf). do 3 f_equal. unfold rgeom at 2. rewrite map_map. apply map_ext. intros j. apply sumR_ext. intros i Hi. apply in_seq in Hi. rewrite rgeom_at by lia. reflexivity.
Qed.
(** the table: numbers, or NaN throughout, as the padded length decides *)
Lemma ext_tiny g s lo hi N : lo < hi -> (2 <= N)%nat -> Nat.even N = true -> (3 * N / 8 <> 1)%nat ->
  exists K, K <> [] /\ wsorted K /\ init_Aext0 g (prof s) lo hi N N = Ok (lift K).
Proof.
  intros H HN Hc H16. set (r := Rpower 10 ((hi - lo) / INR (N - 1))). assert (Hr : 0 < r) by apply Rpower_pos. assert (Hr1 : r <> 1) by (apply ratio_neq1; auto).
  destruct (kernel_cut g r N N Hr Hr1 HN Hc) as [kappa HK]; [replace (N + 2 * N)%nat with (3 * N)%nat by lia; exact H16|].
  unfold init_Aext0. cbv zeta. set (x := logspace lo hi N). set (c := map (fun x => x * (s (x * 1) * exp (- (x / 100) ^ 2))) x).
  match goal with |- context [hankel _ _ _ _ _ ?l _ _ _] => assert (Ec : l = map Some c) end.
  { rewrite prof_real. unfold c. clearbody x. clear. induction x as [|a x IH]; [reflexivity|]. cbn [map combine]. rewrite IH. reflexivity. }
  assert (Ex : x = rgeom (Rpower 10 lo) r N) by (apply logspace_geom). rewrite Ec, Ex. rewrite (HK (Rpower 10 lo) c) by (try apply Rpower_pos; unfold c, x; rewrite map_length, logspace_len; auto).
  cbn [bind]. rewrite knots_real.
  match goal with |- context [combine ?a ?b] => exists (combine a b); set (uu := a); set (vv := b) end.
  assert (Lu : length uu = N) by apply rgeom_len. assert (Lv : length vv = N) by (unfold vv; rewrite map_length, rgeom_len; reflexivity).
  assert (Hr2 : 1 < r). { unfold r. rewrite <- (Rpower_O 10) by lra. apply Rpower_lt; try lra. apply Rdiv_lt_0_compat; [lra|]. apply lt_0_INR. lia. }
  assert (Is : isorted (combine uu vv)). { apply combine_isorted; [congruence|]. apply rgeom_increasing; auto. apply Rdiv_lt_0_compat; [lra|]. apply Rmult_lt_0_compat; apply Rpower_pos. }
  split; [destruct uu, vv; simpl in *; try lia; discriminate|]. split; [|reflexivity].
  assert (W : forall L, isorted L -> wsorted L). { clear. induction L as [|p L IH]; intros Is; [exact I|]. destruct L as [|q L]; [exact I|]. destruct Is as [H1 H2]. split; [left; auto|apply IH; auto]. }
  exact (W _ Is).
Qed.
Lemma init_size x q npad s : length q = length x -> Nat.even (length x) = true -> fftlog_init x q 0 0 npad = Ok s -> f_N s = (length x + 2 * npad)%nat.
Proof.
  intros Lq Ev. unfold fftlog_init. destruct (length x <? 2)%nat; [discriminate|]. rewrite !extrap0. cbn [bind]. rewrite Lq, Nat.eqb_refl. cbn [negb].
  assert (O : Nat.odd (length x + 2 * npad) = false) by (rewrite <- Nat.negb_even, Nat.even_add, Ev, Nat.even_mul; reflexivity).
  destruct (npad =? 0)%nat eqn:Ep.
  - apply Nat.eqb_eq in Ep. subst npad. cbn [bind]. rewrite Nat.add_0_r in *. rewrite O. intros E. injection E as <-. cbn. lia.
  - destruct (log_extrap x npad npad) as [x2|]; [|discriminate]. cbn [bind]. rewrite O. intros E. injection E as <-. reflexivity.
Qed.
Lemma hankel_nan_pad g nu w w' n x fx fx' npad y F : length fx = length x -> length fx' = length x -> Nat.even (length x) = true -> hankel g nu w n x fx 0 0 npad = Ok (y, F) ->
  cut_of w' (length x + 2 * npad) = 1%nat -> hankel g nu w' n x fx' 0 0 npad = Ok (y, repeat None (length F)).
Proof.
  intros L L' Hev H Hcut. unfold hankel in *. set (q := map _ (combine x fx)) in H. set (q' := map _ (combine x fx')).
  assert (Lq : length q = length x) by (unfold q; rewrite map_length, combine_length; lia). assert (Lq' : length q' = length x) by (unfold q'; rewrite map_length, combine_length; lia).
  destruct (fftlog_init x q 0 0 npad) as [s|] eqn:Es; [|discriminate]. cbn [bind] in H. pose proof (init_size _ _ _ _ Lq Hev Es) as EN0. destruct (init_same x q q' npad s Lq Lq' Es) as (s' & -> & Ex & EN & Eh & El & _). cbn [bind].
  unfold fftlog in *. injection H as Hy HF.
  assert (Ey : slice s' (y_array (n - 0.5) s') = y) by (rewrite <- Hy; unfold slice, y_array; rewrite Ex, EN, Eh, El; reflexivity).
  assert (EF : Fy_array g nu w' (n - 0.5) s' = repeat None (f_N s')) by (apply one_cut_nan; rewrite EN, EN0; exact Hcut).
  rewrite Ey. do 2 f_equal. rewrite EF. unfold slice. rewrite skipn_repeat, firstn_repeat, combine_none. f_equal. rewrite <- HF, map_length, combine_length, Hy. f_equal. unfold slice. rewrite firstn_length, skipn_length, Fy_length, EN, El, Eh. reflexivity.
Qed.
Lemma ext_four g s lo hi : lo < hi -> exists u, length u = 4%nat /\ init_Aext0 g (prof s) lo hi 4 4 = Ok (map (fun u => (u, None)) u).
Proof.
  intros H. set (r := Rpower 10 ((hi - lo) / INR (4 - 1))). assert (Hr : 0 < r) by apply Rpower_pos. assert (Hr1 : r <> 1) by (apply ratio_neq1; auto).
  destruct (hankel_conv g 0 r 4 4 Hr Hr1 ltac:(lia) ltac:(right; lia)) as (kappa & HK).
  { unfold cut_of. rewrite Rmult_0_l. unfold Rdiv. rewrite Rmult_0_l. rewrite <- (Int_part_spec 0 0); [discriminate|lra]. }
  unfold init_Aext0. cbv zeta. set (x := logspace lo hi 4). assert (Lx : length x = 4%nat) by apply logspace_len. assert (Ex : x = rgeom (Rpower 10 lo) r 4) by apply logspace_geom.
  match goal with |- context [hankel _ _ _ _ _ ?l _ _ _] => set (f := l) end. assert (Lf : length f = 4%nat) by (unfold f; rewrite prof_real, map_length, combine_length, !map_length, Lx; reflexivity). clearbody f.
  pose proof (HK (Rpower 10 lo) [0; 0; 0; 0] (Rpower_pos _ _) eq_refl) as E. cbv zeta in E. rewrite !geom_map_Some in E. rewrite <- Ex in E. set (y := rgeom _ r 4) in E. assert (Ly : length y = 4%nat) by apply rgeom_len.
  match type of E with _ = Ok (?y, ?F) => assert (T : hankel g 1.5 0.25 0 (map Some x) f 0 0 4 = Ok (y, repeat None (length F))) end.
  { apply (hankel_nan_pad g 1.5 0 0.25 0 (map Some x) (map Some [0; 0; 0; 0]) f 4 _ _); [rewrite !map_length, Lx; reflexivity|rewrite map_length, Lx; exact Lf|rewrite map_length, Lx; reflexivity|exact E|]. rewrite map_length, Lx, cut_default. reflexivity. }
  rewrite T. cbn [bind]. exists y. split; [exact Ly|]. rewrite !map_length, seq_length. clear - Ly. destruct y as [|a [|b [|c [|d [|]]]]]; try discriminate. reflexivity.
Qed.
Lemma interp_all_nan u x : interp_jax x (map (fun u => (u, None)) u) None = None.
Proof.
  destruct u as [|a u]; [reflexivity|]. unfold interp_jax. cbn [map]. destruct (Rltb x a); [reflexivity|]. destruct (Rltb _ x); [reflexivity|].
  change ((a, None) :: map (fun u => (u, None)) u) with (map (fun u : R => (u, @None R)) (a :: u)). revert a. induction u as [|b u IH]; intros a; [reflexivity|].
  cbn [map seg_jax]. destruct (_ || _)%bool; [destruct (Reqb b a); reflexivity|]. apply IH.
Qed.
Lemma class_prof J1 J2 g15 g2 ek ee c : c = disk_class J1 \/ c = limb1_class g15 ek ee \/ c = limb2_class J2 g2 -> exists s, (forall k rho, m_sk c k rho = Some (prof s k rho)) /\ forall rho, exists a0, m_A0 c rho = Ok (Some a0).
Proof.
  intros [->|[->| ->]]; [exists (s_disk J1)|exists (s_limb1 g15)|exists (s_limb2 J2 g2)]; (split; [intros k rho; cbn; now rewrite ?disk_prof, ?limb1_prof, ?limb2_prof|intros rho; eexists; reflexivity]).
Qed.
(** large sources on any grid whose spectrum is a number *)
Lemma large_number g s lo hi N P a0 u rho : lo < hi -> (2 <= N)%nat -> length P = N -> 0 < rho ->
  exists v, A_large interp_jax trunc_jax g (prof s) (fun _ => Some a0) (map Some (rgeom (0.5 / Rpower 10 hi) (Rpower 10 ((hi - lo) / INR (N - 1))) N)) (map Some P) (Rabs u) rho = Ok (Some v).
Proof.
  intros H HN LP Hrho. destruct (kernel_exists g _ N 512 (Hr lo hi N) (Hr1 lo hi N H HN) HN ltac:(right; lia) ltac:(lia)) as [kappa HK].
  pose proof (samples_k g lo hi N H HN kappa HK s P rho Hrho LP) as F. unfold A_large. rewrite F. cbn [bind]. destruct (Rltb 0 (Rabs u)); [|eexists; reflexivity].
  match goal with |- context [trunc_jax (map Some ?x) (map Some ?y)] => destruct (trunc_number x y) as (Kn & -> & Ln) end.
  rewrite map_length, logspace_len, Nat.min_id in Ln. destruct (interp_jax_number Kn (lg (Rabs u)) 1) as (v & ->); [intros ->; cbn in Ln; lia|]. exists v. reflexivity.
Qed.
Lemma samples_ok g s lo hi N P rho : lo < hi -> (2 <= N)%nat -> length P = N -> 0 < rho ->
  exists p, fft_samples g (prof s) (map Some (rgeom (0.5 / Rpower 10 hi) (Rpower 10 ((hi - lo) / INR (N - 1))) N)) (map Some P) rho = Ok p.
Proof.
  intros H HN LP Hrho. destruct (kernel_exists g _ N 512 (Hr lo hi N) (Hr1 lo hi N H HN) HN ltac:(right; lia) ltac:(lia)) as [kappa HK]. eexists. exact (samples_k g lo hi N H HN kappa HK s P rho Hrho LP).
Qed.

(** ** C80, two and six points: a number for every impact parameter and radius *)
Theorem C80_jax_tiny_grid_partial : forall g J1 J2 g15 g2 ellipk ellipe c lo hi N, c = disk_class J1 \/ c = limb1_class g15 ellipk ellipe \/ c = limb2_class J2 g2 ->
  lo < hi -> N = 2%nat \/ N = 6%nat ->
  exists st, construct_jax g c lo hi N = Ok st /\ forall rs us u rho, 0 < us -> 0 < rho -> exists v, eval_jax g c rs us st u rho = Ok (Some v).
Proof.
  intros g J1 J2 g15 g2 ek ee c lo hi N Hc H HN. destruct (class_prof _ _ _ _ _ _ _ Hc) as (s & X1 & X2).
  assert (HN2 : (2 <= N)%nat) by (destruct HN; lia). assert (Ev : Nat.even N = true) by (destruct HN as [-> | ->]; reflexivity).
  destruct (Apk_tiny g lo hi N H Ev HN2 ltac:(destruct HN as [-> | ->]; discriminate)) as (P & LP & E). destruct (ext_tiny g s lo hi N H HN2 Ev ltac:(destruct HN as [-> | ->]; discriminate)) as (K & Kne & Ks & EK).
  eexists. split; [rewrite (jax_same g c s) by auto; unfold init_jax; rewrite E; cbn [bind]; rewrite EK; reflexivity|]. intros rs us u rho Hu Hrho. destruct (X2 rho) as (a0 & HA).
  rewrite (eval_jax_same g c s a0) by (auto; apply samples_ok; auto). unfold A_jax, A_curve. cbv zeta. cbn [c_aext c_k c_apk]. destruct (Rltb rho rs); [|apply large_number; auto].
  rewrite (small_val interp_jax K us (Rabs u) rho) by (auto; intros x w Er; apply interp_jax_val; auto). destruct (Rltb_spec (Rabs u) (us * rho)) as [|L]; [eexists; reflexivity|]. unfold A_point_n. assert (0 < us * rho) by (apply Rmult_lt_0_compat; auto). destruct (Reqb_spec (Rabs u) 0); [lra|]. eexists; reflexivity.
Qed.
Print Assumptions C80_jax_tiny_grid_partial.
(** four points: large sources get a number, small sources are NaN near the lens, because the padded table has twelve points *)
Theorem C80_jax_four_points_refuted : forall g J1 J2 g15 g2 ellipk ellipe c lo hi, c = disk_class J1 \/ c = limb1_class g15 ellipk ellipe \/ c = limb2_class J2 g2 -> lo < hi ->
  exists st, construct_jax g c lo hi 4 = Ok st /\ forall rs us u rho, 0 < rho -> (rs <= rho -> exists v, eval_jax g c rs us st u rho = Ok (Some v)) /\
  (rho < rs -> Rabs u < us * rho -> eval_jax g c rs us st u rho = Ok None).
Proof.
  intros g J1 J2 g15 g2 ek ee c lo hi Hc H. destruct (class_prof _ _ _ _ _ _ _ Hc) as (s & X1 & X2).
  destruct (Apk_tiny g lo hi 4 H eq_refl ltac:(lia) ltac:(discriminate)) as (P & LP & E). destruct (ext_four g s lo hi H) as (K & LK & EK).
  eexists. split; [rewrite (jax_same g c s) by auto; unfold init_jax; rewrite E; cbn [bind]; rewrite EK; reflexivity|]. intros rs us u rho Hrho. destruct (X2 rho) as (a0 & HA).
  rewrite (eval_jax_same g c s a0) by (auto; apply samples_ok; auto). unfold A_jax, A_curve. cbv zeta. cbn [c_aext c_k c_apk]. split.
  - intros L. destruct (Rltb_spec rho rs); [lra|]. apply large_number; auto.
  - intros L Hu. destruct (Rltb_spec rho rs); [|lra]. unfold A_small. destruct (Rltb_spec (Rabs u) (us * rho)); [|lra]. f_equal.
    replace (snd (last (map (fun u0 => (u0, None)) K) (0, None))) with (@None R); [rewrite interp_all_nan; reflexivity|]. clear. induction K as [|a [|b K] IH]; try reflexivity. exact IH.
Qed.
Print Assumptions C80_jax_four_points_refuted.
(** the default switches on four points: a source of radius 1e-5 at 1e-5 is NaN, a source of radius 1/10 at any impact parameter is not *)
Example C80_tiny_case : forall g J1, exists st, construct_jax g (disk_class J1) (-6) 3 4 = Ok st /\ eval_jax g (disk_class J1) 0.0001 10 st 0.00001 0.00001 = Ok None /\
  exists v, eval_jax g (disk_class J1) 0.0001 10 st 7 0.1 = Ok (Some v).
Proof.
  intros g J1. destruct (C80_jax_four_points_refuted g J1 (fun _ => 0) 0 0 (fun _ => 0) (fun _ => 0) (disk_class J1) (-6) 3 ltac:(auto) ltac:(lra)) as (st & E & W). exists st. split; [exact E|]. split.
  - apply W; [lra|lra|rewrite Rabs_pos_eq; lra].
  - apply W; lra.
Qed.
