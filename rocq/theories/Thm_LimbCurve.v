(** Which source-profile classes can be constructed and evaluated: property C80. *)
From Coq Require Import Reals List Bool Arith ZArith Lia Lra.
From Coquelicot Require Import Coquelicot.
From Verif Require Import Base_R Base_C Base_List M_Fftlog M_Special M_MagFft M_MagCurve M_ProfileOrder M_LimbCurve S_MagCurve P_MagCurve P_HankelConv P_MagSamples P_SmallGrid P_Profile2 Thm_MagCurve.
Import ListNotations.
Local Open Scope R_scope.

Lemma ext_same g sk lo hi N pad : init_Aext0 g (fun _ _ => sk (map Some (logspace lo hi N)) 1) lo hi N pad = init_Aext0 g sk lo hi N pad.
Proof. reflexivity. Qed.
Lemma samples_same g sk k apk rho : fft_samples g (fun _ _ => sk k rho) k apk rho = fft_samples g sk k apk rho.
Proof. reflexivity. Qed.
Lemma np_same g c s lo hi N : (forall k rho, m_sk c k rho = Some (prof s k rho)) -> construct_np g c lo hi N = init_np g (prof s) lo hi N.
Proof. intros H. unfold construct_np, init_np. rewrite H. cbn [times]. now rewrite (ext_same g (prof s)). Qed.
Lemma jax_same g c s lo hi N : (forall k rho, m_sk c k rho = Some (prof s k rho)) -> construct_jax g c lo hi N = init_jax g (prof s) lo hi N.
Proof. intros H. unfold construct_jax, init_jax. rewrite H. cbn [times]. now rewrite (ext_same g (prof s)). Qed.
Lemma eval_np_same g c s a0 rs us st u rho : (forall k rho, m_sk c k rho = Some (prof s k rho)) -> m_A0 c rho = Ok (Some a0) ->
  eval_np g c rs us st u rho = A_np g (prof s) (fun _ => Some a0) rs us st u rho.
Proof. intros H H0. unfold eval_np, A_np, A_curve, A_large. cbv zeta. destruct (Rltb rho rs); [reflexivity|]. rewrite H, H0. cbn [times]. rewrite (samples_same g (prof s)). destruct (fft_samples g (prof s) (c_k st) (c_apk st) rho) as [(uf & af)|]; reflexivity. Qed.
Lemma eval_jax_same g c s a0 rs us st u rho : (forall k rho, m_sk c k rho = Some (prof s k rho)) -> m_A0 c rho = Ok (Some a0) ->
  (exists p, fft_samples g (prof s) (c_k st) (c_apk st) rho = Ok p) ->
  eval_jax g c rs us st u rho = A_jax g (prof s) (fun _ => Some a0) rs us st u rho.
Proof.
  intros H H0 ((uf & af) & E). unfold eval_jax, A_jax, A_curve, A_large. cbv zeta. rewrite H, H0. cbn [bind times]. rewrite (samples_same g (prof s)). rewrite E. cbn [bind times]. destruct (Rltb rho rs); reflexivity.
Qed.
Lemma value_number lo hi N kappa P K s a0 rs us u rho : 0 < rho -> 0 < us -> exists v, value lo hi N kappa P K s (fun _ => Some a0) rs us u rho = Some v.
Proof.
  intros Hr Hu. unfold value. destruct (Rltb rho rs).
  - destruct (Rltb_spec (Rabs u) (us * rho)) as [|L]; [eexists; reflexivity|]. unfold A_point_n. assert (0 < us * rho) by (apply Rmult_lt_0_compat; auto). destruct (Reqb_spec (Rabs u) 0); [lra|]. eexists; reflexivity.
  - destruct (Reqb u 0); eexists; reflexivity.
Qed.
(** profiles of the classes as functions of [k rho] *)
Definition s_disk (J1 : R -> R) (x : R) : R := if Rltb 0 x then 2 * J1 x / x else 1.
Definition s_limb (gam : R -> R) (jn : R -> R -> R) (n : nat) (x : R) : R :=
  if Rltb 0 x then Rpower 2 (1 + INR n / 2) * gam (1 + INR n / 2) * jn (1 + INR n / 2) x / Rpower x (1 + INR n / 2) * (1 + INR n / 2) else 1 / (INR n + 2).
Definition s_limb1 (gam : R) (x : R) : R := if Rltb 0 x then gam / (sqrt PI / 2) * (3 * (sin x - x * cos x) / x ^ 3) else 1 / (1 + 2).
Definition s_limb2 (J2 : R -> R) (gam : R) (x : R) : R := if Rltb 0 x then 2 ^ 2 * gam * J2 x / x ^ 2 * 2 else 1 / (2 + 2).
Lemma sk_prof (f : R -> num) (s : R -> R) k rho : (forall x, f x = Some (s x)) -> per_k f k rho = prof s k rho.
Proof. intros H. unfold prof, per_k. apply map_ext. intros [x|]; cbn; [apply H|reflexivity]. Qed.
Lemma disk_prof J1 k rho : sk_disk J1 k rho = prof (s_disk J1) k rho.
Proof. apply sk_prof. intros x. unfold s_disk. destruct (Rltb 0 x); reflexivity. Qed.
Lemma limb_prof gam jn n k rho : sk_limb gam jn n k rho = prof (s_limb gam jn n) k rho.
Proof. apply sk_prof. intros x. unfold s_limb. destruct (Rltb 0 x); reflexivity. Qed.
Lemma limb1_prof gam k rho : sk_limb1 gam k rho = prof (s_limb1 gam) k rho.
Proof. apply sk_prof. intros x. unfold s_limb1. destruct (Rltb_spec 0 x); [now rewrite root_value|reflexivity]. Qed.
Lemma limb2_prof J2 gam k rho : sk_limb2 J2 gam k rho = prof (s_limb2 J2 gam) k rho.
Proof. apply sk_prof. intros x. unfold s_limb2. destruct (Rltb 0 x); reflexivity. Qed.

(** a class whose [sk] is an array can be constructed; where its [A0] is a number every impact parameter gets a number *)
Lemma np_works g c s lo hi N : (forall k rho, m_sk c k rho = Some (prof s k rho)) -> lo < hi -> Nat.even N = true -> (2 <= N)%nat ->
  exists st, construct_np g c lo hi N = Ok st /\ forall rs us u rho, 0 < us -> 0 < rho ->
    (forall a0, m_A0 c rho = Ok (Some a0) -> exists v, eval_np g c rs us st u rho = Ok (Some v)) /\
    (rho < rs -> exists v, eval_np g c rs us st u rho = Ok (Some v)) /\
    (rs <= rho -> forall e, m_A0 c rho = Raise e -> eval_np g c rs us st u rho = Raise e) /\ (rs <= rho -> m_A0 c rho = Ok None -> eval_np g c rs us st u rho = Raise TypeError).
Proof.
  intros Hs H Ev HN. destruct (np_curve g lo hi N H Ev HN) as (P & kappa & HK & LP & V). destruct (V s) as (K & Kne & Ks & Ei & Va). eexists. split; [rewrite (np_same g c s) by auto; exact Ei|]. intros rs us u rho Hu Hr.
  set (st := mkcurve _ _ _) in *.
  assert (F : exists p, fft_samples g (prof s) (c_k st) (c_apk st) rho = Ok p).
  { specialize (Va (fun _ => None) rho us u rho Hr). unfold A_np, A_curve, A_large in Va. cbv zeta in Va. destruct (Rltb_spec rho rho) as [|_]; [lra|]. destruct (fft_samples g (prof s) (c_k st) (c_apk st) rho) as [p|]; [exists p; reflexivity|discriminate]. }
  destruct F as ((uf & af) & F). split; [|split; [|split]].
  - intros a0 HA. rewrite (eval_np_same g c s a0) by auto. rewrite Va by auto. destruct (value_number lo hi N kappa P K s a0 rs us u rho Hr Hu) as (v & ->). exists v. reflexivity.
  - intros L. assert (E : eval_np g c rs us st u rho = A_np g (prof s) (fun _ => Some 0) rs us st u rho). { unfold eval_np, A_np, A_curve. cbv zeta. destruct (Rltb_spec rho rs); [reflexivity|lra]. }
    rewrite E, Va by auto. destruct (value_number lo hi N kappa P K s 0 rs us u rho Hr Hu) as (v & ->). exists v. reflexivity.
  - intros L e HA. unfold eval_np. cbv zeta. destruct (Rltb_spec rho rs); [lra|]. rewrite Hs. cbn [times]. rewrite (samples_same g (prof s)). rewrite F. cbn [bind]. rewrite HA. reflexivity.
  - intros L HA. unfold eval_np. cbv zeta. destruct (Rltb_spec rho rs); [lra|]. rewrite Hs. cbn [times]. rewrite (samples_same g (prof s)). rewrite F. cbn [bind]. rewrite HA. reflexivity.
Qed.

Lemma seg_jax_number : forall K x, K <> [] -> exists v, seg_jax x (lift K) = Some v.
Proof.
  intros K x. induction K as [|(x1 & f1) K IH]; [congruence|]. intros _. destruct K as [|(x2 & f2) K]; [exists f1; reflexivity|].
  cbn [lift map seg_jax fst snd] in *. destruct (_ || _)%bool; [destruct (Reqb x2 x1); eexists; reflexivity|]. apply IH. discriminate.
Qed.
Lemma interp_jax_number K x r : K <> [] -> exists v, interp_jax x (lift K) (Some r) = Some v.
Proof.
  intros H. destruct (seg_jax_number K x H) as (v & E). destruct K as [|(x0 & f0) K]; [congruence|]. unfold interp_jax. cbn [lift map fst snd] in *. destruct (Rltb x x0); [eexists; reflexivity|]. destruct (Rltb _ x); [eexists; reflexivity|]. exists v. exact E.
Qed.
Lemma trunc_number u a : exists K, log_knots (trunc_jax (map Some u) (map Some a)) = lift K /\ length K = min (length u) (length a).
Proof.
  exists (map (fun '(u, a) => if Rltb u 100 then (lg u, a) else (lg 100, 1)) (combine u a)). split; [|rewrite map_length; apply combine_length].
  unfold log_knots, trunc_jax, lift. revert a. induction u as [|x u IH]; intros [|y a]; try reflexivity. cbn [map combine]. rewrite IH. destruct (Rltb x 100); reflexivity.
Qed.

(** ** C80 *)
(** numpy: the disc and the limb-darkening orders 1 and 2 give a number for every impact parameter and radius *)
Theorem C80_numpy_partial : forall g J1 gam jn ellipk ellipe c lo hi N, c = disk_class J1 \/ c = limb_class gam jn ellipk ellipe 1 \/ c = limb_class gam jn ellipk ellipe 2 ->
  lo < hi -> Nat.even N = true -> (2 <= N)%nat ->
  exists st, construct_np g c lo hi N = Ok st /\ forall rs us u rho, 0 < us -> 0 < rho -> exists v, eval_np g c rs us st u rho = Ok (Some v).
Proof.
  intros g J1 gam jn ek ee c lo hi N Hc H Ev HN. assert (X : exists s, (forall k rho, m_sk c k rho = Some (prof s k rho)) /\ forall rho, exists a0, m_A0 c rho = Ok (Some a0)).
  { destruct Hc as [->|[->| ->]]; [exists (s_disk J1)|exists (s_limb gam jn 1)|exists (s_limb gam jn 2)]; (split; [intros k rho; cbn; now rewrite ?disk_prof, ?limb_prof|intros rho; eexists; reflexivity]). }
  destruct X as (s & X1 & X2). destruct (np_works g c s lo hi N X1 H Ev HN) as (st & E & W). exists st. split; auto. intros rs us u rho Hu Hr. destruct (X2 rho) as (a0 & HA). exact (proj1 (W rs us u rho Hu Hr) a0 HA).
Qed.
Print Assumptions C80_numpy_partial.
(** jax, on grids of at least 16 points: the disc and the two limb-darkening classes *)
Theorem C80_jax_partial : forall g J1 J2 g15 g2 ellipk ellipe c lo hi N, c = disk_class J1 \/ c = limb1_class g15 ellipk ellipe \/ c = limb2_class J2 g2 ->
  lo < hi -> Nat.even N = true -> (16 <= N)%nat ->
  exists st, construct_jax g c lo hi N = Ok st /\ forall rs us u rho, 0 < us -> 0 < rho -> exists v, eval_jax g c rs us st u rho = Ok (Some v).
Proof.
  intros g J1 J2 g15 g2 ek ee c lo hi N Hc H Ev H16. assert (X : exists s, (forall k rho, m_sk c k rho = Some (prof s k rho)) /\ forall rho, exists a0, m_A0 c rho = Ok (Some a0)).
  { destruct Hc as [->|[->| ->]]; [exists (s_disk J1)|exists (s_limb1 g15)|exists (s_limb2 J2 g2)]; (split; [intros k rho; cbn; now rewrite ?disk_prof, ?limb1_prof, ?limb2_prof|intros rho; eexists; reflexivity]). }
  destruct X as (s & X1 & X2). assert (HN : (2 <= N)%nat) by lia.
  destruct (init_Apk_val g lo hi N 0 H Ev ltac:(lia) HN) as (P & LP & E). destruct (ext_val g s lo hi N N H HN ltac:(left; auto) ltac:(lia)) as (K & Kne & Ks & EK).
  destruct (kernel_exists g _ N 512 (Hr lo hi N) (Hr1 lo hi N H HN) HN ltac:(right; lia) ltac:(lia)) as [kappa HK].
  eexists. split; [rewrite (jax_same g c s) by auto; unfold init_jax; rewrite E; cbn [bind]; rewrite EK; reflexivity|]. intros rs us u rho Hu Hrho. destruct (X2 rho) as (a0 & HA).
  pose proof (samples_k g lo hi N H HN kappa HK s P rho Hrho LP) as F.
  rewrite (eval_jax_same g c s a0) by (auto; eexists; exact F). unfold A_jax, A_curve, A_large. cbv zeta. cbn [c_aext c_k c_apk]. destruct (Rltb rho rs).
  - rewrite (small_val interp_jax K us (Rabs u) rho) by (auto; intros x w Er; apply interp_jax_val; auto). destruct (Rltb_spec (Rabs u) (us * rho)) as [|L]; [eexists; reflexivity|]. unfold A_point_n. assert (0 < us * rho) by (apply Rmult_lt_0_compat; auto). destruct (Reqb_spec (Rabs u) 0); [lra|]. eexists; reflexivity.
  - rewrite F. cbn [bind]. destruct (Rltb 0 (Rabs u)); [|eexists; reflexivity]. match goal with |- context [trunc_jax (map Some ?x) (map Some ?y)] => destruct (trunc_number x y) as (Kn & -> & Ln) end.
    rewrite map_length, logspace_len, Nat.min_id in Ln. destruct (interp_jax_number Kn (lg (Rabs u)) 1) as (v & ->); [intros ->; cbn in Ln; lia|]. exists v. reflexivity.
Qed.
Print Assumptions C80_jax_partial.
(** jax with 8, 10, 12 or 14 points, whatever their range: the object is built, and every source that is not small is NaN at every
    non-zero impact parameter below 100 on the grid; the numpy class has no such gap (C80_numpy_partial) *)
Theorem C80_jax_small_grid_refuted : forall g J1 J2 g15 g2 ellipk ellipe c lo hi N, c = disk_class J1 \/ c = limb1_class g15 ellipk ellipe \/ c = limb2_class J2 g2 ->
  lo < hi -> lo < 2 -> Nat.even N = true -> (8 <= N < 16)%nat ->
  exists st, construct_jax g c lo hi N = Ok st /\ forall rs us u rho, 0 < rho -> rs <= rho -> 0 < Rabs u < 100 -> Rabs u <= Rpower 10 hi -> eval_jax g c rs us st u rho = Ok None.
Proof.
  intros g J1 J2 g15 g2 ek ee c lo hi N Hc H H2 Ev HN. assert (X : exists s, (forall k rho, m_sk c k rho = Some (prof s k rho)) /\ forall rho, exists a0, m_A0 c rho = Ok (Some a0)).
  { destruct Hc as [->|[->| ->]]; [exists (s_disk J1)|exists (s_limb1 g15)|exists (s_limb2 J2 g2)]; (split; [intros k rho; cbn; now rewrite ?disk_prof, ?limb1_prof, ?limb2_prof|intros rho; eexists; reflexivity]). }
  destruct X as (s & X1 & X2). assert (HN2 : (2 <= N)%nat) by lia. destruct (ext_val g s lo hi N N H HN2 ltac:(left; auto) ltac:(lia)) as (K & Kne & Ks & EK).
  eexists. split; [rewrite (jax_same g c s) by auto; unfold init_jax; rewrite (Apk_small g lo hi N H Ev HN); cbn [bind]; rewrite EK; reflexivity|]. intros rs us u rho Hrho Hs Hu Hu2. destruct (X2 rho) as (a0 & HA).
  pose proof (samples_small g lo hi N (prof s) rho H HN2 ltac:(rewrite prof_real, !map_length; apply rgeom_len)) as F. cbv zeta in F.
  rewrite (eval_jax_same g c s a0) by (auto; eexists; exact F). unfold A_jax, A_curve, A_large. cbv zeta. cbn [c_aext c_k c_apk]. destruct (Rltb_spec rho rs); [lra|]. rewrite F. cbn [bind]. destruct (Rltb_spec 0 (Rabs u)); [|lra].
  f_equal. apply (large_nan lo hi N); auto.
Qed.
Print Assumptions C80_jax_small_grid_refuted.
(** numpy, orders from 3 on: the object is built, its profile is right (C65_orders), small sources work, and every other call raises, also off the centre *)
Theorem C80_high_order_refuted : forall g gam jn ellipk ellipe n lo hi N, (3 <= n)%nat -> lo < hi -> Nat.even N = true -> (2 <= N)%nat ->
  let c := limb_class gam jn ellipk ellipe n in
  exists st, construct_np g c lo hi N = Ok st /\ forall rs us u rho, 0 < us -> 0 < rho ->
    (rs <= rho -> eval_np g c rs us st u rho = Raise NotImplementedError) /\ (rho < rs -> exists v, eval_np g c rs us st u rho = Ok (Some v)).
Proof.
  intros g gam jn ek ee n lo hi N Hn H Ev HN c. destruct (np_works g c (s_limb gam jn n) lo hi N ltac:(intros; cbn; now rewrite limb_prof) H Ev HN) as (st & E & W). exists st. split; auto. intros rs us u rho Hu Hr. destruct (W rs us u rho Hu Hr) as (_ & W2 & W3 & _).
  split; auto. intros L. apply W3; auto. unfold c, limb_class, m_A0, limb_A0. destruct n as [|[|[|n]]]; try lia. reflexivity.
Qed.
Print Assumptions C80_high_order_refuted.
(** order 0 is a uniform disc; every call for a source that is not small multiplies by None *)
Theorem C80_order_zero_refuted : forall g gam jn ellipk ellipe lo hi N, lo < hi -> Nat.even N = true -> (2 <= N)%nat ->
  let c := limb_class gam jn ellipk ellipe 0 in
  exists st, construct_np g c lo hi N = Ok st /\ forall rs us u rho, 0 < us -> 0 < rho -> rs <= rho -> eval_np g c rs us st u rho = Raise TypeError.
Proof.
  intros g gam jn ek ee lo hi N H Ev HN c. destruct (np_works g c (s_limb gam jn 0) lo hi N ltac:(intros; cbn; now rewrite limb_prof) H Ev HN) as (st & E & W). exists st. split; auto. intros rs us u rho Hu Hr L. destruct (W rs us u rho Hu Hr) as (_ & _ & _ & W4). apply W4; auto.
Qed.
Print Assumptions C80_order_zero_refuted.
(** [magnification_log], numpy and jax, cannot be constructed on any grid; on usual grids the exception is TypeError.  Its profile in
    position space is not the logarithmic one: outside the source it is positive *)
Theorem C80_log_refuted : forall g lo hi N,
  (forall st, construct_np g unfinished_class lo hi N <> Ok st /\ construct_jax g unfinished_class lo hi N <> Ok st) /\
  (lo < hi -> Nat.even N = true -> (16 <= N)%nat -> construct_np g unfinished_class lo hi N = Raise TypeError /\ construct_jax g unfinished_class lo hi N = Raise TypeError) /\
  (forall u rho, 0 < rho < u -> exists v, su_log [u] rho = [Some v] /\ 0 < v).
Proof.
  intros g lo hi N. split; [|split].
  - intros st. unfold construct_np, construct_jax. cbn [unfinished_class m_sk times]. split; [destruct (init_Apk g lo hi N 512) as [(k & apk)|]|destruct (init_Apk g lo hi N 0) as [(k & apk)|]]; discriminate.
  - intros H Ev H16. unfold construct_np, construct_jax. cbn [unfinished_class m_sk times].
    destruct (init_Apk_val g lo hi N 512 H Ev ltac:(lia) ltac:(lia)) as (P1 & _ & ->). destruct (init_Apk_val g lo hi N 0 H Ev ltac:(lia) ltac:(lia)) as (P2 & _ & ->). split; reflexivity.
  - intros u rho (Hr & Hu). exists (u / rho * ln (u / rho)). assert (L : 1 < u / rho) by (apply (Rmult_lt_reg_r rho); [lra|]; unfold Rdiv; rewrite Rmult_assoc, Rinv_l by lra; lra). split.
    + unfold su_log. cbn [map]. destruct (Rltb_spec 0 (u / rho)); [reflexivity|lra].
    + apply Rmult_lt_0_compat; [lra|]. rewrite <- ln_1. apply ln_increasing; lra.
Qed.
Print Assumptions C80_log_refuted.
(** the default grid and switches *)
Example C80_case : forall g gam jn ellipk ellipe,
  (exists st, construct_np g (limb_class gam jn ellipk ellipe 3) (-6) 3 1024 = Ok st /\ eval_np g (limb_class gam jn ellipk ellipe 3) 1e-4 10 st 0.5 0.1 = Raise NotImplementedError) /\
  (exists st, construct_np g (limb_class gam jn ellipk ellipe 2) (-6) 3 1024 = Ok st /\ eval_np g (limb_class gam jn ellipk ellipe 2) 1e-4 10 st 0 2 = Ok (Some (3 * sqrt 2 / 2 - arcsinh 1 / 2))).
Proof.
  intros g gam jn ek ee. split.
  - destruct (C80_high_order_refuted g gam jn ek ee 3 (-6) 3 1024 ltac:(lia) ltac:(lra) eq_refl ltac:(lia)) as (st & E & W). exists st. split; auto. apply W; lra.
  - destruct (C63_numpy g (-6) 3 1024 ltac:(lra) eq_refl ltac:(lia)) as (P & kappa & _ & _ & V). destruct (V (s_limb gam jn 2)) as (st & F & E & _ & B). exists st. set (c := limb_class gam jn ek ee 2).
    assert (Hs : forall k rho, m_sk c k rho = Some (prof (s_limb gam jn 2) k rho)) by (intros; cbn; now rewrite limb_prof). split; [rewrite (np_same g c (s_limb gam jn 2)) by auto; exact E|].
    rewrite (eval_np_same g c (s_limb gam jn 2) (limb2_A0 2)) by auto. destruct (B (fun _ => Some (limb2_A0 2)) 1e-4 10 2 ltac:(lra)) as [B1 _]. destruct (B1 ltac:(lra)) as (f & _ & -> & _). do 2 f_equal.
    unfold limb2_A0. replace (4 + 2 ^ 2) with (2 * 2 * 2) by ring. rewrite (sqrt_mult (2 * 2) 2), sqrt_square by lra. replace (2 / 2) with 1 by lra. field.
Qed.
