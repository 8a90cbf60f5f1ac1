(** The fast light curves: property C63. *)
From Coq Require Import Reals List Bool Arith ZArith Lia Lra.
From Coquelicot Require Import Coquelicot.
From Verif Require Import Base_R Base_C Base_List M_Fftlog M_MagFft M_MagCurve S_Fftlog S_MagCurve P_Fftlog P_FftConv P_HankelConv P_MagCurve P_MagSamples.
Import ListNotations.
Local Open Scope R_scope.

(** [prof s] is the profile with values [s (k rho)]; [kernel_of g r N npad kappa] says that the transform of every array on every
    grid of ratio [r] is its sum against [kappa] *)
Lemma spec_value (kappa : R -> R) lo hi N (P : list R) K s A0 rs us rho : lo < hi -> (2 <= N)%nat -> 0 < rho -> wsorted K ->
  let uf := logspace lo hi N in let k := rgeom (0.5 / Rpower 10 hi) (Rpower 10 ((hi - lo) / INR (N - 1))) N in
  let A := fun u => value lo hi N kappa P K s A0 rs us u rho in
  (rs <= rho -> exists f, (forall u, u <> 0 -> A u = Some (f (Rabs u))) /\ A 0 = A0 rho /\ through f uf (map (spectral kappa k P s rho) uf) /\ forall u, 0 < u -> continuous f u) /\
  (rho < rs -> (forall u, Rabs u < us * rho -> A u = Some (1 + polyline K (Rabs u / rho) / rho)) /\ (forall u, u <> 0 -> us * rho <= Rabs u -> A u = Some (A_point u))).
Proof.
  intros H HN Hrho Ks uf k A. split.
  - intros Hs. exists (big lo hi N kappa P s rho). unfold A, value. destruct (Rltb_spec rho rs); [lra|]. split; [intros u Hu; destruct (Reqb_spec u 0); [contradiction|reflexivity]|].
    split; [destruct (Reqb_spec 0 0); [reflexivity|lra]|]. split; [apply big_through; auto|intros u Hu; apply big_cont; auto].
  - intros Hs. unfold A, value. destruct (Rltb_spec rho rs); [|lra]. split; intros u Hu.
    + destruct (Rltb_spec (Rabs u) (us * rho)); [reflexivity|lra].
    + intros Hf. destruct (Rltb_spec (Rabs u) (us * rho)); [lra|]. unfold A_point_n. destruct (Reqb_spec (Rabs u) 0) as [E|_]; [exfalso; apply (Rabs_no_R0 u); auto|]. f_equal. unfold A_point. rewrite Rabs_Rabsolu, pow2_abs. reflexivity.
Qed.

(** ** C63: what the fast light curve is *)
(** One set of frequencies and one kernel serve every profile and radius.  From [rho_switch] on: the analytic value at [u = 0], and otherwise the log-linear
    curve through the sums over the frequencies at the grid points, continued to (100, 1).  Below: one continuous table [F] of [u / rho] for all radii, and the point-source
    value from [u_switch rho] on. *)
Theorem C63_numpy : forall g lo hi N, lo < hi -> Nat.even N = true -> (2 <= N)%nat ->
  let uf := logspace lo hi N in let r := Rpower 10 ((hi - lo) / INR (N - 1)) in let k := rgeom (0.5 / Rpower 10 hi) r N in
  exists P kappa, length P = N /\ kernel_of g r N 512 kappa /\
  forall s, exists st F, init_np g (prof s) lo hi N = Ok st /\ (forall x, continuous F x) /\
  forall A0 rs us rho, 0 < rho ->
  (rs <= rho -> exists f, (forall u, u <> 0 -> A_np g (prof s) A0 rs us st u rho = Ok (Some (f (Rabs u)))) /\ A_np g (prof s) A0 rs us st 0 rho = Ok (A0 rho) /\
     through f uf (map (spectral kappa k P s rho) uf) /\ forall u, 0 < u -> continuous f u) /\
  (rho < rs -> (forall u, Rabs u < us * rho -> A_np g (prof s) A0 rs us st u rho = Ok (Some (1 + F (Rabs u / rho) / rho))) /\
     (forall u, u <> 0 -> us * rho <= Rabs u -> A_np g (prof s) A0 rs us st u rho = Ok (Some (A_point u)))).
Proof.
  intros g lo hi N H Ev HN uf r k. destruct (np_curve g lo hi N H Ev HN) as (P & kappa & HK & LP & V). exists P, kappa. split; auto. split; auto. intros s. destruct (V s) as (K & Kne & Ks & Ei & Va).
  exists (mkcurve (map Some k) (map Some P) (lift K)), (polyline K). split; auto. split; [apply polyline_cont|]. intros A0 rs us rho Hrho. destruct (spec_value kappa lo hi N P K s A0 rs us rho H HN Hrho Ks) as [B1 B2]. split.
  - intros Hs. destruct (B1 Hs) as (f & F1 & F2 & F3). exists f. split; [intros u Hu; unfold k, r; rewrite Va by auto; f_equal; apply F1; auto|]. split; [unfold k, r; rewrite Va by auto; f_equal; apply F2|exact F3].
  - intros Hs. destruct (B2 Hs) as [F1 F2]. split; intros u; intros; unfold k, r; rewrite Va by auto; f_equal; [apply F1|apply F2]; auto.
Qed.
Print Assumptions C63_numpy.
(** jax, for grids reaching 100; here the frequency amplitudes are the transform of [(A_point - 1) u^2] *)
Theorem C63_jax_partial : forall g lo hi N, lo < hi -> 2 <= hi -> Nat.even N = true -> (16 <= N)%nat ->
  let uf := logspace lo hi N in let r := Rpower 10 ((hi - lo) / INR (N - 1)) in let k := rgeom (0.5 / Rpower 10 hi) r N in
  exists kappa0 kappa, kernel_of g r N 0 kappa0 /\ kernel_of g r N 512 kappa /\
  let P := map (fun k => 2 * PI * sumR (map (fun i => (A_point (nth i uf 0) - 1) * nth i uf 0 ^ 2 * kappa0 (nth i uf 0 * k)) (seq 0 N))) k in
  forall s, exists st F, init_jax g (prof s) lo hi N = Ok st /\ (forall x, continuous F x) /\
  forall A0 rs us rho, 0 < rho ->
  (rs <= rho -> exists f, (forall u, u <> 0 -> A_jax g (prof s) A0 rs us st u rho = Ok (Some (f (Rabs u)))) /\ A_jax g (prof s) A0 rs us st 0 rho = Ok (A0 rho) /\
     through f uf (map (spectral kappa k P s rho) uf) /\ forall u, 0 < u -> continuous f u) /\
  (rho < rs -> (forall u, Rabs u < us * rho -> A_jax g (prof s) A0 rs us st u rho = Ok (Some (1 + F (Rabs u / rho) / rho))) /\
     (forall u, u <> 0 -> us * rho <= Rabs u -> A_jax g (prof s) A0 rs us st u rho = Ok (Some (A_point u)))).
Proof.
  intros g lo hi N H H2 Ev H16 uf r k. assert (HN : (2 <= N)%nat) by lia. destruct (jax_curve g lo hi N H Ev HN H2 H16) as (kappa0 & kappa & HK0 & HK & V). exists kappa0, kappa. split; auto. split; auto. intros P s. cbv zeta in V. destruct (V s) as (K & Kne & Ks & Ei & Va).
  exists (mkcurve (map Some k) (map Some P) (lift K)), (polyline K). split; auto. split; [apply polyline_cont|]. intros A0 rs us rho Hrho. destruct (spec_value kappa lo hi N P K s A0 rs us rho H HN Hrho Ks) as [B1 B2].
  assert (Va' : forall u, A_jax g (prof s) A0 rs us (mkcurve (map Some k) (map Some P) (lift K)) u rho = Ok (value lo hi N kappa P K s A0 rs us u rho)) by (intros u; unfold P, k, r, uf; apply Va; auto). split.
  - intros Hs. destruct (B1 Hs) as (f & F1 & F2 & F3). exists f. split; [intros u Hu; rewrite Va'; f_equal; apply F1; auto|]. split; [rewrite Va'; f_equal; apply F2|exact F3].
  - intros Hs. destruct (B2 Hs) as [F1 F2]. split; intros u; intros; rewrite Va'; f_equal; [apply F1|apply F2]; auto.
Qed.
Print Assumptions C63_jax_partial.
(** a jax grid that ends before 100: nothing is drawn between its end and (100, 1), the value is 1 *)
Theorem C63_jax_short_grid_refuted : forall g lo hi N, lo < hi -> hi < 2 -> Nat.even N = true -> (16 <= N)%nat ->
  forall s A0 rs us st u rho, init_jax g (prof s) lo hi N = Ok st -> 0 < rho -> rs <= rho -> Rpower 10 hi < Rabs u -> A_jax g (prof s) A0 rs us st u rho = Ok (Some 1).
Proof. intros g lo hi N H H2 Ev H16. apply jax_short; auto; lia. Qed.
Print Assumptions C63_jax_short_grid_refuted.
(** the curve of a mixture of two profiles is the mixture of their curves *)
Theorem C63_mixture : forall g lo hi N c s1 s2 A0 rs us rho u, lo < hi -> Nat.even N = true -> (2 <= N)%nat -> 0 < rho -> rs <= rho -> u <> 0 ->
  exists st1 st2 st a1 a2, init_np g (prof s1) lo hi N = Ok st1 /\ init_np g (prof s2) lo hi N = Ok st2 /\ init_np g (prof (fun x => c * s1 x + (1 - c) * s2 x)) lo hi N = Ok st /\
  A_np g (prof s1) A0 rs us st1 u rho = Ok (Some a1) /\ A_np g (prof s2) A0 rs us st2 u rho = Ok (Some a2) /\
  A_np g (prof (fun x => c * s1 x + (1 - c) * s2 x)) A0 rs us st u rho = Ok (Some (c * a1 + (1 - c) * a2)).
Proof.
  intros g lo hi N c s1 s2 A0 rs us rho u H Ev HN Hrho Hs Hu. destruct (np_curve g lo hi N H Ev HN) as (P & kappa & HK & LP & V).
  destruct (V s1) as (K1 & _ & _ & E1 & V1). destruct (V s2) as (K2 & _ & _ & E2 & V2). destruct (V (fun x => c * s1 x + (1 - c) * s2 x)) as (K3 & _ & _ & E3 & V3).
  do 3 eexists. exists (big lo hi N kappa P s1 rho (Rabs u)), (big lo hi N kappa P s2 rho (Rabs u)). split; [exact E1|]. split; [exact E2|]. split; [exact E3|].
  rewrite V1, V2, V3 by auto. unfold value. destruct (Rltb_spec rho rs); [lra|]. destruct (Reqb_spec u 0); [contradiction|]. rewrite big_mix. auto.
Qed.
Print Assumptions C63_mixture.
Theorem C63_mixture_jax_partial : forall g lo hi N c s1 s2 A0 rs us rho u, lo < hi -> 2 <= hi -> Nat.even N = true -> (16 <= N)%nat -> 0 < rho -> rs <= rho -> u <> 0 ->
  exists st1 st2 st a1 a2, init_jax g (prof s1) lo hi N = Ok st1 /\ init_jax g (prof s2) lo hi N = Ok st2 /\ init_jax g (prof (fun x => c * s1 x + (1 - c) * s2 x)) lo hi N = Ok st /\
  A_jax g (prof s1) A0 rs us st1 u rho = Ok (Some a1) /\ A_jax g (prof s2) A0 rs us st2 u rho = Ok (Some a2) /\
  A_jax g (prof (fun x => c * s1 x + (1 - c) * s2 x)) A0 rs us st u rho = Ok (Some (c * a1 + (1 - c) * a2)).
Proof.
  intros g lo hi N c s1 s2 A0 rs us rho u H H2 Ev H16 Hrho Hs Hu. destruct (jax_curve g lo hi N H Ev ltac:(lia) H2 H16) as (kappa0 & kappa & HK0 & HK & V). cbv zeta in V.
  destruct (V s1) as (K1 & _ & _ & E1 & V1). destruct (V s2) as (K2 & _ & _ & E2 & V2). destruct (V (fun x => c * s1 x + (1 - c) * s2 x)) as (K3 & _ & _ & E3 & V3).
  do 3 eexists. do 2 eexists. split; [exact E1|]. split; [exact E2|]. split; [exact E3|].
  rewrite V1, V2, V3 by auto. unfold value. destruct (Rltb_spec rho rs) as [Hn|_]; [exfalso; lra|]. destruct (Reqb_spec u 0) as [Hn|_]; [contradiction|]. rewrite big_mix. split; [reflexivity|]. split; reflexivity.
Qed.
Print Assumptions C63_mixture_jax_partial.
(** the uniform disk and the square-root and quadratic profiles are of this kind *)
Theorem C63_profiles : forall J1 J2 gam k rho,
  sk_disk J1 k rho = prof (fun x => if Rltb 0 x then 2 * J1 x / x else 1) k rho /\ sk_limb2 J2 gam k rho = prof (fun x => if Rltb 0 x then 2 ^ 2 * gam * J2 x / x ^ 2 * 2 else 1 / (2 + 2)) k rho.
Proof. intros. unfold sk_disk, sk_limb2, prof, per_k. split; apply map_ext; intros [x|]; try reflexivity; cbn [nbind]; destruct (Rltb 0 (x * rho)); reflexivity. Qed.
Print Assumptions C63_profiles.
(** the default disk: the central value at radius 3/2, nothing at 250, the point source for a small one *)
Example C63_case : forall g J1, let s := fun x => if Rltb 0 x then 2 * J1 x / x else 1 in let A0 := fun rho => Some (disk_A0 rho) in
  exists st, init_np g (prof s) (-6) 3 1024 = Ok st /\ A_np g (prof s) A0 1e-4 10 st 0 1.5 = Ok (Some (5 / 3)) /\ A_np g (prof s) A0 1e-4 10 st (-250) 1.5 = Ok (Some 1) /\
  A_np g (prof s) A0 1e-4 10 st (-2) 1e-5 = Ok (Some (6 / 2 / sqrt 8)).
Proof.
  intros g J1 s A0. destruct (C63_numpy g (-6) 3 1024 ltac:(lra) eq_refl ltac:(lia)) as (P & kappa & _ & _ & V). destruct (V s) as (st & F & E & _ & B). exists st. split; auto.
  destruct (B A0 1e-4 10 1.5 ltac:(lra)) as [B1 _]. destruct (B1 ltac:(lra)) as (f & F1 & F2 & F3 & _). destruct (B A0 1e-4 10 1e-5 ltac:(lra)) as [_ B2]. destruct (B2 ltac:(lra)) as [_ B3].
  split; [rewrite F2; unfold A0, disk_A0; do 2 f_equal; replace (1.5 ^ 2 + 4) with (2.5 * 2.5) by lra; rewrite sqrt_square by lra; lra|]. split.
  - rewrite F1 by lra. do 2 f_equal. apply F3. rewrite Rabs_left by lra. lra.
  - rewrite B3; [|lra|rewrite Rabs_left by lra; lra]. unfold A_point. rewrite Rabs_left by lra. do 2 f_equal. replace ((-2) ^ 2 + 4) with 8 by ring. replace ((-2) ^ 2 + 2) with 6 by ring. replace (- -2) with 2 by ring. reflexivity.
Qed.
