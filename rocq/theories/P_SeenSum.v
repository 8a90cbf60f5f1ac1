(** Grid sums of the seen part of the image plane and of its brightness. *)
From Coq Require Import Reals List Bool Arith ZArith Lia Lra Classical_Prop FunctionalExtensionality.
From Coquelicot Require Import Coquelicot.
From Verif Require Import Base_R Base_List Base_C S_PointSource S_Inverse P_RowLimit P_AreaLimit P_ShootLimit P_PlaneSum.
Import ListNotations.
Local Open Scope R_scope.

Section Sector.
Variables (L : lens_system) (w : C) (rho : R).
Hypothesis Hrho : 0 < rho.
Variables rl rh : R.
Let dR := rh - rl.
Hypothesis HR : dR <> 0.
Let K := (12 + 6 * length L)%nat.
Section Rays.
Variables tl dT : R.
Let F v u := lim L w rho (polar (rl + u * dR) (tl + v * dT)).
Let g u := rl + u * dR.
Let s v u := seen_at L w rho (polar (rl + u * dR) (tl + v * dT)).
Lemma ray_u r : rl + (r - rl) / dR * dR = r.
Proof. field. auto. Qed.
Lemma contF v u : continuity_pt (F v) u.
Proof. apply (nice_lim L w rho rl dR tl dT). Qed.
Lemma lipF : exists C, 0 <= C /\ forall v v' u, -1 <= v <= 2 -> -1 <= v' <= 2 -> 0 <= u <= 1 -> Rabs (F v u - F v' u) <= C * Rabs (v - v').
Proof. destruct (nice_lim L w rho rl dR tl dT) as [(M & HM & H) _]. exists M. split; auto. intros v v' u Hv Hv' Hu. apply (H v u Hv); auto. Qed.
Lemma zeroF v : exists Z, (length Z <= K)%nat /\ forall u, 0 <= u <= 1 -> F v u = 0 -> In u Z.
Proof.
  destruct (ray_roots L w rho (tl + v * dT) Hrho) as (rs & H1 & H2). exists (map (fun r => (r - rl) / dR) rs). rewrite map_length. split; auto. intros u _ E. apply in_map_iff. exists (rl + u * dR). split; [field; auto|]. apply H2. exact E.
Qed.
Lemma s_01 v u : s v u = 0 \/ s v u = 1.
Proof. apply seen_at_01. Qed.
Lemma s_belowF v : exists Z, (length Z <= K)%nat /\ forall u, 0 <= u <= 1 -> ~ In u Z -> s v u = below F v u.
Proof.
  destruct (ray_masses L (tl + v * dT)) as (l & H1 & H2). exists (map (fun r => (r - rl) / dR) l). rewrite map_length. split; [unfold K; lia|]. intros u _ N.
  assert (O : off_masses L (polar (rl + u * dR) (tl + v * dT))). { apply H2. intros Q. apply N. apply in_map_iff. exists (rl + u * dR). split; [field; auto|auto]. }
  pose proof (lim_seen L w rho _ Hrho O) as Q. unfold s, seen_at, below, seen, F in *. destruct (Rlt_dec (Cmod _) rho), (Rlt_dec (lim _ _ _ _) 0); tauto.
Qed.
Lemma contg u : continuity_pt g u.
Proof. apply lin_cont. Qed.
Lemma boundg u : 0 <= u <= 1 -> Rabs (g u) <= Rabs rl + Rabs dR.
Proof. intros Hu. unfold g. eapply Rle_trans; [apply Rabs_triang|]. rewrite Rabs_mult, (Rabs_pos_eq u) by lra. pose proof (Rabs_pos dR). nra. Qed.
Lemma lipg u u' : 0 <= u <= 1 -> 0 <= u' <= 1 -> Rabs (g u - g u') <= Rabs dR * Rabs (u - u').
Proof. intros _ _. unfold g. replace (rl + u * dR - (rl + u' * dR)) with (dR * (u - u')) by ring. rewrite Rabs_mult. lra. Qed.
Lemma ray_is v : is_RInt (fun r => r * seen_at L w rho (polar r (tl + v * dT))) rl rh (dR * ray F g v).
Proof. apply (unit_interval (fun r => r * seen_at L w rho (polar r (tl + v * dT))) rl rh); [exact HR|]. apply (ray_s F g K contF zeroF contg s s_belowF v). Qed.
Lemma rays_is : is_RInt (ray F g) 0 1 (area F g).
Proof. apply (ray_int F g (Rabs rl + Rabs dR) K contF lipF zeroF contg boundg). Qed.
Lemma rays_limit : forall eps, 0 < eps -> exists N, forall nr nt, (N <= nr)%nat -> (N <= nt)%nat ->
  Rabs (/ INR (nt - 1) * sumn nt (fun i => / INR (nr - 1) * sumn nr (fun j => g (cell (nr - 1) j) * s (cell (nt - 1) i) (cell (nr - 1) j))) - area F g) < eps.
Proof. apply (area_limit F g (Rabs rl + Rabs dR) (Rabs dR) K contF lipF zeroF contg boundg (Rabs_pos dR) lipg s s_01 s_belowF). Qed.
End Rays.
End Sector.

Lemma summable_flat phi rl rh tl th : rl = rh \/ tl = th -> (forall t, ex_RInt (fun r => r * phi (polar r t)) rl rh) -> summable phi ((rl, rh), (tl, th)).
Proof.
  intros H HE. assert (E : is_RInt (pray phi ((rl, rh), (tl, th))) tl th 0).
  { destruct H as [<- | <-]; [|apply (is_RInt_point (V := R_NormedModule))]. apply is_RInt_ext with (f := fun _ => 0); [intros x _; unfold pray; cbn [fst snd]; rewrite RInt_point; reflexivity|].
    pose proof (is_RInt_const (V := R_NormedModule) tl th 0) as Q. unfold scal in Q; simpl in Q; unfold mult in Q; simpl in Q. rewrite Rmult_0_r in Q. exact Q. }
  split; [exact HE|]. split; [eexists; exact E|]. intros eps He. exists O. intros nr nt _ _. unfold pint. cbn [fst snd]. rewrite (is_RInt_unique _ _ _ _ E). unfold point_sum. rewrite (sumn_ext _ _ (fun _ => 0)); [rewrite sumn_const, Rmult_0_r, Rminus_0_r, Rabs_R0; auto|].
  intros j _. unfold cell_area, spacing. destruct H as [<- | <-]; unfold Rdiv; ring.
Qed.
Lemma summable_seen L w rho g : 0 < rho -> summable (seen_at L w rho) g.
Proof.
  intros Hrho. destruct g as [[rl rh] [tl th]]. destruct (Req_dec (rh - rl) 0) as [E|HR].
  { apply summable_flat; [left; lra|]. intros t. replace rh with rl by lra. apply ex_RInt_point. }
  assert (HE : forall t, ex_RInt (fun r => r * seen_at L w rho (polar r t)) rl rh). { intros t. pose proof (ray_is L w rho Hrho rl rh HR t 0 0) as Q. rewrite Rmult_0_l, Rplus_0_r in Q. eexists. exact Q. }
  destruct (Req_dec (th - tl) 0) as [E|HT]; [apply summable_flat; [right; lra|exact HE]|]. set (dR := rh - rl) in *. set (dT := th - tl) in *.
  set (F := fun v u => lim L w rho (polar (rl + u * dR) (tl + v * dT))). set (gw := fun u => rl + u * dR).
  assert (RT : forall t, pray (seen_at L w rho) ((rl, rh), (tl, th)) t = dR * ray F gw ((t - tl) / dT)).
  { intros t. apply is_RInt_unique. pose proof (ray_is L w rho Hrho rl rh HR tl dT ((t - tl) / dT)) as Q. replace (tl + (t - tl) / dT * dT) with t in Q by (field; auto). exact Q. }
  assert (I2 : is_RInt (pray (seen_at L w rho) ((rl, rh), (tl, th))) tl th (dT * (dR * area F gw))).
  { apply (unit_interval (pray (seen_at L w rho) ((rl, rh), (tl, th))) tl th); [exact HT|]. pose proof (is_RInt_scal (V := R_NormedModule) _ _ _ dR _ (rays_is L w rho Hrho rl rh HR tl dT)) as Q. eapply is_RInt_ext; [|exact Q].
    intros v _. fold dT. rewrite RT. replace ((tl + v * dT - tl) / dT) with v by (field; auto). reflexivity. }
  split; [exact HE|]. split; [eexists; exact I2|]. unfold pint. cbn [fst snd]. rewrite (is_RInt_unique _ _ _ _ I2). intros eps He. assert (Pd : 0 < Rabs (dR * dT)) by (apply Rabs_pos_lt, Rmult_integral_contrapositive_currified; auto).
  destruct (rays_limit L w rho Hrho rl rh HR tl dT (eps / Rabs (dR * dT))) as (N & HN); [apply Rdiv_lt_0_compat; auto|]. exists (N + 2)%nat. intros nr nt Hr Ht. specialize (HN nr nt ltac:(lia) ltac:(lia)).
  match type of HN with Rabs (?s - _) < _ => assert (E : point_sum (seen_at L w rho) ((rl, rh), (tl, th)) nr nt = dR * dT * s) end.
  { unfold point_sum. rewrite <- !sumn_scal. rewrite (sumn_ext nr _ (fun j => sumn nt (fun i => dR * dT * (/ INR (nt - 1) * (/ INR (nr - 1) * ((rl + cell (nr - 1) j * (rh - rl)) * seen_at L w rho (polar (rl + cell (nr - 1) j * (rh - rl)) (tl + cell (nt - 1) i * dT)))))))).
    - rewrite sumn_swap. apply sumn_ext. intros i Hi. rewrite <- !sumn_scal. reflexivity.
    - intros j Hj. rewrite <- sumn_scal. apply sumn_ext. intros i Hi. unfold cell_area, spacing, grid_point. rewrite !spaced_cell by lia. fold dR dT. unfold Rdiv. ring. }
  rewrite E. match type of HN with Rabs (?s - ?a) < _ => replace (dR * dT * s - dT * (dR * area F gw)) with (dR * dT * (s - a)) end. 2:{ unfold F, gw, dR. ring. }
  rewrite Rabs_mult. replace eps with (Rabs (dR * dT) * (eps / Rabs (dR * dT))) by (field; lra). apply Rmult_lt_compat_l; auto.
Qed.
Lemma summable_sum (phi : nat -> C -> R) (c : nat -> R) g : (forall m, summable (phi m) g) -> forall n, summable (fun z => sumn n (fun m => c m * phi m z)) g.
Proof.
  intros H. induction n as [|n IH].
  - replace (fun z => sumn 0 (fun m => c m * phi m z)) with (fun z => -1 * phi O z + phi O z) by (apply functional_extensionality; intros z; rewrite sumn_0; ring). apply summable_lin; auto.
  - replace (fun z => sumn (S n) (fun m => c m * phi m z)) with (fun z => c n * phi n z + sumn n (fun m => c m * phi m z)) by (apply functional_extensionality; intros z; rewrite sumn_S; ring). apply summable_lin; auto.
Qed.

(** number of steps below a height *)
Lemma steps x : 0 <= x -> forall k, (INR k <= x -> sumn k (fun m => if Rlt_dec (INR m) x then 1 else 0) = INR k) /\ (x <= INR k -> x <= sumn k (fun m => if Rlt_dec (INR m) x then 1 else 0) <= x + 1).
Proof.
  intros Hx. induction k as [|k [I1 I2]]; [rewrite sumn_0; simpl; split; intros; lra|]. rewrite sumn_S, S_INR. destruct (Rlt_dec (INR k) x) as [Q|Q].
  - rewrite I1 by lra. split; intros; lra.
  - split; [intros; lra|]. intros _. specialize (I2 ltac:(lra)). lra.
Qed.
Definition level (rho : R) (M m : nat) : R := rho * sqrt (1 - (INR m / INR M) ^ 2).
Lemma level_pos rho M m : 0 < rho -> (m < M)%nat -> 0 < level rho M m.
Proof.
  intros Hr H. unfold level. apply Rmult_lt_0_compat; auto. apply sqrt_lt_R0. assert (Q : 0 <= INR m / INR M < 1). { assert (0 < INR M) by (apply lt_0_INR; lia). split; [apply Rmult_le_pos; [apply pos_INR|left; apply Rinv_0_lt_compat; auto]|]. apply (Rmult_lt_reg_r (INR M)); auto. unfold Rdiv. rewrite Rmult_assoc, Rinv_l by lra. apply lt_INR in H. lra. } nra.
Qed.
Lemma layers L w rho u1 M z : 0 < rho -> (0 < M)%nat -> let c := 3 / (PI * (3 - u1)) in
  Rabs (c * (1 - u1) * seen_at L w rho z + sumn M (fun m => c * u1 * / INR M * seen_at L w (level rho M m) z) - brightness_at L w rho u1 z) <= Rabs (c * u1) * / INR M.
Proof.
  intros Hrho HM c. rewrite sumn_scal. unfold seen_at, brightness_at. fold c. set (d := Cmod (lens_map L z - w)%C). assert (Hd : 0 <= d) by apply Cmod_ge_0. assert (MP : 0 < INR M) by (apply lt_0_INR; auto). assert (MI : 0 < / INR M) by (apply Rinv_0_lt_compat; auto).
  destruct (Rlt_dec d rho) as [Q|Q].
  - set (y := d / rho). assert (Y : 0 <= y < 1). { unfold y. split; [apply Rmult_le_pos; [auto|left; apply Rinv_0_lt_compat; auto]|]. apply (Rmult_lt_reg_r rho); auto. unfold Rdiv. rewrite Rmult_assoc, Rinv_l by lra. lra. }
    assert (Ed : d = rho * y) by (unfold y; field; lra). set (s := sqrt (1 - y ^ 2)). assert (S0 : 0 <= s) by apply sqrt_pos. assert (S2 : s * s = 1 - y ^ 2) by (apply sqrt_sqrt; nra). assert (S1 : s <= 1) by nra.
    rewrite (sumn_ext M _ (fun m => if Rlt_dec (INR m) (s * INR M) then 1 else 0)).
    + destruct (steps (s * INR M) ltac:(nra) M) as [_ B]. specialize (B ltac:(nra)). set (T := sumn M _) in *. replace (c * (1 - u1) * 1 + c * u1 * / INR M * T - c * (1 - u1 * (1 - s))) with (c * u1 * (/ INR M * T - s)) by ring. rewrite Rabs_mult. apply Rmult_le_compat_l; [apply Rabs_pos|].
      assert (E1 : s = / INR M * (s * INR M)) by (field; lra). assert (/ INR M * (s * INR M) <= / INR M * T <= / INR M * (s * INR M + 1)) by (split; apply Rmult_le_compat_l; lra). apply Rabs_le. lra.
    + intros m Hm. assert (X : 0 <= INR m / INR M < 1). { split; [apply Rmult_le_pos; [apply pos_INR|lra]|]. apply (Rmult_lt_reg_r (INR M)); auto. unfold Rdiv. rewrite Rmult_assoc, Rinv_l by lra. apply lt_INR in Hm. lra. }
      set (x := INR m / INR M) in *. assert (Em : INR m = x * INR M) by (unfold x; field; lra). set (q := sqrt (1 - x ^ 2)). assert (Eq : level rho M m = rho * q) by reflexivity. assert (q0 : 0 <= q) by apply sqrt_pos. assert (q2 : q * q = 1 - x ^ 2) by (apply sqrt_sqrt; nra).
      assert (A : y < q <-> x < s). { split; intros H; apply Rnot_le_lt; intros H'; nra. }
      rewrite Eq, Ed, Em. destruct (Rlt_dec (rho * y) (rho * q)) as [B|B], (Rlt_dec (x * INR M) (s * INR M)) as [D|D]; auto; exfalso.
      * apply Rmult_lt_reg_l in B; auto. apply D. apply Rmult_lt_compat_r; tauto.
      * apply Rmult_lt_reg_r in D; auto. apply B. apply Rmult_lt_compat_l; tauto.
  - rewrite (sumn_ext M _ (fun _ => 0)).
    + rewrite sumn_const, !Rmult_0_r, Rplus_0_l, Rminus_0_r, Rabs_R0. apply Rmult_le_pos; [apply Rabs_pos|lra].
    + intros m Hm. destruct (Rlt_dec d (level rho M m)) as [H|H]; auto. exfalso. unfold level in H. assert (sqrt (1 - (INR m / INR M) ^ 2) <= 1). { rewrite <- sqrt_1 at 2. apply sqrt_le_1_alt. pose proof (pow2_ge_0 (INR m / INR M)). lra. } nra.
Qed.
Lemma summable_bright L w rho u1 g : 0 < rho -> summable (brightness_at L w rho u1) g.
Proof.
  intros Hrho. set (c := 3 / (PI * (3 - u1))). destruct (nfloor_ex (Rabs (c * u1)) (Rabs_pos _)) as (N & _ & HN).
  pose (M := fun n => (S n * S N)%nat). assert (MP : forall n, (0 < M n)%nat) by (intros n; unfold M; lia).
  apply (summable_unif (fun n z => c * (1 - u1) * seen_at L w rho z + sumn (M n) (fun m => c * u1 * / INR (M n) * (if lt_dec m (M n) then seen_at L w (level rho (M n) m) z else seen_at L w rho z)))).
  - intros n. apply summable_lin; [apply summable_seen; auto|]. apply (summable_sum (fun m z => if lt_dec m (M n) then seen_at L w (level rho (M n) m) z else seen_at L w rho z)). intros m. destruct (lt_dec m (M n)) as [Q|Q]; apply summable_seen; auto. apply level_pos; auto.
  - intros n z. rewrite (sumn_ext _ _ (fun m => c * u1 * / INR (M n) * seen_at L w (level rho (M n) m) z)) by (intros m Hm; destruct (lt_dec m (M n)); [reflexivity|lia]).
    eapply Rle_trans; [apply (layers L w rho u1 (M n) z Hrho (MP n))|]. fold c. unfold M. rewrite mult_INR. assert (P1 : 0 < INR (S n)) by (apply lt_0_INR; lia). assert (P2 : 0 < INR (S N)) by (apply lt_0_INR; lia). rewrite Rinv_mult.
    assert (Q : Rabs (c * u1) * / INR (S N) <= 1). { apply (Rmult_le_reg_r (INR (S N))); auto. rewrite Rmult_assoc, Rinv_l, S_INR by lra. lra. } assert (0 < / INR (S n)) by (apply Rinv_0_lt_compat; auto). nra.
Qed.

(** ** jumps along a circle *)
Lemma angle_cont L w rho r tl dT v0 : continuity_pt (fun v => lim L w rho (polar r (tl + v * dT))) v0.
Proof.
  intros eps He. destruct (nice_lim L w rho r 0 (tl + v0 * dT) dT) as [(M & HM & H) _]. exists (Rmin 1 (eps / (M + 1))). split; [apply Rmin_pos; [lra|apply Rdiv_lt_0_compat; lra]|]. intros v [_ Hv]. simpl in *. unfold R_dist in *.
  pose proof (Rmin_l 1 (eps / (M + 1))). pose proof (Rmin_r 1 (eps / (M + 1))). assert (V1 : Rabs (v - v0) < 1) by lra. apply Rabs_def2 in V1. destruct (H (v - v0) 0 ltac:(lra) ltac:(lra)) as [_ Q]. specialize (Q 0 ltac:(lra)).
  replace (r + 0 * 0) with r in Q by ring. replace (tl + v0 * dT + (v - v0) * dT) with (tl + v * dT) in Q by ring. replace (tl + v0 * dT + 0 * dT) with (tl + v0 * dT) in Q by ring. rewrite Rminus_0_r in Q. eapply Rle_lt_trans; [exact Q|].
  assert (V2 : Rabs (v - v0) < eps / (M + 1)) by lra. apply (Rmult_lt_compat_r (M + 1)) in V2; [|lra]. replace (eps / (M + 1) * (M + 1)) with eps in V2 by (field; lra). pose proof (Rabs_pos (v - v0)). nra.
Qed.
Lemma circle_jumps L w rho tl dT : 0 < rho -> exists K, forall r, r <> 0 -> exists Z, (length Z <= K)%nat /\ const_off (fun u => seen_at L w rho (polar r (tl + u * dT))) Z.
Proof.
  intros Hrho. destruct (Req_dec dT 0) as [->|HT]; [exists O; intros r _; exists []; split; [auto|]; intros u u' _ _ _ _; rewrite !Rmult_0_r; reflexivity|].
  destruct (many_angles tl dT HT) as (N & HA). exists ((12 + 6 * length L) * N + length L * N)%nat. intros r Hr.
  assert (Q : exists Z1, (length Z1 <= (12 + 6 * length L) * N)%nat /\ const_off (below (fun _ u => lim L w rho (polar r (tl + u * dT))) 0) Z1).
  { destruct (classic (exists t, lim L w rho (polar r t) <> 0)) as [Hc|Hc].
    - destruct (circle_roots r L w rho Hr Hc) as (rs & R1 & R2). destruct (HA r rs Hr) as (Z1 & A1 & A2). exists Z1. split; [nia|]. apply below_const; [intros _ u; apply angle_cont|]. intros u Hu E. apply A2; auto.
    - exists []. split; [cbn; lia|]. intros u u' _ _ _ _. unfold below. assert (Z0 : forall t, lim L w rho (polar r t) = 0) by (intros t; apply NNPP; intros X; apply Hc; exists t; auto). rewrite !Z0. reflexivity. }
  destruct Q as (Z1 & L1 & C1). destruct (HA r (map snd L) Hr) as (Z2 & B1 & B2). rewrite map_length in B1. exists (Z1 ++ Z2). split; [rewrite app_length; lia|].
  assert (SB : forall u, 0 <= u <= 1 -> ~ In u Z2 -> seen_at L w rho (polar r (tl + u * dT)) = below (fun _ u => lim L w rho (polar r (tl + u * dT))) 0 u).
  { intros u Hu HN. assert (O : off_masses L (polar r (tl + u * dT))) by (apply off_dec; intros X; apply HN, B2; auto). pose proof (lim_seen L w rho _ Hrho O) as Q. unfold seen_at, below, seen in *. destruct (Rlt_dec (Cmod _) rho), (Rlt_dec (lim _ _ _ _) 0); tauto. }
  intros u u' U0 U1 U2 NZ. rewrite !SB; try lra.
  - apply C1; auto. intros x Hx. apply NZ, in_or_app; auto.
  - intros X. apply (NZ u'); [apply in_or_app; auto|lra].
  - intros X. apply (NZ u); [apply in_or_app; auto|lra].
Qed.
(** changes between neighbouring points of a row of the grid *)
Lemma row_changes L w rho g : 0 < rho -> exists E, 0 <= E /\ forall nr nt j, (2 <= nr)%nat -> (2 <= nt)%nat -> cell_area g nr nt j <> 0 ->
  sumn (nt - 1) (fun i => Rabs (seen_at L w rho (grid_point g nr nt j i) - seen_at L w rho (grid_point g nr nt j (S i)))) <= E.
Proof.
  intros Hrho. destruct g as [[rl rh] [tl th]]. destruct (circle_jumps L w rho tl (th - tl) Hrho) as (K & HK). exists (2 * INR K). split; [pose proof (pos_INR K); lra|]. intros nr nt j Hr Ht HC.
  assert (Hrj : spaced rl rh nr j <> 0) by (intros E; apply HC; unfold cell_area; rewrite E; ring). destruct (HK _ Hrj) as (Z & LZ & CZ). eapply Rle_trans.
  - pose proof (few_changes (fun u => seen_at L w rho (polar (spaced rl rh nr j) (tl + u * (th - tl)))) Z (nt - 1) ltac:(lia) ltac:(intros; apply seen_at_01) CZ) as Q. eapply Rle_trans; [|exact Q]. right. apply sumn_ext. intros i Hi. unfold grid_point. rewrite !(spaced_cell tl th nt) by lia. reflexivity.
  - apply le_INR in LZ. lra.
Qed.
(** sums of weights against sums over points *)
Lemma weights_sum (b ws : nat -> R) o m e B : (forall i, Rabs (b i) <= B) -> Rabs (sumn m ws - sumn (o + m + e) b) <= sumn m (fun i => Rabs (ws i - b (o + i)%nat)) + INR (o + e) * B.
Proof.
  intros HB. rewrite !sumn_split. pose proof (sumn_abs m (fun i => ws i - b (o + i)%nat)) as A. rewrite sumn_minus in A.
  assert (S : forall k f, (forall i : nat, Rabs (f i) <= B) -> Rabs (sumn k f) <= INR k * B). { intros k f Hf. eapply Rle_trans; [apply sumn_abs|]. rewrite <- sumn_const. apply sumn_le. intros; apply Hf. }
  pose proof (S o b HB) as S1. pose proof (S e (fun i => b (o + m + i)%nat) (fun i => HB _)) as S2. rewrite plus_INR.
  match goal with |- Rabs (?x - (?a + ?y + ?c)) <= _ => replace (x - (a + y + c)) with ((x - y) + (- a + - c)) by ring end. eapply Rle_trans; [apply Rabs_triang|]. pose proof (Rabs_triang (- sumn o b) (- sumn e (fun i => b (o + m + i)%nat))) as T. rewrite !Rabs_Ropp in T. lra.
Qed.
