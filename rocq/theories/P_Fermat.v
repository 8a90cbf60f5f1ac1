(** Every source position has an image at the minimum of the time delay (C73). *)
From Coq Require Import Reals List Lra Lia Classical.
From Coquelicot Require Import Coquelicot.
From Verif Require Import Base_R Base_List Base_C S_PointSource P_Lens P_Poly P_PolyRoots P_Images P_ShootLimit.
Import ListNotations.
Local Open Scope R_scope.

Definition d2 (z p : C) : R := (fst z - fst p) ^ 2 + (snd z - snd p) ^ 2.
Lemma d2_nonneg z p : 0 <= d2 z p.
Proof. unfold d2. pose proof (pow2_ge_0 (fst z - fst p)). pose proof (pow2_ge_0 (snd z - snd p)). lra. Qed.
Lemma d2_pos z p : z <> p -> 0 < d2 z p.
Proof.
  intros H. destruct (Rle_lt_or_eq_dec 0 (d2 z p) (d2_nonneg z p)) as [|E]; auto. exfalso. apply H. unfold d2 in E. destruct z as [x y], p as [a b]. cbn in *.
  pose proof (pow2_ge_0 (x - a)). pose proof (pow2_ge_0 (y - b)). assert (x - a = 0) by (apply Rsqr_0_uniq; unfold Rsqr; lra). assert (y - b = 0) by (apply Rsqr_0_uniq; unfold Rsqr; lra). f_equal; lra.
Qed.
Lemma d2_self z p : d2 z p <> 0 -> z <> p.
Proof. intros H E. apply H. subst. unfold d2. ring. Qed.

(** the time delay, and the same with the logarithm cut off near the masses *)
Fixpoint wells (d : R) (L : lens_system) (z : C) : R :=
  match L with
  | [] => 0
  | (m, p) :: t => m * ln (Rmax (d2 z p) d) + wells d t z
  end.
Fixpoint wells0 (L : lens_system) (z : C) : R :=
  match L with
  | [] => 0
  | (m, p) :: t => m * ln (d2 z p) + wells0 t z
  end.
Definition delay (L : lens_system) (w z : C) : R := d2 z w - wells0 L z.
Definition positive (L : lens_system) : Prop := forall m p, In (m, p) L -> 0 < m.
Lemma positive_cons m p L : positive ((m, p) :: L) -> 0 < m /\ positive L.
Proof. intros H. split; [apply (H m p); now left|]. intros m' p' H'. apply (H m' p'). now right. Qed.
Lemma off_cons m p L z : off_masses ((m, p) :: L) z -> z <> p /\ off_masses L z.
Proof. intros H. split; [apply (H m p); now left|]. intros m' p' H'. apply (H m' p'). now right. Qed.

Lemma ln_mono a b : 0 < a -> a <= b -> ln a <= ln b.
Proof. intros H [E|<-]; [left; apply ln_increasing; auto|lra]. Qed.
Lemma wells_above L d z : positive L -> 0 < d -> off_masses L z -> wells0 L z <= wells d L z.
Proof.
  intros P Hd. induction L as [|[m p] L IH]; intros O; cbn; [lra|]. apply positive_cons in P as (Pm & P). apply off_cons in O as (O1 & O2). specialize (IH P O2).
  assert (ln (d2 z p) <= ln (Rmax (d2 z p) d)) by (apply ln_mono; [now apply d2_pos|apply Rmax_l]). nra.
Qed.
Lemma wells_eq L d z : (forall m p, In (m, p) L -> d <= d2 z p) -> wells d L z = wells0 L z.
Proof.
  induction L as [|[m p] L IH]; intros H; cbn; [reflexivity|]. rewrite Rmax_left by (apply (H m p); now left). rewrite IH; [reflexivity|]. intros m' p' H'. apply (H m' p'). now right.
Qed.

Lemma Rsq_abs x : x * x = Rabs x * Rabs x.
Proof. rewrite <- Rabs_mult, Rabs_pos_eq; [reflexivity|nra]. Qed.
(** *** far away the delay grows *)
Lemma ln_chord x k : 0 < x -> 0 < k -> ln x <= x / k + ln k.
Proof.
  intros Hx Hk. assert (0 < x / k) by (apply Rdiv_lt_0_compat; auto). pose proof (exp_ineq1_le (ln (x / k))) as E. rewrite exp_ln in E by auto. rewrite ln_div in E by auto. lra.
Qed.
Fixpoint mass (L : lens_system) : R := match L with [] => 0 | (m, _) :: t => m + mass t end.
Fixpoint spread (L : lens_system) : R := match L with [] => 0 | (_, p) :: t => d2 p (RtoC 0) + spread t end.
Lemma mass_nonneg L : positive L -> 0 <= mass L.
Proof. induction L as [|[m p] L IH]; intros P; cbn; [lra|]. apply positive_cons in P as (Pm & P). specialize (IH P). lra. Qed.
Lemma spread_nonneg L : 0 <= spread L.
Proof. induction L as [|[m p] L IH]; cbn; [lra|]. pose proof (d2_nonneg p (RtoC 0)). lra. Qed.
Lemma spread_in L m p : In (m, p) L -> d2 p (RtoC 0) <= spread L.
Proof.
  induction L as [|[m' p'] L IH]; [intros []|]. intros [E|H]; cbn.
  - injection E as -> ->. pose proof (spread_nonneg L). lra.
  - specialize (IH H). pose proof (d2_nonneg p' (RtoC 0)). lra.
Qed.
Lemma d2_two z p : d2 z p <= 2 * d2 z (RtoC 0) + 2 * d2 p (RtoC 0).
Proof. unfold d2. cbn. pose proof (pow2_ge_0 (fst z + fst p)). pose proof (pow2_ge_0 (snd z + snd p)). nra. Qed.
Lemma wells_le L d z (B k : R) : positive L -> 0 < d -> 0 < k -> (forall m p, In (m, p) L -> Rmax (d2 z p) d <= B) ->
  wells d L z <= mass L * (B / k + ln k).
Proof.
  intros P Hd Hk. induction L as [|[m p] L IH]; intros H; cbn; [lra|]. apply positive_cons in P as (Pm & P).
  assert (H1 : Rmax (d2 z p) d <= B) by (apply (H m p); now left). specialize (IH P). assert (H2 : wells d L z <= mass L * (B / k + ln k)) by (apply IH; intros m' p' H'; apply (H m' p'); now right).
  assert (X : 0 < Rmax (d2 z p) d) by (pose proof (Rmax_r (d2 z p) d); lra). pose proof (ln_chord _ k X Hk) as C1.
  assert (Rmax (d2 z p) d / k <= B / k) by (apply Rmult_le_compat_r; [left; now apply Rinv_0_lt_compat|auto]). nra.
Qed.
Lemma grows L w (V : R) : positive L -> exists r, 0 < r /\ forall d z, 0 < d <= 1 -> ~ in_square r z -> V < d2 z w - wells d L z.
Proof.
  intros P. pose proof (mass_nonneg L P) as M0. pose proof (spread_nonneg L) as S0. set (k := 4 * mass L + 1). set (X := mass L * ((2 * spread L + 1) / k + ln k)).
  pose proof (d2_nonneg w (RtoC 0)) as W0. set (r := 4 * (Rabs V + Rabs X + 3 * d2 w (RtoC 0)) + 1).
  assert (Hk : 0 < k) by (unfold k; lra). assert (Hr : 1 <= r) by (unfold r; pose proof (Rabs_pos V); pose proof (Rabs_pos X); lra). exists r. split; [lra|]. intros d z Hd N.
  assert (Z : r ^ 2 < d2 z (RtoC 0)).
  { unfold d2. cbn. assert (r < Rabs (fst z) \/ r < Rabs (snd z)) as [A|A].
    { destruct (Rlt_dec r (Rabs (fst z))); auto. destruct (Rlt_dec r (Rabs (snd z))); auto. exfalso. apply N. split; apply Rabs_le_between; lra. }
    - pose proof (Rabs_pos (fst z)). assert (r * r < fst z * fst z) by (rewrite (Rsq_abs (fst z)); nra). nra.
    - pose proof (Rabs_pos (snd z)). assert (r * r < snd z * snd z) by (rewrite (Rsq_abs (snd z)); nra). nra. }
  assert (W : wells d L z <= mass L * ((2 * d2 z (RtoC 0) + 2 * spread L + 1) / k + ln k)).
  { apply wells_le; auto; [lra|]. intros m p H. apply spread_in in H. pose proof (d2_two z p). pose proof (d2_nonneg z p). pose proof (d2_nonneg z (RtoC 0)). apply Rmax_lub; lra. }
  assert (E : mass L * ((2 * d2 z (RtoC 0) + 2 * spread L + 1) / k + ln k) = 2 * (mass L / k) * d2 z (RtoC 0) + X) by (unfold X; field; lra).
  assert (Q : mass L / k <= / 4). { unfold k. apply Rmult_le_reg_r with (4 * mass L + 1); [lra|]. unfold Rdiv. rewrite Rmult_assoc, Rinv_l by lra. lra. }
  assert (T : 3 / 4 * d2 z (RtoC 0) - 3 * d2 w (RtoC 0) <= d2 z w).
  { unfold d2. cbn. pose proof (pow2_ge_0 (fst z / 2 - 2 * fst w)). pose proof (pow2_ge_0 (snd z / 2 - 2 * snd w)). nra. }
  rewrite E in W. assert (2 * (mass L / k) * d2 z (RtoC 0) <= / 2 * d2 z (RtoC 0)) by (apply Rmult_le_compat_r; [apply d2_nonneg|lra]).
  pose proof (Rle_abs V). pose proof (Rle_abs X). assert (r <= r ^ 2) by nra. unfold r in H2 at 1. lra.
Qed.

(** *** close to a mass the cut-off delay is large *)
Lemma wells_B L d z B : positive L -> 0 < d -> (forall m p, In (m, p) L -> Rmax (d2 z p) d <= B) -> wells d L z <= mass L * ln B.
Proof.
  intros P Hd. induction L as [|[m p] L IH]; intros H; cbn; [lra|]. apply positive_cons in P as (Pm & P).
  assert (H1 : Rmax (d2 z p) d <= B) by (apply (H m p); now left). assert (H2 : wells d L z <= mass L * ln B) by (apply IH; auto; intros m' p' H'; apply (H m' p'); now right).
  assert (ln (Rmax (d2 z p) d) <= ln B) by (apply ln_mono; auto; pose proof (Rmax_r (d2 z p) d); lra). nra.
Qed.
Lemma ln_nonneg B : 1 <= B -> 0 <= ln B.
Proof. intros H. rewrite <- ln_1. apply ln_mono; lra. Qed.
Lemma wells_near L d z B m p : positive L -> 0 < d -> 1 <= B -> (forall m p, In (m, p) L -> Rmax (d2 z p) d <= B) ->
  In (m, p) L -> d2 z p <= d -> wells d L z <= m * ln d + mass L * ln B.
Proof.
  intros P Hd HB. pose proof (ln_nonneg B HB) as LB. induction L as [|[m' p'] L IH]; intros H; [intros []|]. apply positive_cons in P as (Pm & P). intros [E|Hi] D; cbn.
  - injection E as -> ->. rewrite Rmax_right by auto. assert (wells d L z <= mass L * ln B) by (apply wells_B; auto; intros m'' p'' H'; apply (H m'' p''); now right). nra.
  - assert (H1 : Rmax (d2 z p') d <= B) by (apply (H m' p'); now left). assert (H2 : wells d L z <= m * ln d + mass L * ln B) by (apply IH; auto; intros m'' p'' H'; apply (H m'' p''); now right).
    assert (ln (Rmax (d2 z p') d) <= ln B) by (apply ln_mono; auto; pose proof (Rmax_r (d2 z p') d); lra). nra.
Qed.
Lemma deep L X : positive L -> exists d, 0 < d <= 1 /\ forall e m p, 0 < e <= d -> In (m, p) L -> m * ln e < X.
Proof.
  induction L as [|[m p] L IH]; intros P; [exists 1; split; [lra|]; intros e m p _ []|]. apply positive_cons in P as (Pm & P). destruct (IH P) as (d & Hd & H).
  set (c := exp (- (Rabs X + 1) / m)). assert (Hc : 0 < c) by apply exp_pos. exists (Rmin d c). split; [split; [apply Rmin_glb_lt; lra|apply Rle_trans with d; [apply Rmin_l|lra]]|].
  intros e m' p' He [E|Hi].
  - injection E as <- <-. assert (ln e <= - (Rabs X + 1) / m). { rewrite <- (ln_exp (- (Rabs X + 1) / m)). apply ln_mono; [lra|]. fold c. apply Rle_trans with (Rmin d c); [lra|apply Rmin_r]. }
    assert (m * ln e <= m * (- (Rabs X + 1) / m)) by (apply Rmult_le_compat_l; lra). replace (m * (- (Rabs X + 1) / m)) with (- (Rabs X + 1)) in H1 by (field; lra). pose proof (Rle_abs (- X)). rewrite Rabs_Ropp in H2. lra.
  - apply (H e m' p'); auto. split; [lra|]. apply Rle_trans with (Rmin d c); [lra|apply Rmin_l].
Qed.
Lemma clear L z : off_masses L z -> exists d, 0 < d <= 1 /\ forall m p, In (m, p) L -> d <= d2 z p.
Proof.
  induction L as [|[m p] L IH]; intros O; [exists 1; split; [lra|]; intros m p []|]. apply off_cons in O as (O1 & O2). destruct (IH O2) as (d & Hd & H). apply d2_pos in O1.
  exists (Rmin d (d2 z p)). split; [split; [apply Rmin_glb_lt; lra|apply Rle_trans with d; [apply Rmin_l|lra]]|]. intros m' p' [E|Hi].
  - injection E as <- <-. apply Rmin_r.
  - apply Rle_trans with d; [apply Rmin_l|eauto].
Qed.

(** *** the cut-off delay is continuous *)
Definition rcont (g : C -> R) (z : C) : Prop :=
  forall eps, 0 < eps -> exists d, 0 < d /\ forall h, Cmod h < d -> Rabs (g (z + h)%C - g z) < eps.
Lemma rcont_const c z : rcont (fun _ => c) z.
Proof. intros e He. exists 1. split; [lra|]. intros h _. replace (c - c) with 0 by ring. now rewrite Rabs_R0. Qed.
Lemma rcont_fst z : rcont (fun z => fst z) z.
Proof. intros e He. exists e. split; auto. intros h Hh. cbn. replace (fst z + fst h - fst z) with (fst h) by ring. apply Rle_lt_trans with (Cmod h); auto. apply (Rle_trans _ _ _ (Rmax_l _ _) (Rmax_Cmod h)). Qed.
Lemma rcont_snd z : rcont (fun z => snd z) z.
Proof. intros e He. exists e. split; auto. intros h Hh. cbn. replace (snd z + snd h - snd z) with (snd h) by ring. apply Rle_lt_trans with (Cmod h); auto. apply (Rle_trans _ _ _ (Rmax_r _ _) (Rmax_Cmod h)). Qed.
Lemma rcont_plus f g z : rcont f z -> rcont g z -> rcont (fun z => f z + g z) z.
Proof.
  intros F G e He. destruct (F (e / 2)) as (d1 & H1 & F1); [lra|]. destruct (G (e / 2)) as (d3 & H3 & G1); [lra|]. exists (Rmin d1 d3). split; [now apply Rmin_glb_lt|]. intros h Hh.
  specialize (F1 h (Rlt_le_trans _ _ _ Hh (Rmin_l _ _))). specialize (G1 h (Rlt_le_trans _ _ _ Hh (Rmin_r _ _))).
  replace (f (z + h)%C + g (z + h)%C - (f z + g z)) with ((f (z + h)%C - f z) + (g (z + h)%C - g z)) by ring. pose proof (Rabs_triang (f (z + h)%C - f z) (g (z + h)%C - g z)). lra.
Qed.
Lemma rcont_comp (phi : R -> R) g z : rcont g z -> continuity_pt phi (g z) -> rcont (fun z => phi (g z)) z.
Proof.
  intros G P e He. destruct (P e He) as (a & Ha & H). destruct (G a Ha) as (d & Hd & G1). exists d. split; auto. intros h Hh.
  destruct (Req_dec (g (z + h)%C) (g z)) as [E|N]; [rewrite E; replace (phi (g z) - phi (g z)) with 0 by ring; now rewrite Rabs_R0|].
  apply (H (g (z + h)%C)). split; [split; [exact I|now apply not_eq_sym]|]. cbn. unfold R_dist. now apply G1.
Qed.
Lemma rcont_d2 p z : rcont (fun z => d2 z p) z.
Proof.
  unfold d2. apply rcont_plus.
  - apply (rcont_comp (fun x => (x - fst p) ^ 2) (fun z => fst z)); [apply rcont_fst|]. apply derivable_continuous_pt. reg.
  - apply (rcont_comp (fun x => (x - snd p) ^ 2) (fun z => snd z)); [apply rcont_snd|]. apply derivable_continuous_pt. reg.
Qed.
Lemma lnmax_cont d x : 0 < d -> continuity_pt (fun x => ln (Rmax x d)) x.
Proof.
  intros Hd. apply (continuity_pt_comp (fun x => Rmax x d) ln).
  - intros e He. exists e. split; auto. intros y (_ & Hy). cbn in *. unfold R_dist in *. apply Rle_lt_trans with (Rabs (y - x)); auto.
    unfold Rmax. do 2 destruct Rle_dec; unfold Rabs; repeat destruct Rcase_abs; lra.
  - apply derivable_continuous_pt. exists (/ Rmax x d). apply derivable_pt_lim_ln. pose proof (Rmax_r x d). lra.
Qed.
Lemma rcont_wells L d z : 0 < d -> rcont (wells d L) z.
Proof.
  intros Hd. induction L as [|[m p] L IH]; cbn; [apply rcont_const|]. apply rcont_plus; auto.
  apply (rcont_comp (fun x => m * ln (Rmax x d)) (fun z => d2 z p)); [apply rcont_d2|]. apply (continuity_pt_mult (fun _ => m)); [apply continuity_pt_const; intros ? ?; reflexivity|now apply lnmax_cont].
Qed.
Lemma ccont_RtoC g z : rcont g z -> ccont (fun z => RtoC (g z)) z.
Proof. intros G e He. destruct (G e He) as (d & Hd & H). exists d. split; auto. intros h Hh. rewrite <- RtoC_minus, Cmod_R. auto. Qed.

Theorem delay_min L w : positive L -> exists z, off_masses L z /\ forall z', off_masses L z' -> delay L w z <= delay L w z'.
Proof.
  intros P. destruct (far_masses L) as (R0 & HR & Far). set (z0 := RtoC R0). assert (O0 : off_masses L z0). { apply Far. unfold z0. rewrite Cmod_R, Rabs_pos_eq; lra. }
  destruct (clear L z0 O0) as (da & Ha & Ka). set (V := delay L w z0). destruct (grows L w V P) as (r & Hr & G). pose proof (spread_nonneg L) as S0. set (B := 4 * r ^ 2 + 2 * spread L + 1).
  destruct (deep L (- V - mass L * ln B) P) as (db & Hb & Kb). set (d := Rmin da db). assert (Hd : 0 < d <= 1) by (split; [apply Rmin_glb_lt; lra|apply Rle_trans with da; [apply Rmin_l|lra]]).
  set (g := fun z => d2 z w - wells d L z).
  assert (Cg : forall z, ccont (fun z => RtoC (exp (g z))) z).
  { intros z. apply ccont_RtoC. apply (rcont_comp exp g); [|apply derivable_continuous_pt, derivable_pt_exp]. unfold g. apply (rcont_plus (fun z => d2 z w) (fun z => - wells d L z)); [apply rcont_d2|].
    apply (rcont_comp Ropp (wells d L)); [apply rcont_wells; lra|]. apply derivable_continuous_pt. reg. }
  destruct (square_min _ r Hr Cg) as (z & Iz & Mz).
  assert (Mz' : forall z', in_square r z' -> g z <= g z').
  { intros z' I'. specialize (Mz z' I'). rewrite !Cmod_R, !(Rabs_pos_eq (exp _)) in Mz by (left; apply exp_pos). destruct (Rle_lt_dec (g z) (g z')) as [|N]; auto. apply exp_increasing in N. lra. }
  assert (E0 : g z0 = V). { unfold g, V, delay. rewrite wells_eq; [reflexivity|]. intros m p Hm. apply Rle_trans with da; [apply Rmin_l|eauto]. }
  assert (I0 : in_square r z0). { apply NNPP. intros N. specialize (G d z0 Hd N). fold (g z0) in G. lra. }
  assert (Lz : g z <= V) by (rewrite <- E0; auto).
  assert (Away : forall m p, In (m, p) L -> d < d2 z p).
  { intros m p Hm. apply Rnot_le_lt. intros N. assert (W : wells d L z <= m * ln d + mass L * ln B).
    { apply wells_near with p; auto; try lra; [unfold B; nra|]. intros m' p' H'. apply spread_in in H'. pose proof (d2_two z p'). assert (d2 z (RtoC 0) <= 2 * r ^ 2) by (destruct Iz; unfold d2; cbn; nra). unfold B. apply Rmax_lub; nra. }
    assert (m * ln d < - V - mass L * ln B) by (apply (Kb d m p); auto; split; [lra|apply Rmin_r]). pose proof (d2_nonneg z w). unfold g in Lz. lra. }
  exists z. split.
  - intros m p Hm. apply d2_self. pose proof (Away m p Hm). apply Rgt_not_eq. lra.
  - intros z' O'. assert (Ez : delay L w z = g z). { unfold delay, g. rewrite wells_eq; [reflexivity|]. intros m p Hm. left. eauto. }
    rewrite Ez. assert (g z' <= delay L w z') by (unfold g, delay; pose proof (wells_above L d z' P ltac:(lra) O'); lra).
    destruct (classic (in_square r z')) as [I|N]; [specialize (Mz' z' I); lra|]. specialize (G d z' Hd N). fold (g z') in G. lra.
Qed.

(** *** first and second derivative at the minimum *)
Lemma local_min_derivs (F F1 : R -> R) (F2 e : R) : 0 < e -> (forall t, Rabs t < e -> is_derive F t (F1 t)) -> is_derive F1 0 F2 ->
  (forall t, Rabs t < e -> F 0 <= F t) -> F1 0 = 0 /\ 0 <= F2.
Proof.
  intros He D1 D2 M. assert (Z : F1 0 = 0).
  { destruct (Req_dec (F1 0) 0) as [|N]; auto. exfalso. assert (Da : derivable_pt_lim F 0 (F1 0)) by (apply is_derive_Reals, D1; rewrite Rabs_R0; auto).
    assert (Pa : 0 < Rabs (F1 0) / 2) by (apply Rabs_pos_lt in N; lra). destruct (Da _ Pa) as ((a & Ha) & H). cbn in H.
    set (s := Rmin a e / 2). assert (Hs : 0 < s /\ s < a /\ s < e). { unfold s. pose proof (Rmin_l a e). pose proof (Rmin_r a e). assert (0 < Rmin a e) by (apply Rmin_glb_lt; auto). lra. }
    destruct (Rdichotomy _ _ N) as [Lt|Gt].
    - specialize (H s ltac:(lra) ltac:(rewrite Rabs_pos_eq; lra)). specialize (M s ltac:(rewrite Rabs_pos_eq; lra)). rewrite Rplus_0_l in H. rewrite (Rabs_left (F1 0)) in H by auto.
      apply Rabs_def2 in H as (H & _). assert (0 <= (F s - F 0) / s) by (apply Rmult_le_pos; [lra|left; apply Rinv_0_lt_compat; lra]). lra.
    - assert (As : Rabs (- s) < a) by (rewrite Rabs_Ropp, Rabs_pos_eq; lra). specialize (H (- s) ltac:(lra) As). specialize (M (- s) ltac:(rewrite Rabs_Ropp, Rabs_pos_eq; lra)). rewrite Rplus_0_l in H. rewrite (Rabs_pos_eq (F1 0)) in H by lra.
      apply Rabs_def2 in H as (_ & H). assert (0 <= (F (- s) - F 0) / s) by (apply Rmult_le_pos; [lra|left; apply Rinv_0_lt_compat; lra]). replace ((F (- s) - F 0) / - s) with (- ((F (- s) - F 0) / s)) in H by (field; lra). lra. }
  split; auto. apply Rnot_lt_le. intros N. assert (Da : derivable_pt_lim F1 0 F2) by now apply is_derive_Reals. destruct (Da (- F2 / 2) ltac:(lra)) as ((a & Ha) & H). cbn in H.
  set (s := Rmin a e / 2). assert (Hs : 0 < s /\ s < a /\ s < e). { unfold s. pose proof (Rmin_l a e). pose proof (Rmin_r a e). assert (0 < Rmin a e) by (apply Rmin_glb_lt; auto). lra. }
  destruct (MVT_cor2 F F1 0 s ltac:(lra)) as (c & Ec & Hc). { intros c Hc. apply is_derive_Reals, D1. rewrite Rabs_pos_eq; lra. }
  specialize (M s ltac:(rewrite Rabs_pos_eq; lra)). specialize (H c ltac:(lra) ltac:(rewrite Rabs_pos_eq; lra)). rewrite Rplus_0_l, Z, Rminus_0_r in H. apply Rabs_def2 in H as (H & _).
  assert (F1 c / c < 0) by lra. assert (F1 c < 0). { replace (F1 c) with (F1 c / c * c) by (field; lra). nra. } nra.
Qed.

(** along the line z + t h *)
Definition step (z h : C) (t : R) : C := (fst z + t * fst h, snd z + t * snd h).
Definition nh (h : C) : R := fst h ^ 2 + snd h ^ 2.
Definition bh (z p h : C) : R := (fst z - fst p) * fst h + (snd z - snd p) * snd h.
Lemma d2_step z h p t : d2 (step z h t) p = d2 z p + 2 * bh z p h * t + nh h * t ^ 2.
Proof. unfold d2, step, bh, nh. cbn. ring. Qed.
Fixpoint wells1 (L : lens_system) (z h : C) (t : R) : R :=
  match L with
  | [] => 0
  | (m, p) :: r => m * ((2 * bh z p h + 2 * nh h * t) / (d2 z p + 2 * bh z p h * t + nh h * t ^ 2)) + wells1 r z h t
  end.
Fixpoint wells2 (L : lens_system) (z h : C) : R :=
  match L with
  | [] => 0
  | (m, p) :: r => m * ((2 * nh h * d2 z p - (2 * bh z p h) ^ 2) / d2 z p ^ 2) + wells2 r z h
  end.
Lemma wells_d1 L z h t : off_masses L (step z h t) -> is_derive (fun t => wells0 L (step z h t)) t (wells1 L z h t).
Proof.
  induction L as [|[m p] L IH]; intros O; cbn; [apply (is_derive_const (K := R_AbsRing) (V := R_NormedModule) 0 t)|]. apply off_cons in O as (O1 & O2). apply (is_derive_plus (K := R_AbsRing) (V := R_NormedModule) (fun t => m * ln (d2 (step z h t) p)) (fun t => wells0 L (step z h t))); [|auto].
  apply d2_pos in O1. rewrite d2_step in O1. apply is_derive_ext with (fun t => m * ln (d2 z p + 2 * bh z p h * t + nh h * t ^ 2)); [intros u; now rewrite d2_step|].
  auto_derive; [lra|]. field. lra.
Qed.
Lemma wells_d2 L z h : off_masses L z -> is_derive (wells1 L z h) 0 (wells2 L z h).
Proof.
  induction L as [|[m p] L IH]; intros O; cbn; [apply (is_derive_const (K := R_AbsRing) (V := R_NormedModule) 0 0)|]. apply off_cons in O as (O1 & O2).
  apply (is_derive_plus (K := R_AbsRing) (V := R_NormedModule) (fun t => m * ((2 * bh z p h + 2 * nh h * t) / (d2 z p + 2 * bh z p h * t + nh h * t ^ 2))) (wells1 L z h)); [|auto].
  apply d2_pos in O1. auto_derive; [lra|]. field. lra.
Qed.
Lemma off_near L z h : off_masses L z -> exists e, 0 < e /\ forall t, Rabs t < e -> off_masses L (step z h t).
Proof.
  intros O. destruct (clear L z O) as (d & Hd & H). set (K := Rabs (fst h) + Rabs (snd h) + 1). assert (HK : 1 <= K) by (unfold K; pose proof (Rabs_pos (fst h)); pose proof (Rabs_pos (snd h)); lra).
  exists (d / (2 * K)). split; [apply Rdiv_lt_0_compat; lra|]. intros t Ht m p Hm E. specialize (H m p Hm). assert (T : Rabs t * K < d / 2). { apply Rmult_lt_reg_r with (/ K); [apply Rinv_0_lt_compat; lra|]. rewrite Rmult_assoc, Rinv_r by lra. replace (d / 2 * / K) with (d / (2 * K)) by (field; lra). lra. }
  unfold step in E. destruct p as [a b]. injection E as Ea Eb. unfold d2 in H. cbn in H.
  assert (Xa : Rabs (fst z - a) <= Rabs t * Rabs (fst h)) by (replace (fst z - a) with (- (t * fst h)) by lra; rewrite Rabs_Ropp, Rabs_mult; lra).
  assert (Xb : Rabs (snd z - b) <= Rabs t * Rabs (snd h)) by (replace (snd z - b) with (- (t * snd h)) by lra; rewrite Rabs_Ropp, Rabs_mult; lra).
  unfold K in T. pose proof (Rabs_pos t). pose proof (Rabs_pos (fst z - a)). pose proof (Rabs_pos (snd z - b)). pose proof (Rsq_abs (fst z - a)). pose proof (Rsq_abs (snd z - b)).
  assert (Rabs (fst z - a) + Rabs (snd z - b) < d / 2) by nra. nra.
Qed.
Lemma min_conditions L w z h : off_masses L z -> (forall z', off_masses L z' -> delay L w z <= delay L w z') ->
  2 * bh z w h = wells1 L z h 0 /\ wells2 L z h <= 2 * nh h.
Proof.
  intros O M. destruct (off_near L z h O) as (e & He & Hn). assert (S0 : step z h 0 = z) by (unfold step; destruct z; cbn; f_equal; ring).
  destruct (local_min_derivs (fun t => delay L w (step z h t)) (fun t => (2 * bh z w h + 2 * nh h * t) - wells1 L z h t) (2 * nh h - wells2 L z h) e He) as (A & B).
  - intros t Ht. unfold delay. apply (is_derive_minus (K := R_AbsRing) (V := R_NormedModule) (fun t => d2 (step z h t) w) (fun t => wells0 L (step z h t))); [|apply wells_d1; auto].
    apply is_derive_ext with (fun t => d2 z w + 2 * bh z w h * t + nh h * t ^ 2); [intros u; now rewrite d2_step|]. auto_derive; [exact I|]. ring.
  - apply (is_derive_minus (K := R_AbsRing) (V := R_NormedModule) (fun t => 2 * bh z w h + 2 * nh h * t) (wells1 L z h)); [|now apply wells_d2]. auto_derive; [exact I|]. ring.
  - intros t Ht. rewrite S0. apply M. auto.
  - split; lra.
Qed.
(** in complex notation *)
Lemma deflection_parts L z h : off_masses L z -> wells1 L z h 0 = 2 * (fst (deflection L z) * fst h + snd (deflection L z) * snd h).
Proof.
  induction L as [|[m p] L IH]; intros O; cbn; [ring|]. apply off_cons in O as (O1 & O2). rewrite IH by auto. apply d2_pos in O1. unfold bh, d2, nh in *. destruct z as [x y], p as [a b]. cbn in *. field. apply Rgt_not_eq. nra.
Qed.
Lemma shear_parts L z h : off_masses L z -> wells2 L z h = - 2 * fst (Cconj h * Cconj h * shear L z)%C.
Proof.
  induction L as [|[m p] L IH]; intros O; [cbn; ring|]. apply off_cons in O as (O1 & O2). cbn [wells2 shear]. rewrite IH by auto. apply d2_pos in O1. unfold bh, d2, nh in *. destruct z as [x y], p as [a b], h as [u v]. destruct (shear L (x, y)) as [s1 s2]. cbn in *. field. split; nra.
Qed.
Theorem minimum_image L w : positive L -> exists z, is_image L w z /\ Cmod (shear L z) <= 1.
Proof.
  intros P. destruct (delay_min L w P) as (z & O & M). exists z. split.
  - split; auto. destruct (min_conditions L w z (RtoC 1) O M) as (E1 & _). destruct (min_conditions L w z Ci O M) as (E2 & _). rewrite deflection_parts in E1, E2 by auto. unfold bh in *. cbn in E1, E2.
    unfold lens_map. apply injective_projections; cbn; lra.
  - destruct (Ceq_dec (shear L z) (RtoC 0)) as [E|N]; [rewrite E, Cmod_0; lra|]. pose proof (proj1 (Cmod_gt_0 _) N) as Ps. set (S := shear L z) in *.
    destruct (Croot (- Cconj S)%C 2) as (u & Eu); [lia|intros E; apply (f_equal Cmod) in E; rewrite Cmod_opp, Cmod_conj, Cmod_0 in E; lra|].
    assert (Mu : Cmod u * Cmod u = Cmod S). { rewrite <- Cmod_mult. replace (u * u)%C with (u ^ 2)%C by (cbn; ring). rewrite Eu, Cmod_opp. apply Cmod_conj. }
    destruct (min_conditions L w z (Cconj u) O M) as (_ & H2). rewrite shear_parts in H2 by auto. fold S in H2. rewrite !Cconj_conj in H2. replace (u * u)%C with (u ^ 2)%C in H2 by (cbn; ring). rewrite Eu in H2.
    assert (N2 : nh (Cconj u) = Cmod S). { rewrite <- Mu. unfold nh. rewrite Cmod_sq. cbn. ring. }
    rewrite N2 in H2. assert (X : fst (- Cconj S * S)%C = - (Cmod S * Cmod S)). { rewrite (Cmod_sq S). destruct S as [a b]. cbn. ring. }
    rewrite X in H2. nra.
Qed.
Theorem minimum_det L w : positive L -> exists z, is_image L w z /\ forall D, jacobian_det L z D -> 0 <= D <= 1.
Proof.
  intros P. destruct (minimum_image L w P) as (z & I & S). exists z. split; auto. intros D J. pose proof (jac_det_shear L z (proj1 I)) as J'. rewrite det_jac_of in J'. rewrite (jac_det_unique _ _ _ _ J J'). pose proof (Cmod_ge_0 (shear L z)). nra.
Qed.
Lemma sumR_ge_one (f : C -> R) l z : (forall y, In y l -> 0 <= f y) -> In z l -> f z <= sumR (map f l).
Proof.
  induction l as [|a l IH]; [intros _ []|]. intros H [E|Hi]; cbn.
  - subst. assert (0 <= sumR (map f l)). { apply sumR_nonneg. intros x Hx. apply in_map_iff in Hx as (y & <- & Hy). apply H. now right. } lra.
  - assert (0 <= f a) by (apply H; now left). specialize (IH (fun y Hy => H y (or_intror Hy)) Hi). lra.
Qed.
Theorem total_ge_one L w imgs D : positive L -> all_images L w imgs -> (forall z, In z imgs -> jacobian_det L z (D z) /\ D z <> 0) ->
  1 <= sumR (map (fun z => 1 / Rabs (D z)) imgs).
Proof.
  intros P (_ & Hi) HD. destruct (minimum_det L w P) as (z & I & B). apply Hi in I. destruct (HD z I) as (J & N). specialize (B _ J).
  apply Rle_trans with (1 / Rabs (D z)).
  - rewrite Rabs_pos_eq by lra. apply Rmult_le_reg_r with (D z); [lra|]. unfold Rdiv. rewrite Rmult_assoc, Rinv_l by lra. lra.
  - apply (sumR_ge_one (fun z => 1 / Rabs (D z))); auto. intros y Hy. destruct (HD y Hy) as (_ & Ny). apply Rabs_pos_lt in Ny. left. apply Rdiv_lt_0_compat; lra.
Qed.
