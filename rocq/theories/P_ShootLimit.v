(** The seen part of a circle and of a ray: polynomial conditions, their jumps, and the dependence on the angle. *)
From Coq Require Import Reals List Bool Arith ZArith Lia Lra Classical_Prop.
From Coquelicot Require Import Coquelicot.
From Verif Require Import Base_R Base_List Base_C S_Poly S_PointSource S_Inverse P_AnySource P_RowLimit P_AreaLimit.
Import ListNotations.
Local Open Scope R_scope.

(** ** polynomials in [z], as functions *)
Fixpoint leval (l : list C) (z : C) : C := match l with [] => RtoC 0 | c :: t => (c + z * leval t z)%C end.
Fixpoint ladd (s t : list C) : list C := match s, t with [], _ => t | _, [] => s | a :: s', b :: t' => (a + b)%C :: ladd s' t' end.
Fixpoint lmul (s t : list C) : list C := match s with [] => [] | a :: s' => ladd (map (Cmult a) t) (RtoC 0 :: lmul s' t) end.
Lemma ladd_eval s : forall t z, leval (ladd s t) z = (leval s z + leval t z)%C.
Proof. induction s as [|a s IH]; intros [|b t] z; cbn [ladd leval]; try rewrite IH; ring. Qed.
Lemma lmap_eval a t z : leval (map (Cmult a) t) z = (a * leval t z)%C.
Proof. induction t as [|b t IH]; cbn [map leval]; [ring|rewrite IH; ring]. Qed.
Lemma lmul_eval s t z : leval (lmul s t) z = (leval s z * leval t z)%C.
Proof. induction s as [|a s IH]; cbn [lmul leval]; [ring|]. rewrite ladd_eval, lmap_eval. cbn [leval]. rewrite IH. ring. Qed.
Lemma ladd_length s : forall t, (length (ladd s t) <= Nat.max (length s) (length t))%nat.
Proof. induction s as [|a s IH]; intros [|b t]; cbn [ladd length]; try lia. specialize (IH t). lia. Qed.
Lemma lmul_length s t : (length (lmul s t) <= length s + length t)%nat.
Proof. induction s as [|a s IH]; cbn [lmul length]; [lia|]. pose proof (ladd_length (map (Cmult a) t) (RtoC 0 :: lmul s t)). rewrite map_length in H. cbn [length] in H. lia. Qed.
Lemma peval_snoc l c z : peval (l ++ [c]) z = (z * peval l z + c)%C.
Proof. rewrite <- !polyval_peval. unfold polyval. rewrite fold_left_app. cbn. ring. Qed.
Lemma leval_rev l z : leval l z = peval (rev l) z.
Proof. induction l as [|a l IH]; [reflexivity|]. cbn [rev leval]. rewrite peval_snoc, IH. ring. Qed.
Definition polyfun (d : nat) (f : C -> C) : Prop := exists l, (length l <= d)%nat /\ forall z, f z = leval l z.
Lemma pf_const d c : (1 <= d)%nat -> polyfun d (fun _ => c).
Proof. intros H. exists [c]. split; [auto|]. intros z. cbn. ring. Qed.
Lemma pf_id d : (2 <= d)%nat -> polyfun d (fun z => z).
Proof. intros H. exists [RtoC 0; RtoC 1]. split; [auto|]. intros z. cbn. ring. Qed.
Lemma pf_add d f g : polyfun d f -> polyfun d g -> polyfun d (fun z => f z + g z)%C.
Proof. intros (s & L1 & E1) (t & L2 & E2). exists (ladd s t). split; [pose proof (ladd_length s t); lia|]. intros z. rewrite E1, E2, ladd_eval. reflexivity. Qed.
Lemma pf_mul a b d f g : polyfun a f -> polyfun b g -> (a + b <= d)%nat -> polyfun d (fun z => f z * g z)%C.
Proof. intros (s & L1 & E1) (t & L2 & E2) H. exists (lmul s t). split; [pose proof (lmul_length s t); lia|]. intros z. rewrite E1, E2, lmul_eval. reflexivity. Qed.
Lemma pf_mono a d f : polyfun a f -> (a <= d)%nat -> polyfun d f.
Proof. intros (s & L1 & E1) H. exists s. split; [lia|auto]. Qed.
Lemma pf_ext d f g : polyfun d f -> (forall z, g z = f z) -> polyfun d g.
Proof. intros (s & L1 & E1) H. exists s. split; auto. intros z. rewrite H. auto. Qed.
Lemma pf_roots d f : polyfun d f -> (exists z, f z <> RtoC 0) -> exists rs, (length rs <= d)%nat /\ forall z, f z = RtoC 0 -> In z rs.
Proof.
  intros (s & L1 & E1) (z & Hz). destruct (lists_exists (rev s)) as (rs & H1 & H2). { exists z. rewrite <- leval_rev, <- E1. auto. }
  exists rs. rewrite rev_length in H2. split; [lia|]. intros x Hx. apply H1. rewrite <- leval_rev, <- E1. auto.
Qed.

(** ** the lens equation without denominators *)
Fixpoint lden (L : lens_system) (z : C) : C := match L with [] => RtoC 1 | (m, p) :: t => (Cconj (z - p) * lden t z)%C end.
Fixpoint lnum (L : lens_system) (z : C) : C := match L with [] => RtoC 0 | (m, p) :: t => (RtoC m * lden t z + Cconj (z - p) * lnum t z)%C end.
Definition nsq (z : C) : R := fst z * fst z + snd z * snd z.
Definition lim (L : lens_system) (w : C) (rho : R) (z : C) : R := nsq ((z - w) * lden L z - lnum L z)%C - rho ^ 2 * nsq (lden L z).
Lemma nsq_mult a b : nsq (a * b)%C = nsq a * nsq b.
Proof. destruct a, b. unfold nsq. simpl. ring. Qed.
Lemma nsq_Cmod z : nsq z = Cmod z ^ 2.
Proof. unfold Cmod, nsq. rewrite <- Rsqr_pow2, Rsqr_sqrt; [ring|nra]. Qed.
Lemma nsq_conj z : RtoC (nsq z) = (z * Cconj z)%C.
Proof. destruct z. unfold nsq. apply Ceq; simpl; ring. Qed.
Lemma conj_nz z : z <> RtoC 0 -> Cconj z <> RtoC 0.
Proof. intros H E. apply H. rewrite <- (Cconj_conj z), E. apply Ceq; simpl; ring. Qed.
Lemma lden_nz L z : off_masses L z -> lden L z <> RtoC 0.
Proof.
  induction L as [|[m p] L IH]; intros H; cbn [lden]; [intros E; apply RtoC_inj in E; lra|]. apply Cmult_neq_0.
  - apply conj_nz. intros E. apply (H m p); [left; auto|]. replace z with (z - p + p)%C by ring. rewrite E. ring.
  - apply IH. intros m' p' Q. apply (H m' p'). right; auto.
Qed.
Lemma lden_defl L z : off_masses L z -> (deflection L z * lden L z = lnum L z)%C.
Proof.
  induction L as [|[m p] L IH]; intros H; cbn [lden lnum deflection]; [ring|]. assert (HL : off_masses L z) by (intros m' p' Q; apply (H m' p'); right; auto).
  assert (N : Cconj (z - p) <> RtoC 0). { apply conj_nz. intros E. apply (H m p); [left; auto|]. replace z with (z - p + p)%C by ring. rewrite E. ring. }
  rewrite <- (IH HL). field. auto.
Qed.
Lemma lim_eq L w rho z : off_masses L z -> lim L w rho z = nsq (lden L z) * (Cmod (lens_map L z - w)%C ^ 2 - rho ^ 2).
Proof.
  intros H. unfold lim. replace ((z - w) * lden L z - lnum L z)%C with ((lens_map L z - w) * lden L z)%C by (rewrite <- lden_defl by auto; unfold lens_map; ring). rewrite nsq_mult, (nsq_Cmod (lens_map L z - w)%C). ring.
Qed.
Lemma nsq_pos z : z <> RtoC 0 -> 0 < nsq z.
Proof. intros H. rewrite nsq_Cmod. apply pow_lt. apply Cmod_gt_0. auto. Qed.
Lemma lim_seen L w rho z : 0 < rho -> off_masses L z -> (seen L w rho z <-> lim L w rho z < 0).
Proof.
  intros Hr H. rewrite (lim_eq L w rho z H). pose proof (nsq_pos _ (lden_nz L z H)) as P. unfold seen. set (c := Cmod _). assert (0 <= c) by apply Cmod_ge_0. split; intros Q; [assert (c ^ 2 < rho ^ 2) by nra; nra|]. apply Rnot_le_lt. intros Q'. assert (rho ^ 2 <= c ^ 2) by (apply pow_incr; lra). nra.
Qed.
Lemma lim_zero L w rho z : 0 < rho -> off_masses L z -> (lim L w rho z = 0 <-> Cmod (lens_map L z - w)%C = rho).
Proof.
  intros Hr H. rewrite (lim_eq L w rho z H). pose proof (nsq_pos _ (lden_nz L z H)) as P. set (c := Cmod _). assert (0 <= c) by apply Cmod_ge_0. split; intros Q; [|rewrite Q; ring].
  apply Rmult_integral in Q. destruct Q as [Q|Q]; [lra|]. nra.
Qed.

(** ** on a circle the condition is a polynomial *)
Section Circle.
Variable r : R.
Let n (L : lens_system) := length L.
Fixpoint cden (L : lens_system) (z : C) : C := match L with [] => RtoC 1 | (m, p) :: t => ((z - p) * cden t z)%C end.
Fixpoint cnum (L : lens_system) (z : C) : C := match L with [] => RtoC 0 | (m, p) :: t => (RtoC m * cden t z + (z - p) * cnum t z)%C end.
Fixpoint sden (L : lens_system) (z : C) : C := match L with [] => RtoC 1 | (m, p) :: t => ((RtoC (r * r) - Cconj p * z) * sden t z)%C end.
Fixpoint snum (L : lens_system) (z : C) : C := match L with [] => RtoC 0 | (m, p) :: t => (RtoC m * z * sden t z + (RtoC (r * r) - Cconj p * z) * snum t z)%C end.
Lemma cden_eq L z : Cconj (lden L z) = cden L z.
Proof. induction L as [|[m p] L IH]; cbn [lden cden]; [apply Ceq; simpl; ring|]. rewrite Cconj_mult, IH, Cconj_conj. reflexivity. Qed.
Lemma cnum_eq L z : Cconj (lnum L z) = cnum L z.
Proof.
  induction L as [|[m p] L IH]; cbn [lnum cnum]; [apply Ceq; simpl; ring|]. rewrite Cconj_plus, !Cconj_mult, IH, cden_eq, Cconj_conj. f_equal. f_equal. apply Ceq; simpl; ring.
Qed.
Variable z : C.
Hypothesis Hz : (z * Cconj z = RtoC (r * r))%C.
Lemma sden_eq L : (z ^ n L * lden L z = sden L z)%C.
Proof. induction L as [|[m p] L IH]; unfold n in *; cbn [lden sden length Cpow]; [ring|]. rewrite <- IH, <- Hz, Cconj_minus. ring. Qed.
Lemma snum_eq L : (z ^ n L * lnum L z = snum L z)%C.
Proof. induction L as [|[m p] L IH]; unfold n in *; cbn [lnum snum length Cpow]; [ring|]. rewrite <- IH, <- Hz, Cconj_minus, <- sden_eq. unfold n. ring. Qed.
Definition circle_poly (L : lens_system) (w : C) (rho : R) (z : C) : C :=
  (((z + - w) * sden L z + - (1) * snum L z) * ((RtoC (r * r) + - Cconj w * z) * cden L z + - (1) * z * cnum L z) + RtoC (- (rho * rho)) * z * sden L z * cden L z)%C.
Lemma circle_poly_eq L w rho : circle_poly L w rho z = (z ^ S (n L) * RtoC (lim L w rho z))%C.
Proof.
  unfold lim. rewrite RtoC_minus, RtoC_mult, !nsq_conj, Cconj_minus, Cconj_mult, cden_eq, cnum_eq, Cconj_minus. unfold circle_poly. rewrite <- sden_eq, <- snum_eq, <- Hz. cbn [Cpow].
  replace (RtoC (- (rho * rho))) with (- (RtoC (rho ^ 2)))%C by (apply Ceq; simpl; ring). ring.
Qed.
End Circle.
Lemma pf_opp d f : polyfun d f -> (1 <= d)%nat -> polyfun (1 + d) (fun z => - (1) * f z)%C.
Proof. intros H Hd. apply (pf_mul 1 d); auto. apply (pf_const 1 (- (1))%C). auto. Qed.
Lemma pf_lin d c e : (3 <= d)%nat -> polyfun d (fun z => c + e * z)%C.
Proof. intros H. apply pf_add; [apply pf_const; lia|]. apply (pf_mul 1 2); [apply pf_const; auto|apply pf_id; auto|auto]. Qed.
Lemma pf_cden L : polyfun (1 + 3 * length L) (cden L).
Proof.
  induction L as [|[m p] L IH]; cbn [length]; [apply pf_const; lia|]. apply pf_ext with (f := fun z => ((- p + RtoC 1 * z) * cden L z)%C); [|intros z; cbn [cden]; ring].
  apply (pf_mul 3 (1 + 3 * length L)); [apply pf_lin; lia|exact IH|lia].
Qed.
Lemma pf_sden r L : polyfun (1 + 3 * length L) (sden r L).
Proof.
  induction L as [|[m p] L IH]; cbn [length]; [apply pf_const; lia|]. apply pf_ext with (f := fun z => ((RtoC (r * r) + - Cconj p * z) * sden r L z)%C); [|intros z; cbn [sden]; ring].
  apply (pf_mul 3 (1 + 3 * length L)); [apply pf_lin; lia|exact IH|lia].
Qed.
Lemma pf_cnum L : polyfun (2 + 3 * length L) (cnum L).
Proof.
  induction L as [|[m p] L IH]; cbn [length]; [apply pf_const; lia|]. apply pf_ext with (f := fun z => (RtoC m * cden L z + (- p + RtoC 1 * z) * cnum L z)%C); [|intros z; cbn [cnum]; ring].
  apply pf_add; [apply (pf_mul 1 (1 + 3 * length L)); [apply pf_const; lia|apply pf_cden|lia]|apply (pf_mul 3 (2 + 3 * length L)); [apply pf_lin; lia|exact IH|lia]].
Qed.
Lemma pf_snum r L : polyfun (2 + 3 * length L) (snum r L).
Proof.
  induction L as [|[m p] L IH]; cbn [length]; [apply pf_const; lia|]. apply pf_ext with (f := fun z => ((0 + RtoC m * z) * sden r L z + (RtoC (r * r) + - Cconj p * z) * snum r L z)%C); [|intros z; cbn [snum]; ring].
  apply pf_add; [apply (pf_mul 3 (1 + 3 * length L)); [apply pf_lin; lia|apply pf_sden|lia]|apply (pf_mul 3 (2 + 3 * length L)); [apply pf_lin; lia|exact IH|lia]].
Qed.
Lemma pf_circle r L w rho : polyfun (12 + 6 * length L) (circle_poly r L w rho).
Proof.
  unfold circle_poly. apply pf_add.
  - apply (pf_mul (5 + 3 * length L) (5 + 3 * length L)); [| |lia]; apply pf_add.
    + apply pf_ext with (f := fun z => ((- w + RtoC 1 * z) * sden r L z)%C); [|intros z; ring]. apply (pf_mul 3 (1 + 3 * length L)); [apply pf_lin; lia|apply pf_sden|lia].
    + apply (pf_mul 1 (2 + 3 * length L)); [apply (pf_const 1 (- (1))%C); auto|apply pf_snum|lia].
    + apply (pf_mul 3 (1 + 3 * length L)); [apply pf_lin; lia|apply pf_cden|lia].
    + apply (pf_mul 3 (2 + 3 * length L)); [|apply pf_cnum|lia]. apply (pf_mul 1 2); [apply (pf_const 1 (- (1))%C); auto|apply pf_id; auto|auto].
  - apply (pf_mul (5 + 3 * length L) (1 + 3 * length L)); [|apply pf_cden|lia]. apply (pf_mul 3 (1 + 3 * length L)); [|apply pf_sden|lia]. apply (pf_mul 1 2); [apply pf_const; auto|apply pf_id; auto|auto].
Qed.
Lemma polar_conj r t : (polar r t * Cconj (polar r t) = RtoC (r * r))%C.
Proof. pose proof (sin2_cos2 t) as H. unfold Rsqr in H. apply Ceq; unfold polar; simpl; [|ring]. replace (r * cos t * (r * cos t) - r * sin t * - (r * sin t)) with (r * r * (sin t * sin t + cos t * cos t)) by ring. rewrite H. ring. Qed.
Lemma polar_nz r t : r <> 0 -> polar r t <> RtoC 0.
Proof. intros Hr E. pose proof (polar_conj r t) as H. rewrite E in H. injection H as H. assert (r * r = 0) by lra. nra. Qed.
(** the points of a circle on the limb's preimage *)
Lemma circle_roots r L w rho : r <> 0 -> (exists t, lim L w rho (polar r t) <> 0) -> exists rs, (length rs <= 12 + 6 * length L)%nat /\ forall t, lim L w rho (polar r t) = 0 -> In (polar r t) rs.
Proof.
  intros Hr (t0 & H0). destruct (pf_roots _ _ (pf_circle r L w rho)) as (rs & H1 & H2).
  - exists (polar r t0). rewrite circle_poly_eq by apply polar_conj. apply Cmult_neq_0; [apply Cpow_neq0, polar_nz; auto|]. intros E. apply RtoC_inj in E. auto.
  - exists rs. split; auto. intros t Ht. apply H2. rewrite circle_poly_eq by apply polar_conj. rewrite Ht. ring.
Qed.

(** ** angles of given points *)
Lemma polar_eq r t t' : r <> 0 -> polar r t = polar r t' -> exists k : Z, t - t' = 2 * PI * IZR k.
Proof.
  intros Hr E. injection E as Ec Es. apply Rmult_eq_reg_l in Ec; auto. apply Rmult_eq_reg_l in Es; auto. assert (C1 : cos (t - t') = 1). { rewrite cos_minus, Ec, Es. pose proof (sin2_cos2 t') as Q. unfold Rsqr in Q. lra. }
  assert (S : sin ((t - t') / 2) = 0). { replace (t - t') with (2 * ((t - t') / 2)) in C1 by field. rewrite cos_2a_sin in C1. nra. }
  apply sin_eq_0_0 in S. destruct S as (k & Hk). exists k. lra.
Qed.
Definition zrange (N : nat) : list Z := map (fun i => (Z.of_nat i - Z.of_nat N)%Z) (seq 0 (2 * N + 1)).
Lemma zrange_in N k : (Z.abs k <= Z.of_nat N)%Z -> In k (zrange N).
Proof. intros H. unfold zrange. apply in_map_iff. exists (Z.to_nat (k + Z.of_nat N)). split; [lia|]. apply in_seq. lia. Qed.
Lemma angles tl dT : dT <> 0 -> exists N, forall r z, r <> 0 -> exists l, (length l <= N)%nat /\ forall u, 0 <= u <= 1 -> polar r (tl + u * dT) = z -> In u l.
Proof.
  intros HT. pose proof PI_RGT_0 as HP. destruct (nfloor_ex (Rabs dT)) as (N & _ & HN); [apply Rabs_pos|]. exists (2 * (N + 1) + 1)%nat. intros r z Hr.
  destruct (classic (exists u0, 0 <= u0 <= 1 /\ polar r (tl + u0 * dT) = z)) as [(u0 & U0 & E0)|Q].
  - exists (map (fun k => u0 + 2 * PI * IZR k / dT) (zrange (N + 1))). split; [unfold zrange; rewrite !map_length, seq_length; lia|]. intros u Hu E. rewrite <- E0 in E. destruct (polar_eq r _ _ Hr E) as (k & Hk).
    apply in_map_iff. exists k. split. { rewrite <- Hk. field. auto. } apply zrange_in. apply le_IZR. rewrite abs_IZR, <- INR_IZR_INZ, plus_INR. simpl.
    assert (A : Rabs (2 * PI * IZR k) <= Rabs dT). { rewrite <- Hk. replace (tl + u * dT - (tl + u0 * dT)) with ((u - u0) * dT) by ring. rewrite Rabs_mult. assert (Rabs (u - u0) <= 1) by (apply Rabs_le; lra). pose proof (Rabs_pos dT). nra. }
    rewrite Rabs_mult, (Rabs_pos_eq (2 * PI)) in A by lra. pose proof PI2_3_2. pose proof (Rabs_pos (IZR k)). assert (1 <= 2 * PI) by (unfold PI2 in *; lra). nra.
  - exists []. split; [cbn; lia|]. intros u Hu E. exfalso. apply Q. exists u. auto.
Qed.
Lemma many_angles tl dT : dT <> 0 -> exists N, forall r zs, r <> 0 -> exists l, (length l <= length zs * N)%nat /\ forall u, 0 <= u <= 1 -> In (polar r (tl + u * dT)) zs -> In u l.
Proof.
  intros HT. destruct (angles tl dT HT) as (N & HN). exists N. intros r zs Hr. induction zs as [|z zs (l & L1 & L2)]; [exists []; split; [cbn; lia|intros u _ []]|].
  destruct (HN r z Hr) as (l' & L1' & L2'). exists (l' ++ l). split; [rewrite app_length; cbn [length]; lia|]. intros u Hu [E|H]; apply in_or_app; [left; apply L2'; auto|right; apply L2; auto].
Qed.

Lemma far_dark (L : lens_system) w rho : 0 < rho -> exists R0, 0 < R0 /\ forall z, R0 <= Cmod z -> ~ seen L w rho z.
Proof.
  intros Hrho. assert (D : exists B S0, 0 <= B /\ 0 <= S0 /\ forall z, B <= Cmod z -> Cmod (deflection L z) <= S0).
  { induction L as [|[m p] L (B & S0 & HB & HS & H)]; [exists 0, 0; repeat split; try lra; intros z _; cbn [deflection]; rewrite Cmod_0; lra|].
    exists (Rmax B (Cmod p + 1)), (Rabs m + S0). pose proof (Rmax_l B (Cmod p + 1)). pose proof (Rmax_r B (Cmod p + 1)). pose proof (Rabs_pos m). repeat split; try lra. intros z Hz. cbn [deflection]. eapply Rle_trans; [apply Cmod_triangle|]. specialize (H z ltac:(lra)).
    assert (Q : 1 <= Cmod (z - p)%C). { pose proof (Cmod_triangle (z - p)%C p) as T. replace (z - p + p)%C with z in T by ring. lra. }
    assert (N : Cconj (z - p)%C <> RtoC 0). { apply conj_nz. intros E. rewrite E, Cmod_0 in Q. lra. }
    rewrite Cmod_div, Cmod_R, Cmod_conj by auto. assert (Rabs m / Cmod (z - p)%C <= Rabs m); [|lra]. apply (Rmult_le_reg_r (Cmod (z - p)%C)); [lra|]. unfold Rdiv. rewrite Rmult_assoc, Rinv_l by lra. nra. }
  destruct D as (B & S0 & HB & HS & H). exists (B + S0 + Cmod w + rho). pose proof (Cmod_ge_0 w). split; [lra|]. intros z Hz Q. unfold seen, lens_map in Q. specialize (H z ltac:(lra)).
  pose proof (Cmod_triangle (z - deflection L z - w)%C (deflection L z + w)%C) as T. replace (z - deflection L z - w + (deflection L z + w))%C with z in T by ring. pose proof (Cmod_triangle (deflection L z) w). lra.
Qed.
(** ** on a ray the condition is a polynomial in the distance *)
Lemma off_dec (L : lens_system) (z : C) : ~ In z (map snd L) -> off_masses L z.
Proof. intros H m p Hp E. apply H. apply in_map_iff. exists (m, p). auto. Qed.
Lemma Cmod_polar r t : 0 <= r -> Cmod (polar r t) = r.
Proof. intros Hr. unfold Cmod, polar. cbn [fst snd]. replace ((r * cos t) ^ 2 + (r * sin t) ^ 2) with (r ^ 2 * ((sin t)² + (cos t)²)) by (unfold Rsqr; ring). rewrite sin2_cos2, Rmult_1_r. apply sqrt_pow2. auto. Qed.
Section Ray.
Variable e : C.
Fixpoint rden (L : lens_system) (z : C) : C := match L with [] => RtoC 1 | (m, p) :: t => ((z * Cconj e - Cconj p) * rden t z)%C end.
Fixpoint rnum (L : lens_system) (z : C) : C := match L with [] => RtoC 0 | (m, p) :: t => (RtoC m * rden t z + (z * Cconj e - Cconj p) * rnum t z)%C end.
Fixpoint rden' (L : lens_system) (z : C) : C := match L with [] => RtoC 1 | (m, p) :: t => ((z * e - p) * rden' t z)%C end.
Fixpoint rnum' (L : lens_system) (z : C) : C := match L with [] => RtoC 0 | (m, p) :: t => (RtoC m * rden' t z + (z * e - p) * rnum' t z)%C end.
Definition ray_poly (L : lens_system) (w : C) (rho : R) (z : C) : C :=
  (((z * e + - w) * rden L z + - (1) * rnum L z) * ((z * Cconj e + - Cconj w) * rden' L z + - (1) * rnum' L z) + RtoC (- rho ^ 2) * (rden L z * rden' L z))%C.
Variable r : R.
Lemma conj_r p : Cconj (RtoC r * e - p)%C = (RtoC r * Cconj e - Cconj p)%C.
Proof. destruct e, p. apply Ceq; simpl; ring. Qed.
Lemma rden_eq L : lden L (RtoC r * e)%C = rden L (RtoC r).
Proof. induction L as [|[m p] L IH]; cbn [lden rden]; [auto|]. rewrite IH, conj_r. reflexivity. Qed.
Lemma rnum_eq L : lnum L (RtoC r * e)%C = rnum L (RtoC r).
Proof. induction L as [|[m p] L IH]; cbn [lnum rnum]; [auto|]. rewrite IH, rden_eq, conj_r. reflexivity. Qed.
Lemma rden'_eq L : Cconj (lden L (RtoC r * e)%C) = rden' L (RtoC r).
Proof. induction L as [|[m p] L IH]; cbn [lden rden']; [apply Ceq; simpl; ring|]. rewrite Cconj_mult, IH, Cconj_conj. reflexivity. Qed.
Lemma rnum'_eq L : Cconj (lnum L (RtoC r * e)%C) = rnum' L (RtoC r).
Proof.
  induction L as [|[m p] L IH]; cbn [lnum rnum']; [apply Ceq; simpl; ring|]. rewrite Cconj_plus, !Cconj_mult, IH, rden'_eq, Cconj_conj. f_equal. f_equal. apply Ceq; simpl; ring.
Qed.
Lemma ray_poly_eq L w rho : ray_poly L w rho (RtoC r) = RtoC (lim L w rho (RtoC r * e)%C).
Proof.
  unfold lim. rewrite RtoC_minus, RtoC_mult, !nsq_conj, Cconj_minus, Cconj_mult, rden'_eq, rnum'_eq, conj_r. unfold ray_poly. rewrite <- rden_eq, <- rnum_eq.
  replace (RtoC (- rho ^ 2)) with (- (RtoC (rho ^ 2)))%C by (apply Ceq; simpl; ring). ring.
Qed.
Lemma pf_aff d c k : (3 <= d)%nat -> polyfun d (fun z => z * c - k)%C.
Proof. intros H. apply pf_ext with (f := fun z => (- k + c * z)%C); [apply pf_lin; auto|intros z; ring]. Qed.
Lemma pf_rden L : polyfun (1 + 3 * length L) (rden L).
Proof. induction L as [|[m p] L IH]; cbn [length rden]; [apply pf_const; lia|]. apply (pf_mul 3 (1 + 3 * length L)); [apply pf_aff; lia|exact IH|lia]. Qed.
Lemma pf_rden' L : polyfun (1 + 3 * length L) (rden' L).
Proof. induction L as [|[m p] L IH]; cbn [length rden']; [apply pf_const; lia|]. apply (pf_mul 3 (1 + 3 * length L)); [apply pf_aff; lia|exact IH|lia]. Qed.
Lemma pf_rnum L : polyfun (2 + 3 * length L) (rnum L).
Proof.
  induction L as [|[m p] L IH]; cbn [length rnum]; [apply pf_const; lia|].
  apply pf_add; [apply (pf_mul 1 (1 + 3 * length L)); [apply pf_const; lia|apply pf_rden|lia]|apply (pf_mul 3 (2 + 3 * length L)); [apply pf_aff; lia|exact IH|lia]].
Qed.
Lemma pf_rnum' L : polyfun (2 + 3 * length L) (rnum' L).
Proof.
  induction L as [|[m p] L IH]; cbn [length rnum']; [apply pf_const; lia|].
  apply pf_add; [apply (pf_mul 1 (1 + 3 * length L)); [apply pf_const; lia|apply pf_rden'|lia]|apply (pf_mul 3 (2 + 3 * length L)); [apply pf_aff; lia|exact IH|lia]].
Qed.
Lemma pf_ray L w rho : polyfun (12 + 6 * length L) (ray_poly L w rho).
Proof.
  unfold ray_poly. apply pf_add.
  - apply (pf_mul (5 + 3 * length L) (5 + 3 * length L)); [| |lia]; apply pf_add.
    + apply (pf_mul 3 (1 + 3 * length L)); [apply (pf_aff 3 e w); lia|apply pf_rden|lia].
    + apply (pf_mul 1 (2 + 3 * length L)); [apply (pf_const 1 (- (1))%C); auto|apply pf_rnum|lia].
    + apply (pf_mul 3 (1 + 3 * length L)); [apply (pf_aff 3 (Cconj e) (Cconj w)); lia|apply pf_rden'|lia].
    + apply (pf_mul 1 (2 + 3 * length L)); [apply (pf_const 1 (- (1))%C); auto|apply pf_rnum'|lia].
  - apply (pf_mul 1 (2 + 6 * length L)); [apply pf_const; auto| |lia]. apply (pf_mul (1 + 3 * length L) (1 + 3 * length L)); [apply pf_rden|apply pf_rden'|lia].
Qed.
End Ray.
Lemma polar_ray r t : polar r t = (RtoC r * (cos t, sin t))%C.
Proof. apply Ceq; unfold polar; simpl; ring. Qed.
Lemma far_masses (L : lens_system) : exists R0, 0 < R0 /\ forall z, R0 <= Cmod z -> off_masses L z.
Proof.
  induction L as [|[m p] L (R0 & HR & H)]; [exists 1; split; [lra|]; intros z _ m p []|]. pose proof (Cmod_ge_0 p). exists (R0 + Cmod p + 1). split; [lra|]. intros z Hz m' p' [E|Hp] Q; [injection E as <- <-; subst z; lra|]. apply (H z ltac:(lra) m' p'); auto.
Qed.
(** the points of a ray on the limb's preimage, and the masses on it *)
Lemma ray_roots L w rho t : 0 < rho -> exists rs, (length rs <= 12 + 6 * length L)%nat /\ forall r, lim L w rho (polar r t) = 0 -> In r rs.
Proof.
  intros Hrho. destruct (pf_roots _ _ (pf_ray (cos t, sin t) L w rho)) as (rs & H1 & H2).
  - destruct (far_dark L w (2 * rho) ltac:(lra)) as (R1 & HR1 & D). destruct (far_masses L) as (R2 & HR2 & O). exists (RtoC (R1 + R2)). rewrite ray_poly_eq, <- polar_ray. intros E. apply RtoC_inj in E.
    assert (M : Cmod (polar (R1 + R2) t) = R1 + R2) by (apply Cmod_polar; lra). apply (lim_zero L w rho _ Hrho) in E; [|apply O; lra]. apply (D (polar (R1 + R2) t)); [lra|]. unfold seen. lra.
  - exists (map fst rs). rewrite map_length. split; auto. intros r Hr. apply in_map_iff. exists (RtoC r). split; [reflexivity|]. apply H2. rewrite ray_poly_eq, <- polar_ray, Hr. reflexivity.
Qed.
Lemma ray_masses (L : lens_system) t : exists l, (length l <= length L)%nat /\ forall r, ~ In r l -> off_masses L (polar r t).
Proof.
  exists (map (fun mp => fst (snd mp) * cos t + snd (snd mp) * sin t) L). rewrite map_length. split; auto. intros r H m p Hp E. apply H. apply in_map_iff. exists (m, p). split; [|auto]. rewrite <- E. unfold polar. cbn [fst snd].
  pose proof (sin2_cos2 t) as Q. unfold Rsqr in Q. replace (r * cos t * cos t + r * sin t * sin t) with (r * (sin t * sin t + cos t * cos t)) by ring. rewrite Q. ring.
Qed.

(** ** dependence on radius and angle *)
Definition nice (f : R -> R -> R) : Prop := (exists M, 0 <= M /\ forall v u, -1 <= v <= 2 -> 0 <= u <= 1 -> Rabs (f v u) <= M /\ forall v', -1 <= v' <= 2 -> Rabs (f v u - f v' u) <= M * Rabs (v - v')) /\ forall v u, continuity_pt (f v) u.
Lemma nice_const c : nice (fun _ _ => c).
Proof. split; [|intros v u; apply continuity_pt_const; intros ? ?; auto]. exists (Rabs c). split; [apply Rabs_pos|]. intros v u Hv Hu. split; [lra|]. intros v' Hv'. rewrite Rminus_eq_0, Rabs_R0. apply Rmult_le_pos; apply Rabs_pos. Qed.
Lemma nice_plus f g : nice f -> nice g -> nice (fun v u => f v u + g v u).
Proof.
  intros [(M & HM & F1) F2] [(N & HN & G1) G2]. split; [|intros v u; apply continuity_pt_plus; auto]. exists (M + N). split; [lra|]. intros v u Hv Hu. destruct (F1 v u Hv Hu) as [A1 A2]. destruct (G1 v u Hv Hu) as [B1 B2]. split; [eapply Rle_trans; [apply Rabs_triang|lra]|].
  intros v' Hv'. specialize (A2 v' Hv'). specialize (B2 v' Hv'). replace (f v u + g v u - (f v' u + g v' u)) with ((f v u - f v' u) + (g v u - g v' u)) by ring. eapply Rle_trans; [apply Rabs_triang|]. lra.
Qed.
Lemma nice_mult f g : nice f -> nice g -> nice (fun v u => f v u * g v u).
Proof.
  intros [(M & HM & F1) F2] [(N & HN & G1) G2]. split; [|intros v u; apply continuity_pt_mult; auto]. exists (2 * M * N). split; [nra|]. intros v u Hv Hu. destruct (F1 v u Hv Hu) as [A1 A2]. destruct (G1 v u Hv Hu) as [B1 B2]. pose proof (Rabs_pos (f v u)). pose proof (Rabs_pos (g v u)). split.
  - rewrite Rabs_mult. apply Rle_trans with (M * N); [apply Rmult_le_compat; auto|nra].
  - intros v' Hv'. specialize (A2 v' Hv'). specialize (B2 v' Hv'). destruct (F1 v' u Hv' Hu) as [A1' _]. replace (f v u * g v u - f v' u * g v' u) with ((f v u - f v' u) * g v u + f v' u * (g v u - g v' u)) by ring. eapply Rle_trans; [apply Rabs_triang|]. rewrite !Rabs_mult.
    assert (Rabs (f v u - f v' u) * Rabs (g v u) <= M * Rabs (v - v') * N) by (apply Rmult_le_compat; auto; apply Rabs_pos). assert (Rabs (f v' u) * Rabs (g v u - g v' u) <= M * (N * Rabs (v - v'))) by (apply Rmult_le_compat; auto; apply Rabs_pos). lra.
Qed.
Lemma nice_ext f g : nice f -> (forall v u, g v u = f v u) -> nice g.
Proof.
  intros [(M & HM & F1) F2] E. split.
  - exists M. split; auto. intros v u Hv Hu. rewrite E. destruct (F1 v u Hv Hu) as [A B]. split; auto. intros v' Hv'. rewrite E. auto.
  - intros v u. apply (continuity_pt_ext (f v)); [intros t; symmetry; apply E|apply F2].
Qed.
Lemma nice_opp f : nice f -> nice (fun v u => - f v u).
Proof. intros H. apply (nice_ext _ _ (nice_mult _ _ (nice_const (-1)) H)). intros; ring. Qed.
Lemma nice_minus f g : nice f -> nice g -> nice (fun v u => f v u - g v u).
Proof. intros Hf Hg. apply (nice_ext _ _ (nice_plus _ _ Hf (nice_opp _ Hg))). intros; ring. Qed.
Lemma lin_cont a b : continuity (fun u => a + u * b).
Proof. intros u. apply continuity_pt_plus; [apply continuity_pt_const; intros ? ?; auto|]. apply continuity_pt_mult; [apply derivable_continuous_pt, derivable_pt_id|apply continuity_pt_const; intros ? ?; auto]. Qed.
Lemma nice_lin a b : nice (fun _ u => a + u * b).
Proof.
  split; [|intros v u; apply lin_cont]. exists (Rabs a + Rabs b). pose proof (Rabs_pos a). pose proof (Rabs_pos b). split; [lra|]. intros v u Hv Hu. split.
  - eapply Rle_trans; [apply Rabs_triang|]. rewrite Rabs_mult, (Rabs_pos_eq u) by lra. nra.
  - intros v' Hv'. rewrite Rminus_eq_0, Rabs_R0. apply Rmult_le_pos; [lra|apply Rabs_pos].
Qed.
Lemma nice_angle (h : R -> R) a b : (forall x, Rabs (h x) <= 1) -> (forall x y, Rabs (h x - h y) <= Rabs (x - y)) -> nice (fun v _ => h (a + v * b)).
Proof.
  intros H1 H2. split; [|intros v u; apply continuity_pt_const; intros ? ?; auto]. exists (1 + Rabs b). pose proof (Rabs_pos b). split; [lra|]. intros v u Hv Hu. split; [specialize (H1 (a + v * b)); lra|]. intros v' Hv'. eapply Rle_trans; [apply H2|].
  replace (a + v * b - (a + v' * b)) with (b * (v - v')) by ring. rewrite Rabs_mult. pose proof (Rabs_pos (v - v')). nra.
Qed.
Lemma slope_lip (h h' : R -> R) : (forall x, is_derive h x (h' x)) -> (forall x, Rabs (h' x) <= 1) -> forall x y, Rabs (h x - h y) <= Rabs (x - y).
Proof.
  intros H1 H2 x y. destruct (MVT_gen h y x h') as (c & _ & E); [intros; apply H1|intros t _; apply derivable_continuous_pt; exists (h' t); apply is_derive_Reals, H1|]. rewrite E, Rabs_mult. specialize (H2 c). pose proof (Rabs_pos (x - y)). nra.
Qed.
Definition niceC (g : R -> R -> C) : Prop := nice (fun v u => fst (g v u)) /\ nice (fun v u => snd (g v u)).
Lemma niceC_const c : niceC (fun _ _ => c).
Proof. split; apply nice_const. Qed.
Lemma niceC_plus f g : niceC f -> niceC g -> niceC (fun v u => f v u + g v u)%C.
Proof. intros [F1 F2] [G1 G2]. split; simpl; apply nice_plus; auto. Qed.
Lemma niceC_minus f g : niceC f -> niceC g -> niceC (fun v u => f v u - g v u)%C.
Proof. intros [F1 F2] [G1 G2]. split; simpl; [apply (nice_ext _ _ (nice_minus _ _ F1 G1))|apply (nice_ext _ _ (nice_minus _ _ F2 G2))]; intros; ring. Qed.
Lemma niceC_mult f g : niceC f -> niceC g -> niceC (fun v u => f v u * g v u)%C.
Proof. intros [F1 F2] [G1 G2]. split; simpl; [apply nice_minus|apply nice_plus]; apply nice_mult; auto. Qed.
Lemma niceC_conj f : niceC f -> niceC (fun v u => Cconj (f v u)).
Proof. intros [F1 F2]. split; simpl; [auto|apply nice_opp; auto]. Qed.
Lemma niceC_polar rl dR tl dT : niceC (fun v u => polar (rl + u * dR) (tl + v * dT)).
Proof.
  assert (C1 : forall x, Rabs (cos x) <= 1) by (intros x; apply Rabs_le; apply COS_bound). assert (S1 : forall x, Rabs (sin x) <= 1) by (intros x; apply Rabs_le; apply SIN_bound).
  split; unfold polar; cbn [fst snd]; apply nice_mult; try apply nice_lin; apply nice_angle; auto.
  - apply (slope_lip cos (fun x => - sin x)); [intros x; apply is_derive_Reals, derivable_pt_lim_cos|intros x; rewrite Rabs_Ropp; auto].
  - apply (slope_lip sin cos); [intros x; apply is_derive_Reals, derivable_pt_lim_sin|auto].
Qed.
Lemma nice_lim L w rho rl dR tl dT : nice (fun v u => lim L w rho (polar (rl + u * dR) (tl + v * dT))).
Proof.
  set (P := fun v u => polar (rl + u * dR) (tl + v * dT)). assert (HP : niceC P) by apply niceC_polar.
  assert (D : forall L', niceC (fun v u => lden L' (P v u))). { induction L' as [|[m p] L' IH]; cbn [lden]; [apply niceC_const|]. apply niceC_mult; auto. apply niceC_conj, niceC_minus; [auto|apply niceC_const]. }
  assert (N : forall L', niceC (fun v u => lnum L' (P v u))). { induction L' as [|[m p] L' IH]; cbn [lnum]; [apply niceC_const|]. apply niceC_plus; apply niceC_mult; auto using niceC_const. apply niceC_conj, niceC_minus; [auto|apply niceC_const]. }
  assert (Q : forall f, niceC f -> nice (fun v u => nsq (f v u))). { intros f [F1 F2]. unfold nsq. apply nice_plus; apply nice_mult; auto. }
  unfold lim. change (nice (fun v u => nsq ((P v u - w) * lden L (P v u) - lnum L (P v u))%C - rho ^ 2 * nsq (lden L (P v u)))). apply nice_minus.
  - apply Q, niceC_minus; auto. apply niceC_mult; auto. apply niceC_minus; [auto|apply niceC_const].
  - apply nice_mult; [apply nice_const|]. apply Q; auto.
Qed.
