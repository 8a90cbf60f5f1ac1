(** The gamma function of the model against Gauss's limit. *)
From Coq Require Import Reals List Bool Lra Lia.
From Coquelicot Require Import Coquelicot.
From Verif Require Import Base_R Base_C M_Kernels P_Kernels S_Gamma P_Stirling.
Import ListNotations.
Local Open Scope R_scope.
Local Arguments Cmod _%C.
Local Arguments cexp _%C.
Local Arguments Re _%C.
Local Arguments Im _%C.

(** ** limits of complex sequences *)
Lemma clim_ext (u v : nat -> C) l : (forall n, u n = v n) -> clim u l -> clim v l.
Proof. intros E H eps He. destruct (H eps He) as (N & HN). exists N. intros n Hn. rewrite <- E. auto. Qed.
Lemma clim_ext_from (u v : nat -> C) l N0 : (forall n, (N0 <= n)%nat -> u n = v n) -> clim u l -> clim v l.
Proof. intros E H eps He. destruct (H eps He) as (N & HN). exists (max N N0). intros n Hn. rewrite <- E by lia. apply HN. lia. Qed.
Lemma clim_const c : clim (fun _ => c) c.
Proof. intros eps He. exists 0%nat. intros n _. replace (c - c)%C with (RtoC 0) by ring. rewrite Cmod_0. auto. Qed.
Lemma clim_shift (u : nat -> C) l k : clim u l -> clim (fun n => u (n + k)%nat) l.
Proof. intros H eps He. destruct (H eps He) as (N & HN). exists N. intros n Hn. apply HN. lia. Qed.
Lemma clim_unshift (u : nat -> C) l k : clim (fun n => u (n + k)%nat) l -> clim u l.
Proof. intros H eps He. destruct (H eps He) as (N & HN). exists (N + k)%nat. intros n Hn. replace n with ((n - k) + k)%nat by lia. apply HN. lia. Qed.
Lemma clim_unique (u : nat -> C) l l' : clim u l -> clim u l' -> l = l'.
Proof.
  intros H H'. apply Cminus_eq_0. apply Cmod_eq_0. pose proof (Cmod_ge_0 (l - l')%C). destruct (Rle_lt_or_eq_dec _ _ H0) as [P|]; [|auto]. exfalso.
  destruct (H (Cmod (l - l')%C / 2) ltac:(lra)) as (N & HN). destruct (H' (Cmod (l - l')%C / 2) ltac:(lra)) as (N' & HN').
  specialize (HN (max N N') ltac:(lia)). specialize (HN' (max N N') ltac:(lia)). rewrite Cmod_neg_swap in HN. pose proof (Cmod_triangle (l - u (max N N'))%C (u (max N N') - l')%C) as T.
  replace (l - u (max N N') + (u (max N N') - l'))%C with (l - l')%C in T by ring. lra.
Qed.
Lemma clim_bounded (u : nat -> C) l : clim u l -> exists B N, 0 < B /\ forall n, (N <= n)%nat -> Cmod (u n) <= B.
Proof.
  intros H. destruct (H 1 ltac:(lra)) as (N & HN). exists (Cmod l + 1), N. pose proof (Cmod_ge_0 l). split; [lra|]. intros n Hn. specialize (HN n Hn).
  pose proof (Cmod_triangle (u n - l)%C l) as T. replace (u n - l + l)%C with (u n) in T by ring. lra.
Qed.
Lemma clim_plus (u v : nat -> C) l m : clim u l -> clim v m -> clim (fun n => (u n + v n)%C) (l + m)%C.
Proof.
  intros H H' eps He. destruct (H (eps / 2) ltac:(lra)) as (N & HN). destruct (H' (eps / 2) ltac:(lra)) as (N' & HN'). exists (max N N'). intros n Hn.
  specialize (HN n ltac:(lia)). specialize (HN' n ltac:(lia)). replace (u n + v n - (l + m))%C with ((u n - l) + (v n - m))%C by ring. pose proof (Cmod_triangle (u n - l)%C (v n - m)%C). lra.
Qed.
Lemma clim_mult (u v : nat -> C) l m : clim u l -> clim v m -> clim (fun n => (u n * v n)%C) (l * m)%C.
Proof.
  intros H H' eps He. destruct (clim_bounded v m H') as (B & N0 & HB & HB'). pose proof (Cmod_ge_0 l) as Hl.
  destruct (H (eps / (2 * B)) ltac:(apply Rdiv_lt_0_compat; lra)) as (N & HN). destruct (H' (eps / (2 * (Cmod l + 1))) ltac:(apply Rdiv_lt_0_compat; lra)) as (N' & HN').
  exists (max N0 (max N N')). intros n Hn. specialize (HN n ltac:(lia)). specialize (HN' n ltac:(lia)). specialize (HB' n ltac:(lia)).
  replace (u n * v n - l * m)%C with ((u n - l) * v n + l * (v n - m))%C by ring. eapply Rle_lt_trans; [apply Cmod_triangle|]. rewrite !Cmod_mult.
  assert (A : Cmod (u n - l) * Cmod (v n) < eps / 2).
  { apply Rle_lt_trans with (Cmod (u n - l) * B); [apply Rmult_le_compat_l; auto; apply Cmod_ge_0|]. apply Rlt_le_trans with (eps / (2 * B) * B); [apply Rmult_lt_compat_r; auto|]. right. field. lra. }
  assert (A' : Cmod l * Cmod (v n - m) <= eps / 2).
  { apply Rle_trans with ((Cmod l + 1) * (eps / (2 * (Cmod l + 1)))); [apply Rmult_le_compat; try lra; apply Cmod_ge_0|]. right. field. lra. }
  lra.
Qed.
Lemma clim_le0 (u : nat -> C) (b : nat -> R) N : (forall n, (N <= n)%nat -> Cmod (u n) <= b n) -> is_lim_seq b 0 -> clim u 0.
Proof.
  intros H L eps He. apply is_lim_seq_spec in L. destruct (L (mkposreal eps He)) as (N' & HN'). exists (max N N'). intros n Hn. specialize (HN' n ltac:(lia)). simpl in HN'.
  replace (u n - 0)%C with (u n) by ring. specialize (H n ltac:(lia)). rewrite Rminus_0_r in HN'. pose proof (Rle_abs (b n)). lra.
Qed.

(** ** sums *)
Fixpoint csum (d : nat -> C) (M : nat) : C := match M with 0%nat => RtoC 0 | S m => (csum d m + d m)%C end.
Fixpoint rsum (b : nat -> R) (M : nat) : R := match M with 0%nat => 0 | S m => rsum b m + b m end.
Lemma csum_diff d b n k : (forall n, Cmod (d n) <= b n) -> Cmod (csum d (n + k) - csum d n)%C <= rsum b (n + k) - rsum b n.
Proof.
  intros H. induction k as [|k IH]; [rewrite Nat.add_0_r; replace (csum d n - csum d n)%C with (RtoC 0) by ring; rewrite Cmod_0; lra|].
  rewrite Nat.add_succ_r. cbn [csum rsum]. replace (csum d (n + k) + d (n + k)%nat - csum d n)%C with ((csum d (n + k) - csum d n) + d (n + k)%nat)%C by ring.
  eapply Rle_trans; [apply Cmod_triangle|]. specialize (H (n + k)%nat). lra.
Qed.
Lemma comp_le (z : C) : Rabs (Re z) <= Cmod z /\ Rabs (Im z) <= Cmod z.
Proof. pose proof (Rmax_Cmod z) as H. change (fst z) with (Re z) in H. change (snd z) with (Im z) in H. pose proof (Rmax_l (Rabs (Re z)) (Rabs (Im z))). pose proof (Rmax_r (Rabs (Re z)) (Rabs (Im z))). lra. Qed.
Lemma Cmod_le_sum (z : C) : Cmod z <= Rabs (Re z) + Rabs (Im z).
Proof.
  replace z with (RtoC (Re z) + Ci * RtoC (Im z))%C at 1 by (destruct z; apply Ceq; simpl; ring). eapply Rle_trans; [apply Cmod_triangle|]. rewrite Cmod_mult, !Cmod_R.
  replace (Cmod Ci) with 1; [lra|]. unfold Cmod, Ci. simpl. rewrite !Rmult_0_l, !Rmult_1_r, Rplus_0_l, sqrt_1. reflexivity.
Qed.
Lemma clim_comp (u : nat -> C) x y : is_lim_seq (fun n => Re (u n)) (Finite x) -> is_lim_seq (fun n => Im (u n)) (Finite y) -> clim u (x, y).
Proof.
  intros H H' eps He. apply is_lim_seq_spec in H. apply is_lim_seq_spec in H'. assert (P : 0 < eps / 2) by lra. destruct (H (mkposreal _ P)) as (N & HN). destruct (H' (mkposreal _ P)) as (N' & HN'). simpl in *.
  exists (max N N'). intros n Hn. specialize (HN n ltac:(lia)). specialize (HN' n ltac:(lia)). eapply Rle_lt_trans; [apply Cmod_le_sum|]. unfold Re, Im in *. simpl. unfold Rminus in *. lra.
Qed.
Lemma csum_conv d b B : (forall n, Cmod (d n) <= b n) -> (forall M, rsum b M <= B) -> exists delta, clim (csum d) delta /\ Cmod delta <= B.
Proof.
  intros H HB. assert (Hb : forall n, 0 <= b n) by (intros n; pose proof (Cmod_ge_0 (d n)%C); specialize (H n); lra).
  assert (Lb : ex_lim_seq_cauchy (rsum b)).
  { apply ex_lim_seq_cauchy_corr. apply (ex_finite_lim_seq_incr _ B); auto. intros n. cbn [rsum]. specialize (Hb n). lra. }
  assert (Lc : forall (p : C -> R), (forall z w, p (z - w)%C = p z - p w) -> (forall z, Rabs (p z) <= Cmod z) -> ex_finite_lim_seq (fun n => p (csum d n))).
  { intros p Hp Hm. apply ex_lim_seq_cauchy_corr. intros eps. destruct (Lb eps) as (N & HN). exists N.
    assert (K : forall n m, (N <= n)%nat -> (n <= m)%nat -> Rabs (p (csum d m) - p (csum d n)) < eps).
    { intros n m Hn Hm'. rewrite <- Hp. eapply Rle_lt_trans; [apply Hm|]. replace m with (n + (m - n))%nat by lia. eapply Rle_lt_trans; [apply csum_diff, H|]. replace (n + (m - n))%nat with m by lia. specialize (HN m n ltac:(lia) ltac:(lia)). pose proof (Rle_abs (rsum b m - rsum b n)). lra. }
    intros n m Hn Hm'. destruct (le_ge_dec n m) as [L|L]; [rewrite Rabs_minus_sym|]; apply K; lia. }
  destruct (Lc Re) as (x & Hx); [intros; unfold Re; simpl; ring|intros; apply comp_le|]. destruct (Lc Im) as (y & Hy); [intros; unfold Im; simpl; ring|intros; apply comp_le|].
  pose proof (clim_comp _ _ _ Hx Hy) as L. remember ((x, y) : C) as l eqn:El. clear El. exists l. split; auto. apply le_epsilon. intros eps He. destruct (L eps He) as (N & HN). specialize (HN N (le_n N)).
  pose proof (csum_diff d b 0 N H) as Q. cbn [Nat.add csum rsum] in Q. replace (csum d N - 0)%C with (csum d N) in Q by ring. specialize (HB N).
  pose proof (Cmod_triangle (l - csum d N)%C (csum d N)) as T. replace (l - csum d N + csum d N)%C with l in T by ring. rewrite Cmod_neg_swap in HN. unfold Rminus in Q. lra.
Qed.

(** ** the exponential near 0 *)
Lemma exp_near a : Rabs a <= 1 / 2 -> Rabs (exp a - 1) <= 2 * Rabs a /\ exp a <= 2.
Proof.
  intros H. assert (E : exp a <= 2).
  { apply Rle_trans with (exp (1 / 2)); [destruct (Req_dec a (1 / 2)) as [->|]; [lra|left; apply exp_increasing; pose proof (Rle_abs a); lra]|].
    pose proof exp_le_3. assert (exp (1 / 2) * exp (1 / 2) = exp 1) by (rewrite <- exp_plus; f_equal; lra). pose proof (exp_pos (1 / 2)). nra. }
  split; auto. pose proof (exp_ineq1_le a). pose proof (exp_ineq1_le (- a)). rewrite exp_Ropp in H1. pose proof (exp_pos a).
  assert ((1 - a) * exp a <= 1). { apply (Rmult_le_compat_r (exp a)) in H1; [|lra]. replace (/ exp a * exp a) with 1 in H1 by (field; lra). lra. }
  unfold Rabs in *. destruct (Rcase_abs a), (Rcase_abs (exp a - 1)); nra.
Qed.
Lemma sin_le_abs b : Rabs (sin b) <= Rabs b.
Proof.
  destruct (MVT_gen sin 0 b cos) as (c & _ & E).
  - intros. apply is_derive_Reals. apply derivable_pt_lim_sin.
  - intros. apply continuity_pt_filterlim. apply (@ex_derive_continuous R_AbsRing R_NormedModule). exists (cos x). apply is_derive_Reals. apply derivable_pt_lim_sin.
  - rewrite sin_0, !Rminus_0_r in E. rewrite E, Rabs_mult. pose proof (COS_bound c). assert (Rabs (cos c) <= 1) by (apply Rabs_le; lra). pose proof (Rabs_pos b). pose proof (Rabs_pos (cos c)). nra.
Qed.
Lemma cos_near b : Rabs (cos b - 1) <= Rabs b.
Proof.
  destruct (MVT_gen cos 0 b (fun x => - sin x)) as (c & _ & E).
  - intros. apply is_derive_Reals. apply derivable_pt_lim_cos.
  - intros. apply continuity_pt_filterlim. apply (@ex_derive_continuous R_AbsRing R_NormedModule). exists (- sin x). apply is_derive_Reals. apply derivable_pt_lim_cos.
  - rewrite cos_0, Rminus_0_r in E. rewrite E, Rabs_mult. pose proof (SIN_bound c). assert (Rabs (- sin c) <= 1) by (apply Rabs_le; lra). pose proof (Rabs_pos b). pose proof (Rabs_pos (- sin c)). nra.
Qed.
Lemma cexp_near z : Cmod z <= 1 / 2 -> Cmod (cexp z - 1)%C <= 10 * Cmod z.
Proof.
  intros H. destruct (comp_le z) as [H1 H2]. destruct (exp_near (Re z) ltac:(lra)) as [E1 E2]. pose proof (sin_le_abs (Im z)) as S. pose proof (cos_near (Im z)) as K. pose proof (exp_pos (Re z)).
  eapply Rle_trans; [apply Cmod_le_sum|]. replace (Re (cexp z - 1)) with ((exp (Re z) - 1) + exp (Re z) * (cos (Im z) - 1)) by (unfold cexp, cexpi, Re; simpl; ring). replace (Im (cexp z - 1)) with (exp (Re z) * sin (Im z)) by (unfold cexp, cexpi, Im; simpl; ring).
  pose proof (Rabs_triang (exp (Re z) - 1) (exp (Re z) * (cos (Im z) - 1))) as T. rewrite Rabs_mult in T. rewrite (Rabs_mult _ (sin (Im z))). rewrite (Rabs_pos_eq (exp (Re z))) in * by lra.
  pose proof (Rabs_pos (cos (Im z) - 1)). pose proof (Rabs_pos (sin (Im z))). pose proof (Cmod_ge_0 z). nra.
Qed.
Lemma clim_cexp0 u : clim u 0 -> clim (fun n => cexp (u n)) 1.
Proof.
  intros H eps He. destruct (H (Rmin (1 / 2) (eps / 20))) as (N & HN); [apply Rmin_pos; lra|]. exists N. intros n Hn. specialize (HN n Hn). replace (u n - 0)%C with (u n) in HN by ring.
  pose proof (Rmin_l (1 / 2) (eps / 20)). pose proof (Rmin_r (1 / 2) (eps / 20)). pose proof (cexp_near (u n) ltac:(lra)). lra.
Qed.
Lemma clim_cexp u l : clim u l -> clim (fun n => cexp (u n)) (cexp l).
Proof.
  intros H. apply (clim_ext (fun n => cexp (u n - l) * cexp l)%C); [intros n; rewrite <- cexp_plus; f_equal; ring|].
  assert (K : clim (fun n => cexp (u n - l)) 1).
  { apply clim_cexp0. intros eps He. destruct (H eps He) as (N & HN). exists N. intros n Hn. replace (u n - l - 0)%C with (u n - l)%C by ring. auto. }
  pose proof (clim_mult _ _ _ _ K (clim_const (cexp l))) as Q. rewrite Cmult_1_l in Q. exact Q.
Qed.

(** ** Wallis *)
Definition Wi (n : nat) : R := RInt (fun t => cos t ^ n) 0 (PI / 2).
Lemma cosn_cont n x : continuous (fun t => cos t ^ n) x.
Proof. apply (@ex_derive_continuous R_AbsRing R_NormedModule). auto_derive. auto. Qed.
Lemma cosn_int n : ex_RInt (fun t => cos t ^ n) 0 (PI / 2).
Proof. apply (@ex_RInt_continuous R_CompleteNormedModule). intros. apply cosn_cont. Qed.
Lemma Wi_0 : Wi 0 = PI / 2.
Proof. unfold Wi. rewrite (RInt_ext _ (fun _ => 1)) by (intros; apply pow_O). rewrite RInt_const. unfold scal; simpl; unfold mult; simpl. ring. Qed.
Lemma Wi_1 : Wi 1 = 1.
Proof.
  unfold Wi. apply is_RInt_unique. replace 1 with (minus (sin (PI / 2)) (sin 0)) at 1 by (rewrite sin_PI2, sin_0; unfold minus, plus, opp; simpl; ring).
  apply (is_RInt_ext (fun t => cos t)); [intros x _; symmetry; exact (pow_1 (cos x))|]. apply (@is_RInt_derive R_CompleteNormedModule); intros; [apply is_derive_Reals, derivable_pt_lim_sin|].
  apply (@ex_derive_continuous R_AbsRing R_NormedModule). auto_derive. auto.
Qed.
Lemma Wi_rec n : INR (n + 2) * Wi (n + 2) = INR (n + 1) * Wi n.
Proof.
  assert (D : is_RInt (fun t => INR (n + 2) * cos t ^ (n + 2) - INR (n + 1) * cos t ^ n) 0 (PI / 2) (minus (cos (PI / 2) ^ (n + 1) * sin (PI / 2)) (cos 0 ^ (n + 1) * sin 0))).
  { apply (@is_RInt_derive R_CompleteNormedModule (fun t => cos t ^ (n + 1) * sin t)).
    - intros x _. auto_derive; auto. replace (pred (n + 1)) with n by lia. replace (n + 2)%nat with (S (S n)) by lia. replace (n + 1)%nat with (S n) by lia. rewrite <- !tech_pow_Rmult, !S_INR.
      assert (Q : sin x * sin x = 1 - cos x * cos x) by (pose proof (sin2_cos2 x) as Q; unfold Rsqr in Q; lra).
      transitivity (cos x ^ n * (cos x * cos x - (INR n + 1) * (sin x * sin x))); [ring|rewrite Q; ring].
    - intros x _. apply (@ex_derive_continuous R_AbsRing R_NormedModule). auto_derive. auto. }
  apply (@is_RInt_unique R_CompleteNormedModule) in D. rewrite cos_PI2, sin_0, pow_i in D by lia. rewrite (RInt_minus (V := R_CompleteNormedModule) (fun t => INR (n + 2) * cos t ^ (n + 2)) (fun t => INR (n + 1) * cos t ^ n)) in D.
  - rewrite (RInt_scal (V := R_CompleteNormedModule) (fun t => cos t ^ (n + 2))), (RInt_scal (V := R_CompleteNormedModule) (fun t => cos t ^ n)) in D by apply cosn_int.
    unfold minus, plus, opp, scal in D; simpl in D; unfold mult in D; simpl in D. fold (Wi (n + 2)) in D. fold (Wi n) in D. lra.
  - apply (@ex_RInt_scal R_CompleteNormedModule (fun t => cos t ^ (n + 2))), cosn_int.
  - apply (@ex_RInt_scal R_CompleteNormedModule (fun t => cos t ^ n)), cosn_int.
Qed.
Lemma Wi_decr n : Wi (S n) <= Wi n.
Proof.
  unfold Wi. pose proof PI_RGT_0. apply RInt_le; [lra|apply cosn_int|apply cosn_int|]. intros x Hx. assert (0 <= cos x) by (apply cos_ge_0; lra). pose proof (COS_bound x). rewrite <- tech_pow_Rmult. pose proof (pow_le (cos x) n ltac:(lra)). nra.
Qed.
Fixpoint wp (n : nat) : R := match n with 0%nat => 1 | S m => wp m * ((2 * INR m + 1) / (2 * INR m + 2)) end.
Lemma wp_pos n : 0 < wp n.
Proof. induction n; cbn [wp]; [lra|]. pose proof (pos_INR n). apply Rmult_lt_0_compat; auto. apply Rdiv_lt_0_compat; lra. Qed.
Lemma wp_fact n : wp n * 4 ^ n * INR (fact n) * INR (fact n) = INR (fact (2 * n)).
Proof.
  induction n; [simpl; ring|]. replace (2 * S n)%nat with (S (S (2 * n))) by lia. rewrite !fact_simpl, !mult_INR, <- IHn. cbn [wp]. rewrite <- tech_pow_Rmult, !S_INR, mult_INR. simpl (INR 2). pose proof (pos_INR n). field. lra.
Qed.
Lemma Wi_even n : Wi (2 * n) = wp n * (PI / 2) /\ Wi (2 * n + 1) = / ((2 * INR n + 1) * wp n).
Proof.
  induction n as [|n [I1 I2]]; [split; [simpl (2 * 0)%nat; rewrite Wi_0; simpl; ring|simpl (2 * 0 + 1)%nat; rewrite Wi_1; simpl; field]|].
  pose proof (Wi_rec (2 * n)) as R0. pose proof (Wi_rec (2 * n + 1)) as R1. rewrite I1 in R0. rewrite I2 in R1.
  replace (2 * S n)%nat with (2 * n + 2)%nat by lia. replace (2 * n + 2 + 1)%nat with (2 * n + 1 + 2)%nat by lia. pose proof (pos_INR n). pose proof (wp_pos n).
  rewrite !plus_INR, !mult_INR in R0, R1. change (INR 2) with (1 + 1) in R0, R1. change (INR 1) with 1 in R0, R1. cbn [wp]. rewrite ?S_INR. split.
  - apply (Rmult_eq_reg_l (2 * INR n + 2)); [|lra]. replace (1 + 1) with 2 in R0 by ring. rewrite R0. field. lra.
  - apply (Rmult_eq_reg_l (2 * INR n + 3)); [|lra]. replace ((1 + 1) * INR n + 1 + (1 + 1)) with (2 * INR n + 3) in R1 by ring. rewrite R1. replace (INR (2 * n + 1 + 1)) with (2 * INR n + 2) by (rewrite !plus_INR, mult_INR; simpl; ring). field. repeat split; lra.
Qed.
Lemma wallis n : (1 <= n)%nat -> 2 * INR n / (2 * INR n + 1) <= PI * INR n * wp n ^ 2 <= 1.
Proof.
  intros Hn. pose proof (Wi_decr (2 * n)) as A. pose proof (Wi_decr (2 * n + 1)) as B. replace (S (2 * n)) with (2 * n + 1)%nat in A by lia. replace (S (2 * n + 1)) with (2 * S n)%nat in B by lia.
  destruct (Wi_even n) as [E1 E2]. destruct (Wi_even (S n)) as [E3 _]. rewrite E1, E2 in A. rewrite E2, E3 in B. cbn [wp] in B. pose proof (wp_pos n) as P. pose proof PI_RGT_0. assert (N : 1 <= INR n) by (apply (le_INR 1) in Hn; exact Hn).
  split.
  - apply (Rmult_le_compat_r ((2 * INR n + 1) * wp n)) in A; [|nra]. rewrite Rinv_l in A by nra. apply (Rmult_le_reg_r (2 * INR n + 1)); [lra|]. unfold Rdiv. rewrite Rmult_assoc, Rinv_l, Rmult_1_r by lra. nra.
  - apply (Rmult_le_compat_r ((2 * INR n + 1) * wp n * (2 * INR n + 2))) in B; [|apply Rmult_le_pos; nra].
    replace (wp n * ((2 * INR n + 1) / (2 * INR n + 2)) * (PI / 2) * ((2 * INR n + 1) * wp n * (2 * INR n + 2))) with (PI / 2 * (wp n ^ 2) * (2 * INR n + 1) ^ 2) in B by (field; lra).
    replace (/ ((2 * INR n + 1) * wp n) * ((2 * INR n + 1) * wp n * (2 * INR n + 2))) with (2 * INR n + 2) in B by (field; nra).
    assert (Q : 0 <= PI * wp n ^ 2) by (apply Rmult_le_pos; [lra|apply pow2_ge_0]). set (q := PI * wp n ^ 2) in *. replace (PI / 2 * wp n ^ 2 * (2 * INR n + 1) ^ 2) with (q / 2 * (2 * INR n + 1) ^ 2) in B by (unfold q; field).
    replace (PI * INR n * wp n ^ 2) with (q * INR n) by (unfold q; ring). nra.
Qed.
Lemma ln_lower x : 0 < x -> 1 - / x <= ln x.
Proof. intros H. pose proof (exp_ineq1_le (ln (/ x))) as E. rewrite exp_ln in E by (apply Rinv_0_lt_compat; auto). rewrite ln_Rinv in E by auto. lra. Qed.
Lemma wallis_ln n : (1 <= n)%nat -> Rabs (ln (PI * INR n) / 2 + ln (wp n)) <= / INR n.
Proof.
  intros Hn. destruct (wallis n Hn) as [A B]. pose proof (wp_pos n) as P. pose proof PI_RGT_0. assert (N : 1 <= INR n) by (apply (le_INR 1) in Hn; exact Hn).
  assert (E : ln (PI * INR n * wp n ^ 2) = ln (PI * INR n) + 2 * ln (wp n)).
  { rewrite ln_mult; [|nra|apply pow_lt; auto]. simpl (wp n ^ 2). rewrite Rmult_1_r, (ln_mult (wp n) (wp n)) by auto. ring. }
  assert (U : ln (PI * INR n * wp n ^ 2) <= 0). { rewrite <- ln_1. destruct (Rle_lt_or_eq_dec _ _ B) as [B'| ->]; [|lra]. left. apply ln_increasing; auto. apply Rlt_le_trans with (2 := A). apply Rdiv_lt_0_compat; lra. }
  assert (L : - / INR n <= ln (PI * INR n * wp n ^ 2)).
  { apply Rle_trans with (ln (2 * INR n / (2 * INR n + 1))).
    - eapply Rle_trans; [|apply ln_lower; apply Rdiv_lt_0_compat; lra]. replace (1 - / (2 * INR n / (2 * INR n + 1))) with (- / INR n / 2) by (field; lra). assert (0 < / INR n) by (apply Rinv_0_lt_compat; lra). lra.
    - destruct (Rle_lt_or_eq_dec _ _ A) as [A'| ->]; [|lra]. left. apply ln_increasing; auto. apply Rdiv_lt_0_compat; lra. }
  assert (0 < / INR n) by (apply Rinv_0_lt_compat; lra). apply Rabs_le. lra.
Qed.

(** ** the logarithm of a sum, to first order *)
Lemma log_first (x : R) (z : C) : 0 < x -> 0 < Re z -> Cmod (clogp (RtoC x + z)%C - RtoC (ln x) - z / RtoC x)%C <= 2 * (Cmod z ^ 2 / x ^ 2).
Proof.
  intros Hx Hz. assert (Nx : RtoC x <> RtoC 0) by (apply RtoC_neq0; lra).
  set (fr := fun u : R => Re (clogp (RtoC x + RtoC u * z)%C)%C - u * Re (z / RtoC x)%C). set (fi := fun u : R => Im (clogp (RtoC x + RtoC u * z)%C)%C - u * Im (z / RtoC x)%C). set (dd := fun s : R => (z / (RtoC x + RtoC s * z) - z / RtoC x)%C).
  assert (HH : forall s : R, 0 <= s <= 1 -> is_derive fr s (Re (dd s)%C) /\ is_derive fi s (Im (dd s)%C) /\ Cmod (dd s)%C <= Cmod z ^ 2 / x ^ 2).
  { intros s Hs. destruct (clogp_path (RtoC x) z s Hx ltac:(lra) ltac:(lra)) as [A1 A2].
    assert (B : forall c : R, is_derive (fun u : R => u * c) s c) by (intros; auto_derive; auto; ring).
    replace (Re (dd s)%C) with (Re (z / (RtoC x + RtoC s * z))%C - Re (z / RtoC x)%C) by (unfold dd, Re; cbn [fst Cminus Cplus Copp]; ring).
    replace (Im (dd s)%C) with (Im (z / (RtoC x + RtoC s * z))%C - Im (z / RtoC x)%C) by (unfold dd, Im; cbn [snd Cminus Cplus Copp]; ring).
    split; [apply (@is_derive_minus R_AbsRing R_NormedModule); auto; apply B|]. split; [apply (@is_derive_minus R_AbsRing R_NormedModule); auto; apply B|].
    assert (R1 : x <= Re (RtoC x + RtoC s * z)%C) by (replace (Re (RtoC x + RtoC s * z)%C) with (x + s * Re z) by (unfold Re; simpl; ring); nra).
    pose proof (Cmod_ge_Re (RtoC x + RtoC s * z)%C) as R2. assert (N1 : (RtoC x + RtoC s * z)%C <> RtoC 0) by (apply Re_pos_neq0; lra).
    unfold dd. replace (z / (RtoC x + RtoC s * z) - z / RtoC x)%C with (- (RtoC s * (z * z)) / (RtoC x * (RtoC x + RtoC s * z)))%C by (field; auto).
    unfold Cdiv. rewrite Cmod_mult, Cmod_opp, Cmod_inv by (apply Cmult_neq_0; auto). rewrite !Cmod_mult, !Cmod_R, !Rabs_pos_eq by lra.
    pose proof (Cmod_ge_0 z). assert (Z2 : 0 <= Cmod z * Cmod z) by nra. unfold Rdiv. simpl (_ ^ 2). rewrite !Rmult_1_r. apply Rmult_le_compat; [apply Rmult_le_pos; lra|left; apply Rinv_0_lt_compat, Rmult_lt_0_compat; lra|nra|].
    apply Rinv_le_contravar; [apply Rmult_lt_0_compat; lra|]. apply Rmult_le_compat_l; lra. }
  pose proof (path_bound fr fi dd _ HH) as K. eapply Rle_trans; [|exact K]. right. f_equal. unfold fr, fi.
  replace (RtoC x + RtoC 1 * z)%C with (RtoC x + z)%C by ring. replace (RtoC x + RtoC 0 * z)%C with (RtoC x) by ring. rewrite (clogp_R x Hx). apply Ceq; unfold Re, Im; cbn [fst snd Cminus Cplus Copp RtoC]; ring.
Qed.
Lemma inv_sq_sum x c M : 1 < x -> 0 <= c -> rsum (fun n => c / (x + INR n) ^ 2) M <= c / (x - 1).
Proof.
  intros Hx Hc. apply Rle_trans with (c / (x - 1) - c / (x - 1 + INR M)).
  - induction M as [|M IH]; cbn [rsum]; [simpl INR; rewrite Rplus_0_r; lra|]. rewrite S_INR. pose proof (pos_INR M) as P.
    assert (Q : c / (x + INR M) ^ 2 <= c / (x - 1 + INR M) - c / (x - 1 + (INR M + 1))).
    { replace (c / (x - 1 + INR M) - c / (x - 1 + (INR M + 1))) with (c * / ((x - 1 + INR M) * (x + INR M))) by (field; lra). apply Rmult_le_compat_l; auto. apply Rinv_le_contravar; [apply Rmult_lt_0_compat; lra|]. simpl. nra. }
    lra.
  - pose proof (pos_INR M). assert (0 <= c / (x - 1 + INR M)) by (apply Rdiv_le_0_compat; lra). lra.
Qed.
Lemma rsum_le b b' M : (forall n, b n <= b' n) -> rsum b M <= rsum b' M.
Proof. intros H. induction M; cbn [rsum]; [lra|]. specialize (H M). lra. Qed.

(** ** Stirling's formula and Gauss's limit *)
Fixpoint pr (z : C) (n : nat) : C := match n with 0%nat => RtoC 1 | S m => (pr z m * (z + RtoC (INR m)))%C end.
Lemma pr_rising z n : rising n z = pr z (S n).
Proof. induction n; cbn [rising]; [cbn [pr]; simpl INR; ring|]. rewrite IHn. reflexivity. Qed.
Lemma prodC_app l l' : prodC (l ++ l') = (prodC l * prodC l')%C.
Proof. induction l; cbn [app prodC]; [ring|]. rewrite IHl. ring. Qed.
Lemma pr_prodC z n : prodC (map (fun i => z + RtoC (INR i))%C (seq 0 n)) = pr z n.
Proof. induction n; [reflexivity|]. rewrite seq_S, map_app, prodC_app, IHn. cbn [map prodC pr Nat.add]. ring. Qed.
Lemma shift_pos (z : C) n : 0 < Re z -> 0 < Re (z + RtoC (INR n))%C.
Proof. intros H. change (Re (z + RtoC (INR n))%C) with (Re z + INR n). pose proof (pos_INR n). lra. Qed.
Lemma pr_neq0 z n : 0 < Re z -> pr z n <> RtoC 0.
Proof. intros H. induction n; cbn [pr]; [apply C1_neq0|]. apply Cmult_neq_0; auto. apply Re_pos_neq0, shift_pos, H. Qed.

Section Gen.
Variable gs : C -> C.
Variable K : R.
Hypothesis HK : 0 <= K.
Hypothesis Hgs : forall t, 1 <= Cmod t -> Cmod (gs t)%C <= / Cmod t.
Hypothesis Hd : forall t, 0 < Re t -> 1 <= Cmod t -> Cmod (stir_step gs t)%C <= K * / Cmod t ^ 2.

Lemma tail_bound (t : C) : 1 < Re t -> forall n, Cmod (stir_step gs (t + RtoC (INR n))%C)%C <= K / (Re t + INR n) ^ 2.
Proof.
  intros H n. pose proof (pos_INR n) as P. pose proof (Cmod_ge_Re (t + RtoC (INR n))%C) as R1. change (Re (t + RtoC (INR n))%C) with (Re t + INR n) in R1.
  eapply Rle_trans; [apply Hd; [change (0 < Re t + INR n); lra|lra]|]. apply Rmult_le_compat_l; auto. apply Rinv_le_contravar; [apply pow_lt; lra|]. apply pow_incr. lra.
Qed.
Definition dev (n : nat) : R := Re (stir gs (RtoC (INR n)))%C + ln (INR n) - ln (INR (fact n)).
Lemma dev_step n : (1 <= n)%nat -> dev (S n) = dev n + Re (stir_step gs (RtoC (INR n)))%C.
Proof.
  intros Hn. assert (P : 1 <= INR n) by (apply (le_INR 1) in Hn; exact Hn). unfold dev, stir_step. rewrite fact_simpl, mult_INR, ln_mult by (apply INR_fact_lt_0 || apply lt_0_INR; lia). rewrite S_INR.
  rewrite (clogp_R (INR n)) by lra. replace (RtoC (INR n) + 1)%C with (RtoC (INR n + 1)) by (rewrite RtoC_plus; reflexivity). unfold Re. cbn [fst Cminus Cplus Copp RtoC]. ring.
Qed.
Lemma dev_lim : exists c : R, is_lim_seq dev c.
Proof.
  destruct (csum_conv (fun n => stir_step gs (RtoC 2 + RtoC (INR n))%C) (fun n => K / (2 + INR n) ^ 2) (K / (2 - 1))) as (l & L & _); [intros n; apply (tail_bound (RtoC 2)); simpl; lra|intros; apply inv_sq_sum; lra|].
  exists (dev 2 + Re l). apply (is_lim_seq_incr_n _ 2). apply (is_lim_seq_ext (fun n => dev 2 + Re (csum (fun n => stir_step gs (RtoC 2 + RtoC (INR n))%C) n)%C)).
  - intros n. induction n as [|n IH]; [simpl; ring|]. cbn [csum]. replace (S n + 2)%nat with (S (n + 2)) by lia. rewrite (dev_step (n + 2)) by lia. rewrite <- IH. rewrite plus_INR. replace (RtoC 2 + RtoC (INR n))%C with (RtoC (INR n + INR 2)) by (rewrite RtoC_plus; simpl (INR 2); rewrite (Cplus_comm (RtoC 2)); do 2 f_equal; ring). unfold Re. cbn [fst Cplus]. ring.
  - apply (is_lim_seq_plus' (fun _ => dev 2)); [apply is_lim_seq_const|]. apply is_lim_seq_spec. intros eps. destruct (L eps (cond_pos eps)) as (N & HN). exists N. intros n Hn. specialize (HN n Hn).
    eapply Rle_lt_trans; [|exact HN]. destruct (comp_le (csum (fun n => stir_step gs (RtoC 2 + RtoC (INR n))%C) n - l)%C) as [Q _]. exact Q.
Qed.
Lemma stir_real n : (1 <= n)%nat -> Re (stir gs (RtoC (INR n)))%C = ln (2 * PI) / 2 - INR n + (INR n - 1 / 2) * ln (INR n) + Re (gs (RtoC (INR n)))%C.
Proof.
  intros Hn. assert (P : 1 <= INR n) by (apply (le_INR 1) in Hn; exact Hn). unfold stir. rewrite clogp_R by lra. rewrite <- RtoC_div by lra. unfold Re. cbn [fst snd Cminus Cplus Copp Cmult RtoC]. ring.
Qed.
Lemma dev_double n : (1 <= n)%nat -> dev (2 * n) - 2 * dev n = - (ln (PI * INR n) / 2 + ln (wp n)) + Re (gs (RtoC (INR (2 * n))))%C - 2 * Re (gs (RtoC (INR n)))%C.
Proof.
  intros Hn. assert (P : 1 <= INR n) by (apply (le_INR 1) in Hn; exact Hn). unfold dev. rewrite !stir_real by lia. rewrite <- wp_fact. pose proof (wp_pos n) as W. pose proof (INR_fact_lt_0 n) as F. assert (F4 : 0 < 4 ^ n) by (apply pow_lt; lra). pose proof PI_RGT_0.
  rewrite !(ln_mult (wp n * 4 ^ n * INR (fact n))), !(ln_mult (wp n * 4 ^ n)), (ln_mult (wp n)) by (auto; repeat apply Rmult_lt_0_compat; auto).
  rewrite <- (Rpower_pow n 4) by lra. unfold Rpower. rewrite ln_exp. replace (ln 4) with (2 * ln 2) by (replace 4 with (2 * 2) by ring; rewrite ln_mult by lra; ring).
  rewrite mult_INR. change (INR 2) with 2. rewrite (ln_mult 2 (INR n)), (ln_mult 2 PI), (ln_mult PI (INR n)) by lra. field.
Qed.
Lemma gs_real n : (1 <= n)%nat -> Rabs (Re (gs (RtoC (INR n)))%C) <= / INR n.
Proof.
  intros Hn. assert (P : 1 <= INR n) by (apply (le_INR 1) in Hn; exact Hn). eapply Rle_trans; [apply comp_le|]. assert (E : Cmod (RtoC (INR n))%C = INR n) by (rewrite Cmod_R; apply Rabs_pos_eq; lra). pose proof (Hgs (RtoC (INR n))) as Q. rewrite E in Q. auto.
Qed.
Lemma inv_INR_lim : is_lim_seq (fun n => / INR n) 0.
Proof. apply (is_lim_seq_inv INR p_infty); [apply is_lim_seq_INR|discriminate]. Qed.
Lemma dev_0 : is_lim_seq dev 0.
Proof.
  destruct dev_lim as (c & L). assert (Z : is_lim_seq (fun n => dev (2 * n) - 2 * dev n) 0).
  { apply (is_lim_seq_le_le_loc (fun n => - (4 * / INR n)) _ (fun n => 4 * / INR n)).
    - exists 1%nat. intros n Hn. apply Rabs_def2b || apply Rabs_le_between. rewrite dev_double by auto. pose proof (wallis_ln n Hn) as A. pose proof (gs_real n Hn) as B. pose proof (gs_real (2 * n) ltac:(lia)) as D.
      assert (P : 1 <= INR n) by (apply (le_INR 1) in Hn; exact Hn). assert (E : / INR (2 * n) <= / INR n) by (apply Rinv_le_contravar; [lra|rewrite mult_INR; simpl (INR 2); lra]).
      apply Rabs_le. apply Rabs_le_between in A. apply Rabs_le_between in B. apply Rabs_le_between in D. lra.
    - replace (Finite 0) with (Rbar_opp (Rbar_mult 4 0)) by (simpl; f_equal; ring). apply -> is_lim_seq_opp. apply is_lim_seq_scal_l, inv_INR_lim.
    - replace (Finite 0) with (Rbar_mult 4 0) by (simpl; f_equal; ring). apply is_lim_seq_scal_l, inv_INR_lim. }
  assert (L2 : is_lim_seq (fun n => dev (2 * n)) c).
  { apply (is_lim_seq_subseq dev c (fun n => (2 * n)%nat)); auto. apply eventually_subseq. intros n. lia. }
  assert (Y : is_lim_seq (fun n => dev (2 * n) - 2 * dev n) (c - 2 * c)).
  { apply is_lim_seq_minus'; auto. apply (is_lim_seq_scal_l dev 2 c L). }
  apply is_lim_seq_unique in Z. apply is_lim_seq_unique in Y. rewrite Z in Y. injection Y as Y. replace 0 with c by lra. exact L.
Qed.

Variable z : C.
Hypothesis Hz : 0 < Re z.
Definition gapp (n : nat) : C := (cexp (stir gs (z + RtoC (INR n)))%C / pr z n)%C.
Definition edev (n : nat) : C := (RtoC (ln (INR (fact n))) + z * RtoC (ln (INR n)) - clogp (z + RtoC (INR n))%C - stir gs (z + RtoC (INR n)))%C.
Lemma gauss_gapp n : (1 <= n)%nat -> gauss z n = (gapp n * cexp (edev n)%C)%C.
Proof.
  intros Hn. assert (P : 1 <= INR n) by (apply (le_INR 1) in Hn; exact Hn). unfold gauss, gapp. rewrite pr_rising. cbn [pr]. pose proof (pr_neq0 z n Hz) as N1. pose proof (shift_pos z n Hz) as Hs. pose proof (Re_pos_neq0 _ Hs) as N2.
  assert (E : (RtoC (INR (fact n)) * rpow (INR n) z)%C = (cexp (stir gs (z + RtoC (INR n)))%C * cexp (edev n)%C * (z + RtoC (INR n)))%C).
  { rewrite <- (cexp_clogp _ Hs) at 2. rewrite <- !cexp_plus. unfold edev. replace (stir gs (z + RtoC (INR n)) + (RtoC (ln (INR (fact n))) + z * RtoC (ln (INR n)) - clogp (z + RtoC (INR n))%C - stir gs (z + RtoC (INR n))) + clogp (z + RtoC (INR n))%C)%C with (RtoC (ln (INR (fact n))) + z * RtoC (ln (INR n)))%C by ring.
    rewrite cexp_plus. f_equal; unfold cexp, cexpi, rpow.
    - cbn [Re Im fst snd RtoC]. rewrite exp_ln, cos_0, sin_0 by apply INR_fact_lt_0. apply Ceq; simpl; ring.
    - replace (Re (z * RtoC (ln (INR n)))%C) with (Re z * ln (INR n)) by (unfold Re; simpl; ring). replace (Im (z * RtoC (ln (INR n)))%C) with (Im z * ln (INR n)) by (unfold Im; simpl; ring). apply Ceq; simpl; ring. }
  rewrite E. field. auto.
Qed.
Lemma edev_0 : clim edev 0.
Proof.
  set (C0 := 2 * Cmod z ^ 2 * (Cmod z + 2) + (Cmod z + 1) * Cmod z + 2).
  apply (clim_le0 edev (fun n => C0 * / INR n + Rabs (dev n)) 1).
  - intros n Hn. assert (P : 1 <= INR n) by (apply (le_INR 1) in Hn; exact Hn). assert (Nn : RtoC (INR n) <> RtoC 0) by (apply RtoC_neq0; lra).
    set (E1 := (clogp (RtoC (INR n) + z)%C - RtoC (ln (INR n)) - z / RtoC (INR n))%C).
    assert (E : edev n = (- ((z + RtoC (INR n) + RtoC 1 / RtoC 2) * E1) - (z + RtoC 1 / RtoC 2) * (z / RtoC (INR n)) + RtoC (Re (gs (RtoC (INR n)))%C) - RtoC (dev n) - gs (z + RtoC (INR n)))%C).
    { unfold edev, E1. rewrite (Cplus_comm (RtoC (INR n)) z). assert (Q : ln (INR (fact n)) = ln (2 * PI) / 2 - INR n + (INR n - 1 / 2) * ln (INR n) + Re (gs (RtoC (INR n)))%C + ln (INR n) - dev n) by (unfold dev; rewrite stir_real by auto; ring).
      rewrite Q. unfold stir. rewrite ?RtoC_minus, ?RtoC_plus, ?RtoC_minus, ?RtoC_plus, ?RtoC_mult, ?RtoC_minus. rewrite (RtoC_div 1 2) by lra. field. split; auto. apply RtoC_neq0; lra. }
    rewrite E. assert (Hr : 0 < / INR n) by (apply Rinv_0_lt_compat; lra). pose proof (Cmod_ge_0 z) as Mz.
    assert (H2 : Cmod (RtoC 1 / RtoC 2)%C = 1 / 2) by apply (Cmod_c 1 2).
    assert (A1 : Cmod ((z + RtoC (INR n) + RtoC 1 / RtoC 2) * E1)%C <= 2 * Cmod z ^ 2 * (Cmod z + 2) * / INR n).
    { rewrite Cmod_mult. pose proof (log_first (INR n) z ltac:(lra) Hz) as L. fold E1 in L. assert (B : Cmod (z + RtoC (INR n) + RtoC 1 / RtoC 2)%C <= (Cmod z + 2) * INR n).
      { eapply Rle_trans; [apply Cmod_triangle|]. rewrite H2. eapply Rle_trans; [apply Rplus_le_compat_r, Cmod_triangle|]. rewrite Cmod_R, Rabs_pos_eq by lra. nra. }
      apply Rle_trans with ((Cmod z + 2) * INR n * (2 * (Cmod z ^ 2 / INR n ^ 2))); [apply Rmult_le_compat; auto; apply Cmod_ge_0|]. right. field. lra. }
    assert (A2 : Cmod ((z + RtoC 1 / RtoC 2) * (z / RtoC (INR n)))%C <= (Cmod z + 1) * Cmod z * / INR n).
    { unfold Cdiv at 2. rewrite !Cmod_mult, Cmod_inv, Cmod_R, (Rabs_pos_eq (INR n)) by (auto; lra). rewrite Rmult_assoc. apply Rmult_le_compat_r; [apply Rmult_le_pos; lra|]. eapply Rle_trans; [apply Cmod_triangle|]. rewrite H2. lra. }
    assert (A3 : Cmod (RtoC (Re (gs (RtoC (INR n)))%C))%C <= / INR n) by (rewrite Cmod_R; apply gs_real; auto).
    assert (A4 : Cmod (gs (z + RtoC (INR n))%C)%C <= / INR n).
    { pose proof (Cmod_ge_Re (z + RtoC (INR n))%C) as R1. change (Re (z + RtoC (INR n))%C) with (Re z + INR n) in R1. eapply Rle_trans; [apply Hgs; lra|]. apply Rinv_le_contravar; lra. }
    assert (A5 : Cmod (RtoC (dev n))%C <= Rabs (dev n)) by (rewrite Cmod_R; lra).
    eapply Rle_trans; [repeat (apply Cmod_sub_le || apply Cmod_add_le); [rewrite Cmod_opp; exact A1|exact A2|exact A3|exact A5|exact A4]|]. unfold C0. lra.
  - replace (Finite 0) with (Rbar_plus (Rbar_mult C0 0) 0) by (simpl; f_equal; ring). apply is_lim_seq_plus'.
    + apply (is_lim_seq_scal_l _ C0 0), inv_INR_lim.
    + replace 0 with (Rabs 0) by apply Rabs_R0. apply (is_lim_seq_abs _ 0). apply dev_0.
Qed.
Lemma gapp_sum N M : gapp (N + M) = (cexp (stir gs (z + RtoC (INR N)) + csum (fun n => stir_step gs (z + RtoC (INR N) + RtoC (INR n))) M)%C / pr z N)%C.
Proof.
  induction M as [|M IH].
  - rewrite Nat.add_0_r. unfold gapp. cbn [csum]. do 2 f_equal. ring.
  - rewrite Nat.add_succ_r. cbn [csum]. pose proof (shift_pos z (N + M) Hz) as Hs. pose proof (Re_pos_neq0 _ Hs) as N2. pose proof (pr_neq0 z (N + M) Hz) as N1. pose proof (pr_neq0 z N Hz) as N3.
    rewrite Cplus_assoc, cexp_plus. replace (cexp (stir gs (z + RtoC (INR N)) + csum (fun n => stir_step gs (z + RtoC (INR N) + RtoC (INR n))) M)%C * cexp (stir_step gs (z + RtoC (INR N) + RtoC (INR M)))%C / pr z N)%C with (gapp (N + M) * cexp (stir_step gs (z + RtoC (INR N) + RtoC (INR M)))%C)%C by (rewrite IH; field; auto).
    replace (z + RtoC (INR N) + RtoC (INR M))%C with (z + RtoC (INR (N + M)))%C by (rewrite plus_INR, RtoC_plus; ring).
    unfold gapp, stir_step. cbn [pr]. replace (z + RtoC (INR (N + M)) + 1)%C with (z + RtoC (INR (S (N + M))))%C by (rewrite (S_INR (N + M)), RtoC_plus; ring).
    set (t := (z + RtoC (INR (N + M)))%C) in *. set (t' := (z + RtoC (INR (S (N + M))))%C). replace (stir gs t' - stir gs t - clogp t)%C with (stir gs t' + (- stir gs t + - clogp t))%C by ring. rewrite !cexp_plus, !cexp_opp, cexp_clogp by auto. pose proof (cexp_neq0 (stir gs t)). field. auto.
Qed.
Theorem gauss_lim N (b : nat -> R) B : (forall n, Cmod (stir_step gs (z + RtoC (INR N) + RtoC (INR n)))%C <= b n) -> (forall M, rsum b M <= B) ->
  exists delta, Cmod delta <= B /\ is_Gamma z (cexp (stir gs (z + RtoC (INR N)) + delta)%C / pr z N)%C.
Proof.
  intros H HB. destruct (csum_conv _ b B H HB) as (delta & L & Q). exists delta. split; auto. unfold is_Gamma.
  apply (clim_ext_from (fun n => gapp n * cexp (edev n)%C)%C _ _ 1); [intros n Hn; symmetry; apply gauss_gapp; auto|].
  assert (L1 : clim gapp (cexp (stir gs (z + RtoC (INR N)) + delta)%C / pr z N)%C).
  { apply (clim_unshift _ _ N). apply (clim_ext (fun M => cexp (stir gs (z + RtoC (INR N)) + csum (fun n => stir_step gs (z + RtoC (INR N) + RtoC (INR n))) M)%C * / pr z N)%C); [intros M; rewrite Nat.add_comm, gapp_sum; reflexivity|].
    unfold Cdiv. apply clim_mult; [|apply clim_const]. apply clim_cexp. apply clim_plus; [apply clim_const|exact L]. }
  pose proof (clim_mult _ _ _ _ L1 (clim_cexp0 _ edev_0)) as F. rewrite Cmult_1_r in F. exact F.
Qed.
End Gen.

(** ** accuracy *)
Lemma rel_err (s delta p v g : C) B : v = (cexp s / p)%C -> g = (cexp (s + delta)%C / p)%C -> Cmod delta <= B -> B <= 1 / 2 -> Cmod (v - g)%C <= 10 * B * Cmod g.
Proof.
  intros -> -> Hd HB. replace (cexp s / p - cexp (s + delta)%C / p)%C with ((cexp (s + delta)%C / p) * (cexp (- delta)%C - 1))%C.
  - rewrite Cmod_mult, (Rmult_comm (Cmod _)). apply Rmult_le_compat_r; [apply Cmod_ge_0|]. eapply Rle_trans; [apply cexp_near; rewrite Cmod_opp; lra|]. rewrite Cmod_opp. lra.
  - rewrite cexp_plus, cexp_opp. pose proof (cexp_neq0 delta). unfold Cdiv. rewrite (Cmult_comm (cexp s)) at 1. transitivity (cexp s * / p * (cexp delta * / cexp delta) - cexp s * cexp delta * / p)%C; [ring|]. replace (cexp delta * / cexp delta)%C with (RtoC 1) by (field; auto). ring.
Qed.
Lemma shift5 (t : C) n : 16 < Re t -> Cmod (stir_step gs_5 (t + RtoC (INR n))%C) <= 34 / 16 ^ 10 / (16 + INR n) ^ 2.
Proof.
  intros H. pose proof (pos_INR n) as P. pose proof (Cmod_ge_Re (t + RtoC (INR n))%C) as R1. change (Re (t + RtoC (INR n))%C) with (Re t + INR n) in R1.
  eapply Rle_trans; [apply stir_step_5; [change (0 < Re t + INR n); lra|lra]|]. set (m := Cmod (t + RtoC (INR n))%C) in *.
  assert (A : 16 ^ 10 * (16 + INR n) ^ 2 <= m ^ 12). { change 12%nat with (10 + 2)%nat. rewrite (pow_add m). apply Rmult_le_compat; [apply pow_le; lra|apply pow_le; lra|apply pow_incr; lra|apply pow_incr; lra]. }
  assert (0 < (16 + INR n) ^ 2) by (apply pow_lt; lra). assert (0 < 16 ^ 10) by (apply pow_lt; lra).
  unfold Rdiv. rewrite !Rmult_assoc, <- Rinv_mult by lra. apply Rmult_le_compat_l; [lra|]. apply Rinv_le_contravar; auto. apply Rmult_lt_0_compat; auto.
Qed.
Lemma weak5 (t : C) : 0 < Re t -> 1 <= Cmod t -> Cmod (stir_step gs_5 t) <= 34 * / Cmod t ^ 2.
Proof.
  intros H H1. eapply Rle_trans; [apply stir_step_5; auto|]. apply Rmult_le_compat_l; [lra|]. apply Rinv_le_contravar; [apply pow_lt; lra|]. apply Rle_pow; auto; lia.
Qed.
Lemma weak3 (t : C) : 0 < Re t -> 1 <= Cmod t -> Cmod (stir_step gs_3 t) <= 6 * / Cmod t ^ 2.
Proof.
  intros H H1. eapply Rle_trans; [apply stir_step_3; auto|]. apply Rmult_le_compat_l; [lra|]. apply Rinv_le_contravar; [apply pow_lt; lra|]. apply Rle_pow; auto; lia.
Qed.
Lemma half : RtoC 0.5 = (RtoC 1 / RtoC 2)%C.
Proof. rewrite <- RtoC_div by lra. f_equal. lra. Qed.
Lemma gamma_right (z : C) : 0 < Re z -> gamma_ z = gamma_case z.
Proof. intros H. unfold gamma_. destruct (Rleb_spec (Re z) 0); [lra|reflexivity]. Qed.
Lemma gamma_accuracy (z : C) : 0 < Re z -> exists g v, is_Gamma z g /\ gamma_ z = Some v /\ g <> RtoC 0 /\ Cmod (v - g)%C <= 2.1e-11 * Cmod g.
Proof.
  intros H. destruct (gamma_case_val z H) as (lt & E1 & E2). assert (Ht : 0 < Re (z + RtoC (INR 16))%C) by (apply shift_pos; auto). rewrite clog_clogp in E1 by auto. injection E1 as <-.
  destruct (gauss_lim gs_5 34 ltac:(lra) gs_5_small weak5 z H 16 (fun n => 34 / 16 ^ 10 / (16 + INR n) ^ 2) (34 / 16 ^ 10 / (16 - 1))) as (delta & D1 & D2).
  { intros n. apply shift5. change (Re (z + RtoC (INR 16))%C) with (Re z + INR 16). replace (INR 16) with 16 by (simpl; lra). lra. }
  { intros M. apply (inv_sq_sum 16 (34 / 16 ^ 10)); lra. }
  eexists. eexists. split; [exact D2|]. split; [rewrite gamma_right by auto; exact E2|]. split.
  { pose proof (cexp_neq0 (stir gs_5 (z + RtoC (INR 16)) + delta)%C). pose proof (pr_neq0 z 16 H). intros E. apply Cmult_integral in E. destruct E as [E|E]; [auto|]. apply (f_equal (Cmult (pr z 16))) in E. rewrite Cinv_r, Cmult_0_r in E by auto. apply C1_neq0. auto. }
  eapply Rle_trans; [eapply (rel_err (stir gs_5 (z + RtoC (INR 16))%C) delta (pr z 16)); [| reflexivity|exact D1|lra]|].
  - rewrite pr_prodC. do 2 f_equal. unfold gamma_top, stir. cbv zeta. rewrite half, series_gs_5 by (apply Re_pos_neq0; auto). reflexivity.
  - apply Rmult_le_compat_r; [apply Cmod_ge_0|]. lra.
Qed.
Lemma Gamma_unique z g g' : is_Gamma z g -> is_Gamma z g' -> g = g'.
Proof. apply clim_unique. Qed.

(** ** far from the origin three terms are enough *)
Lemma far_shift (t : C) n : 0 < Re t -> 70 <= Cmod t -> (70 + INR n) ^ 2 / 2 <= Cmod (t + RtoC (INR n))%C ^ 2.
Proof.
  intros H H1. pose proof (pos_INR n) as P. simpl (_ ^ 2). rewrite !Rmult_1_r, Cmod_sq. pose proof (Cmod_sq t) as Q. destruct t as [x y]. simpl in *. assert (70 * 70 <= x * x + y * y) by nra.
  replace ((x + INR n) * (x + INR n) + (y + 0) * (y + 0)) with (x * x + y * y + 2 * x * INR n + INR n * INR n) by ring. assert (0 <= (70 - INR n) * (70 - INR n)) by apply Rle_0_sqr. nra.
Qed.
Lemma far_step (t : C) n : 0 < Re t -> 70 <= Cmod t -> Cmod (stir_step gs_3 (t + RtoC (INR n))%C) <= 12 / 70 ^ 6 / (70 + INR n) ^ 2.
Proof.
  intros H H1. pose proof (pos_INR n) as P. pose proof (far_shift t n H H1) as F. pose proof (Cmod_shift t (INR n) ltac:(lra) P) as S. set (m := Cmod (t + RtoC (INR n))%C) in *.
  eapply Rle_trans; [apply stir_step_3; [change (0 < Re t + INR n); lra|fold m; lra]|]. fold m.
  assert (A : 70 ^ 6 * ((70 + INR n) ^ 2 / 2) <= m ^ 8). { change 8%nat with (6 + 2)%nat. rewrite (pow_add m). pose proof (pow2_ge_0 (70 + INR n)). apply Rmult_le_compat; [apply pow_le; lra|lra|apply pow_incr; lra|exact F]. }
  assert (0 < (70 + INR n) ^ 2) by (apply pow_lt; lra). assert (0 < 70 ^ 6) by (apply pow_lt; lra).
  replace (12 / 70 ^ 6 / (70 + INR n) ^ 2) with (6 * / (70 ^ 6 * ((70 + INR n) ^ 2 / 2))) by (field; lra). apply Rmult_le_compat_l; [lra|]. apply Rinv_le_contravar; auto. apply Rmult_lt_0_compat; lra.
Qed.
Lemma far_gamma (t : C) : 0 < Re t -> 70 <= Cmod t -> exists delta, Cmod delta <= 1.5e-12 /\ is_Gamma t (cexp (stir gs_3 t + delta)%C).
Proof.
  intros H H1. destruct (gauss_lim gs_3 6 ltac:(lra) gs_3_small weak3 t H 0 (fun n => 12 / 70 ^ 6 / (70 + INR n) ^ 2) (12 / 70 ^ 6 / (70 - 1))) as (delta & D1 & D2).
  { intros n. replace (t + RtoC (INR 0))%C with t by (simpl INR; ring). apply far_step; auto. }
  { intros M. apply inv_sq_sum; lra. }
  exists delta. split; [eapply Rle_trans; [exact D1|]; lra|]. replace (t + RtoC (INR 0))%C with t in D2 by (simpl INR; ring). cbn [pr] in D2. replace (cexp (stir gs_3 t + delta) / RtoC 1)%C with (cexp (stir gs_3 t + delta)) in D2; [exact D2|]. field. apply C1_neq0.
Qed.
