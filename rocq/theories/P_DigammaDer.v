(** The digamma function is the logarithmic derivative of the gamma function. *)
From Coq Require Import Reals List Bool Lra Lia Arith.
From Coquelicot Require Import Coquelicot.
From Verif Require Import Base_R Base_C M_Fftlog M_Kernels P_Kernels S_Gamma P_Stirling P_Gamma P_Sine P_GammaKer S_Digamma M_Digamma P_Digamma.
Import ListNotations.
Local Open Scope R_scope.
Local Open Scope C_scope.

(** ** second order bounds for the logarithm and the exponential *)
Lemma Re_add (a b : C) : Re (a + b) = (Re a + Re b)%R. Proof. reflexivity. Qed.
Lemma Im_add (a b : C) : Im (a + b) = (Im a + Im b)%R. Proof. reflexivity. Qed.
Lemma below_half (w : C) (s : R) : (Cmod w <= 1 / 2)%R -> (0 <= s <= 1)%R -> (1 / 2 <= Cmod (1 + RtoC s * w)%C)%R.
Proof.
  intros H Hs. pose proof (Cmod_triangle (1 + RtoC s * w)%C (- (RtoC s * w))%C) as T. replace (1 + RtoC s * w + - (RtoC s * w))%C with (RtoC 1) in T by ring.
  rewrite Cmod_opp, Cmod_mult, !Cmod_R, Rabs_R1, Rabs_pos_eq in T by lra. pose proof (Cmod_ge_0 w). nra.
Qed.
Lemma log_lin (t h d : C) B : 0 < Re t -> 0 <= Re h -> (forall s, (0 <= s <= 1)%R -> (Cmod (h / (t + RtoC s * h) - d)%C <= B)%R) ->
  (Cmod (clogp (t + h) - clogp t - d)%C <= 2 * B)%R.
Proof.
  intros Ht Hh HB. set (fr := fun u : R => (Re (clogp (t + RtoC u * h)%C) - u * Re d)%R). set (fi := fun u : R => (Im (clogp (t + RtoC u * h)%C) - u * Im d)%R).
  pose proof (path_bound fr fi (fun s => h / (t + RtoC s * h) - d) B) as K.
  assert (HH : forall s, (0 <= s <= 1)%R -> is_derive fr s (Re (h / (t + RtoC s * h) - d)%C) /\ is_derive fi s (Im (h / (t + RtoC s * h) - d)%C) /\ (Cmod (h / (t + RtoC s * h) - d)%C <= B)%R).
  { intros s Hs. destruct (clogp_path t h s Ht Hh ltac:(lra)) as [A1 A2]. assert (Q : forall c : R, is_derive (fun u : R => (u * c)%R) s c) by (intros; auto_derive; auto; ring).
    replace (Re (h / (t + RtoC s * h) - d)%C) with (Re (h / (t + RtoC s * h))%C - Re d)%R by (unfold Re; cbn [fst Cminus Cplus Copp]; ring).
    replace (Im (h / (t + RtoC s * h) - d)%C) with (Im (h / (t + RtoC s * h))%C - Im d)%R by (unfold Im; cbn [snd Cminus Cplus Copp]; ring).
    split; [apply (@is_derive_minus R_AbsRing R_NormedModule); auto; apply Q|]. split; [apply (@is_derive_minus R_AbsRing R_NormedModule); auto; apply Q|]. auto. }
  specialize (K HH). eapply Rle_trans; [|exact K]. right. f_equal. unfold fr, fi. replace (t + RtoC 1 * h) with (t + h) by ring. replace (t + RtoC 0 * h) with t by ring.
  apply Ceq; unfold Re, Im; cbn [fst snd Cminus Cplus Copp]; ring.
Qed.
Lemma log_near (w : C) : (Cmod w <= 1 / 2)%R -> cexp (clogp (1 + w)) = 1 + w /\ (Cmod (clogp (1 + w) - w)%C <= 4 * Cmod w ^ 2)%R.
Proof.
  intros H. destruct (comp_le w) as [H1 _]. apply Rabs_le_between in H1. pose proof (Cmod_ge_0 w) as M0.
  assert (P1 : 0 < Re (1 + w)) by (change (0 < 1 + Re w)%R; lra). split; [apply cexp_clogp; auto|].
  assert (K : forall s (v : C), (0 <= s <= 1)%R -> Cmod v = (s * Cmod w ^ 2)%R -> (Cmod (v / (1 + RtoC s * w))%C <= 2 * Cmod w ^ 2)%R).
  { intros s v Hs Hv. pose proof (below_half w s H Hs) as L. assert (N1 : 1 + RtoC s * w <> 0) by (apply Cmod_pos_neq; lra).
    unfold Cdiv. rewrite Cmod_mult, Cmod_inv, Hv by auto. assert (A : (/ Cmod (1 + RtoC s * w)%C <= 2)%R) by (replace 2%R with (/ (1 / 2))%R by field; apply Rinv_le_contravar; lra). assert (0 < / Cmod (1 + RtoC s * w)%C)%R by (apply Rinv_0_lt_compat; lra).
    assert (0 <= Cmod w ^ 2)%R by (apply pow_le; auto). rewrite (Rmult_comm 2). apply Rmult_le_compat; try nra. }
  destruct (Rle_or_lt 0 (Re w)) as [C|C].
  - pose proof (log_lin 1 w w (2 * Cmod w ^ 2)%R ltac:(simpl; lra) C) as Q. rewrite (clogp_R 1 ltac:(lra)), ln_1 in Q. replace (clogp (1 + w) - 0 - w) with (clogp (1 + w) - w) in Q by ring. replace (4 * Cmod w ^ 2)%R with (2 * (2 * Cmod w ^ 2))%R by ring. apply Q.
    intros s Hs. pose proof (below_half w s H Hs) as L. assert (N1 : 1 + RtoC s * w <> 0) by (apply Cmod_pos_neq; lra).
    replace (w / (1 + RtoC s * w) - w) with (- (RtoC s * w * w) / (1 + RtoC s * w)) by (field; auto). apply K; auto.
    rewrite Cmod_opp, !Cmod_mult, Cmod_R, Rabs_pos_eq by lra. ring.
  - pose proof (log_lin (1 + w) (- w) (- w) (2 * Cmod w ^ 2)%R P1) as Q. replace (1 + w + - w) with (RtoC 1) in Q by ring. rewrite (clogp_R 1 ltac:(lra)), ln_1 in Q.
    replace (RtoC 0 - clogp (1 + w) - - w) with (- (clogp (1 + w) - w)) in Q by ring. rewrite Cmod_opp in Q. replace (4 * Cmod w ^ 2)%R with (2 * (2 * Cmod w ^ 2))%R by ring. apply Q.
    + change (0 <= - Re w)%R. lra.
    + intros s Hs. pose proof (below_half w (1 - s) H ltac:(lra)) as L. assert (N1 : 1 + RtoC (1 - s) * w <> 0) by (apply Cmod_pos_neq; lra).
      replace (- w / (1 + w + RtoC s * - w) - - w) with ((RtoC (1 - s) * w * w) / (1 + RtoC (1 - s) * w)).
      * apply K; [lra|]. rewrite !Cmod_mult, Cmod_R, Rabs_pos_eq by lra. ring.
      * replace (1 + w + RtoC s * - w) with (1 + RtoC (1 - s) * w) by (rewrite RtoC_minus; ring). field. auto.
Qed.
Lemma exp_second (u : C) : (Cmod u <= 1 / 2)%R -> (Cmod (cexp u - 1 - u)%C <= 20 * Cmod u ^ 2)%R.
Proof.
  intros H. pose proof (Cmod_ge_0 u) as M0.
  set (fr := fun s : R => (Re (cexp (RtoC s * u)%C) - s * Re u)%R). set (fi := fun s : R => (Im (cexp (RtoC s * u)%C) - s * Im u)%R).
  pose proof (path_bound fr fi (fun s => u * (cexp (RtoC s * u) - 1)) (10 * Cmod u ^ 2)) as K.
  assert (E1 : forall s : R, Re (cexp (RtoC s * u)%C) = (exp (s * Re u) * cos (s * Im u))%R).
  { intros s. unfold cexp, cexpi. replace (Re (RtoC s * u)) with (s * Re u)%R by (unfold Re; simpl; ring). replace (Im (RtoC s * u)) with (s * Im u)%R by (unfold Im; simpl; ring). unfold Re; simpl; ring. }
  assert (E2 : forall s : R, Im (cexp (RtoC s * u)%C) = (exp (s * Re u) * sin (s * Im u))%R).
  { intros s. unfold cexp, cexpi. replace (Re (RtoC s * u)) with (s * Re u)%R by (unfold Re; simpl; ring). replace (Im (RtoC s * u)) with (s * Im u)%R by (unfold Im; simpl; ring). unfold Im; simpl; ring. }
  assert (HH : forall s, (0 <= s <= 1)%R -> is_derive fr s (Re (u * (cexp (RtoC s * u) - 1))) /\ is_derive fi s (Im (u * (cexp (RtoC s * u) - 1))) /\ (Cmod (u * (cexp (RtoC s * u) - 1))%C <= 10 * Cmod u ^ 2)%R).
  { intros s Hs. split; [|split].
    - apply (is_derive_ext (fun s : R => (exp (s * Re u) * cos (s * Im u) - s * Re u)%R)); [intros x; unfold fr; rewrite E1; reflexivity|].
      replace (Re (u * (cexp (RtoC s * u) - 1))) with (Re u * (Re (cexp (RtoC s * u)%C) - 1) - Im u * Im (cexp (RtoC s * u)%C))%R by (unfold Re, Im; simpl; ring). rewrite E1, E2. auto_derive; auto. ring.
    - apply (is_derive_ext (fun s : R => (exp (s * Re u) * sin (s * Im u) - s * Im u)%R)); [intros x; unfold fi; rewrite E2; reflexivity|].
      replace (Im (u * (cexp (RtoC s * u) - 1))) with (Re u * Im (cexp (RtoC s * u)%C) + Im u * (Re (cexp (RtoC s * u)%C) - 1))%R by (unfold Re, Im; simpl; ring). rewrite E1, E2. auto_derive; auto. ring.
    - assert (A : (Cmod (RtoC s * u)%C <= Cmod u)%R) by (rewrite Cmod_mult, Cmod_R, Rabs_pos_eq by lra; nra). rewrite Cmod_mult. pose proof (cexp_near (RtoC s * u) ltac:(lra)). simpl (_ ^ 2)%R. nra. }
  specialize (K HH). replace (20 * Cmod u ^ 2)%R with (2 * (10 * Cmod u ^ 2))%R by ring. eapply Rle_trans; [|exact K]. right. f_equal. unfold fr, fi. rewrite !E1, !E2.
  rewrite !Rmult_0_l, !Rmult_1_l, exp_0, cos_0, sin_0. unfold cexp, cexpi. apply Ceq; unfold Re, Im; cbn [fst snd Cminus Cplus Copp Cmult RtoC]; ring.
Qed.

(** ** the quotient of Gauss's products *)
Lemma finite_away (z : C) : ~ pole z -> forall m, exists c, (0 < c)%R /\ forall k, (k < m)%nat -> (c * (INR k + 2) <= Cmod (z + RtoC (INR k))%C)%R.
Proof.
  intros H. induction m as [|m (c & C0 & IH)]; [exists 1%R; split; [lra|intros; lia]|].
  assert (P : (0 < Cmod (z + RtoC (INR m))%C)%R).
  { apply Cmod_gt_0. intros E. apply H. exists m. rewrite RtoC_opp. replace z with (z + RtoC (INR m) - RtoC (INR m)) by ring. rewrite E. ring. }
  pose proof (pos_INR m) as Pm. assert (P2 : (0 < Cmod (z + RtoC (INR m))%C / (INR m + 2))%R) by (apply Rdiv_lt_0_compat; lra).
  exists (Rmin c (Cmod (z + RtoC (INR m))%C / (INR m + 2))). split; [apply Rmin_pos; auto|]. intros k Hk. pose proof (pos_INR k) as Pk.
  pose proof (Rmin_l c (Cmod (z + RtoC (INR m))%C / (INR m + 2))) as M1. pose proof (Rmin_r c (Cmod (z + RtoC (INR m))%C / (INR m + 2))) as M2.
  destruct (Nat.eq_dec k m) as [->|N].
  - apply Rle_trans with (Cmod (z + RtoC (INR m))%C / (INR m + 2) * (INR m + 2))%R; [apply Rmult_le_compat_r; [lra|exact M2]|right; field; lra].
  - eapply Rle_trans; [|apply IH; lia]. apply Rmult_le_compat_r; [lra|exact M1].
Qed.
Lemma INR_above (x : R) : exists m, (x < INR m)%R.
Proof.
  destruct (archimed (Rmax x 0)) as [A _]. exists (Z.to_nat (up (Rmax x 0))). pose proof (Rmax_l x 0). pose proof (Rmax_r x 0). rewrite INR_IZR_INZ, Z2Nat.id; [lra|]. apply le_IZR. lra.
Qed.
Lemma away (z : C) : ~ pole z -> exists c, (0 < c)%R /\ forall k, (c * (INR k + 2) <= Cmod (z + RtoC (INR k))%C)%R.
Proof.
  intros H. destruct (INR_above (2 * Cmod z + 2)) as (m & Hm). destruct (finite_away z H m) as (c & C0 & Hc). pose proof (Cmod_ge_0 z) as M0.
  exists (Rmin c (1 / 4)). split; [apply Rmin_pos; lra|]. intros k. pose proof (Rmin_l c (1 / 4)) as M1. pose proof (Rmin_r c (1 / 4)) as M2. pose proof (pos_INR k) as Pk.
  destruct (le_lt_dec m k) as [L|L].
  - apply le_INR in L. pose proof (Cmod_triangle (z + RtoC (INR k))%C (- z)%C) as T. replace (z + RtoC (INR k) + - z) with (RtoC (INR k)) in T by ring. rewrite Cmod_opp, Cmod_R, Rabs_pos_eq in T by lra.
    apply Rle_trans with (1 / 4 * (INR k + 2))%R; [apply Rmult_le_compat_r; lra|]. lra.
  - eapply Rle_trans; [|apply Hc; auto]. apply Rmult_le_compat_r; lra.
Qed.
Definition rho (z h : C) (k : nat) : C := clogp (1 + h / (z + RtoC (INR k))) - h / (z + RtoC (INR k)).
Lemma rpow_cexp (x : R) (h : C) : rpow x h = cexp (h * RtoC (ln x)).
Proof.
  unfold rpow, cexp, cexpi. replace (Re (h * RtoC (ln x))) with (Re h * ln x)%R by (unfold Re; simpl; ring). replace (Im (h * RtoC (ln x))) with (Im h * ln x)%R by (unfold Im; simpl; ring). apply Ceq; simpl; ring.
Qed.
Section Quot.
Variables (z h : C) (c : R).
Hypothesis Hc : (0 < c)%R.
Hypothesis Ha : forall k, (c * (INR k + 2) <= Cmod (z + RtoC (INR k))%C)%R.
Hypothesis Hh : (Cmod h <= c)%R.
Lemma away_pos k : (0 < Cmod (z + RtoC (INR k))%C)%R.
Proof. pose proof (Ha k). pose proof (pos_INR k). nra. Qed.
Lemma w_half k : (Cmod (h / (z + RtoC (INR k)))%C <= 1 / 2)%R.
Proof.
  pose proof (away_pos k) as P. pose proof (Ha k) as A. pose proof (pos_INR k). unfold Cdiv. rewrite Cmod_mult, Cmod_inv by (apply Cmod_pos_neq; auto).
  apply Rmult_le_reg_r with (Cmod (z + RtoC (INR k))%C); auto. rewrite Rmult_assoc, Rinv_l by lra. nra.
Qed.
Lemma rho_bound k : (Cmod (rho z h k) <= 4 * Cmod h ^ 2 / c ^ 2 / (2 + INR k) ^ 2)%R.
Proof.
  pose proof (away_pos k) as P. pose proof (Ha k) as A. pose proof (pos_INR k) as Pk. destruct (log_near _ (w_half k)) as [_ B]. eapply Rle_trans; [exact B|].
  unfold Cdiv. rewrite Cmod_mult, Cmod_inv by (apply Cmod_pos_neq; auto). rewrite Rpow_mult_distr. unfold Rdiv. rewrite !Rmult_assoc. apply Rmult_le_compat_l; [lra|]. apply Rmult_le_compat_l; [apply pow_le, Cmod_ge_0|].
  rewrite pow_inv by lra. rewrite <- Rinv_mult. rewrite <- Rpow_mult_distr. apply Rinv_le_contravar; [apply pow_lt; nra|]. apply pow_incr. nra.
Qed.
Lemma rising_quot n : rising n (z + h) = rising n z * cexp (h * harmonic n z + csum (rho z h) (S n)).
Proof.
  assert (F : forall k, z + h + RtoC (INR k) = (z + RtoC (INR k)) * cexp (h * / (z + RtoC (INR k)) + rho z h k)).
  { intros k. pose proof (away_pos k) as P. assert (N1 : z + RtoC (INR k) <> 0) by (apply Cmod_pos_neq; auto). destruct (log_near _ (w_half k)) as [B _].
    unfold rho. change (h / (z + RtoC (INR k))) with (h * / (z + RtoC (INR k))) in *. replace (h * / (z + RtoC (INR k)) + (clogp (1 + h * / (z + RtoC (INR k))) - h * / (z + RtoC (INR k)))) with (clogp (1 + h * / (z + RtoC (INR k)))) by ring. rewrite B. field. auto. }
  induction n as [|n IH].
  - pose proof (F 0%nat) as F0. cbn [rising harmonic csum]. simpl INR in F0. rewrite !Cplus_0_r in F0. rewrite F0 at 1. do 2 f_equal. ring.
  - cbn [rising harmonic]. rewrite IH, F. change (csum (rho z h) (S (S n))) with (csum (rho z h) (S n) + rho z h (S n)). 
    match goal with |- _ = _ * cexp ?e => replace e with (h * harmonic n z + csum (rho z h) (S n) + (h * / (z + RtoC (INR (S n))) + rho z h (S n))) by ring end.
    rewrite (cexp_plus (h * harmonic n z + csum (rho z h) (S n))). ring.
Qed.
Lemma gauss_quot n : gauss (z + h) n = gauss z n * cexp (h * (RtoC (ln (INR n)) - harmonic n z) - csum (rho z h) (S n)).
Proof.
  unfold gauss. rewrite rising_quot, <- rpow_plus, (rpow_cexp _ h). replace (h * (RtoC (ln (INR n)) - harmonic n z) - csum (rho z h) (S n)) with (h * RtoC (ln (INR n)) + - (h * harmonic n z + csum (rho z h) (S n))) by ring.
  rewrite (cexp_plus (h * RtoC (ln (INR n)))), cexp_opp. unfold Cdiv. set (E := cexp (h * harmonic n z + csum (rho z h) (S n))). pose proof (cexp_neq0 (h * harmonic n z + csum (rho z h) (S n))) as NE. fold E in NE.
  assert (NR : rising n z <> 0).
  { clear - Hc Ha. induction n; cbn [rising]; [pose proof (away_pos 0) as P; simpl INR in P; rewrite Cplus_0_r in P; apply Cmod_pos_neq; exact P|]. apply Cmult_neq_0; auto. apply Cmod_pos_neq, away_pos. }
  field. auto.
Qed.
Lemma rho_sum M : (Cmod (csum (rho z h) M) <= 4 * Cmod h ^ 2 / c ^ 2)%R.
Proof.
  pose proof (csum_diff (rho z h) (fun k => 4 * Cmod h ^ 2 / c ^ 2 / (2 + INR k) ^ 2)%R 0 M rho_bound) as D. cbn [Nat.add csum rsum] in D. replace (csum (rho z h) M - 0) with (csum (rho z h) M) in D by ring.
  pose proof (inv_sq_sum 2 (4 * Cmod h ^ 2 / c ^ 2)%R M ltac:(lra)) as S. assert (0 <= 4 * Cmod h ^ 2 / c ^ 2)%R by (apply Rdiv_le_0_compat; [pose proof (pow2_ge_0 (Cmod h)); lra|apply pow_lt; auto]). specialize (S H). unfold Rminus in D. lra.
Qed.
End Quot.
Lemma clim_opp u l : clim u l -> clim (fun n => - u n) (- l).
Proof. intros H eps He. destruct (H eps He) as (N & HN). exists N. intros n Hn. replace (- u n - - l) with (- (u n - l)) by ring. rewrite Cmod_opp. auto. Qed.
Lemma clim_bound u l B : clim u l -> (exists N, forall n, (N <= n)%nat -> (Cmod (u n) <= B)%R) -> (Cmod l <= B)%R.
Proof.
  intros H (N & HN). apply le_epsilon. intros eps He. destruct (H eps He) as (M & HM). specialize (HN (N + M)%nat ltac:(lia)). specialize (HM (N + M)%nat ltac:(lia)).
  pose proof (Cmod_triangle (l - u (N + M)%nat)%C (u (N + M)%nat)) as T. replace (l - u (N + M)%nat + u (N + M)%nat) with l in T by ring. rewrite Cmod_neg_swap in HM. lra.
Qed.
Lemma clim_near u l : clim u l -> exists N, forall n, (N <= n)%nat -> (Cmod (u n) <= Cmod l + 1)%R.
Proof.
  intros H. destruct (H 1%R ltac:(lra)) as (N & HN). exists N. intros n Hn. specialize (HN n Hn). pose proof (Cmod_triangle (u n - l)%C l) as T. replace (u n - l + l) with (u n) in T by ring. lra.
Qed.
Lemma gamma_second (z g p : C) : ~ pole z -> is_Gamma z g -> is_Digamma z p -> exists K r, (0 < r)%R /\ (0 <= K)%R /\
  forall h gh, (Cmod h <= r)%R -> is_Gamma (z + h) gh -> (Cmod (gh - g - h * (g * p))%C <= K * Cmod h ^ 2)%R.
Proof.
  intros Hz Hg Hp. destruct (away z Hz) as (c & C0 & Hc). set (A := (4 / c ^ 2)%R). assert (A0 : (0 < A)%R) by (apply Rdiv_lt_0_compat; [lra|apply pow_lt; auto]).
  pose proof (Cmod_ge_0 p) as P0. pose proof (Cmod_ge_0 g) as G0. set (P := (Cmod p + 1 + A)%R). assert (HP : (1 < P)%R) by (unfold P; lra).
  exists ((Cmod g + 1) * (20 * P ^ 2 + A))%R, (Rmin c (1 / (2 * P)))%R. assert (R0 : (0 < 1 / (2 * P))%R) by (apply Rdiv_lt_0_compat; lra).
  split; [apply Rmin_pos; auto|]. split; [apply Rmult_le_pos; [lra|pose proof (pow2_ge_0 P); lra]|]. intros h gh Hh Hgh.
  pose proof (Rmin_l c (1 / (2 * P))) as M1. pose proof (Rmin_r c (1 / (2 * P))) as M2. assert (H1 : (Cmod h <= c)%R) by lra. assert (H2 : (Cmod h * P <= 1 / 2)%R).
  { apply Rle_trans with (1 / (2 * P) * P)%R; [apply Rmult_le_compat_r; lra|right; field; lra]. }
  pose proof (Cmod_ge_0 h) as Mh. assert (H3 : (Cmod h <= 1 / 2)%R) by nra.
  refine (clim_bound (fun n => gauss (z + h) n + (- gauss z n + - (h * (gauss z n * (RtoC (ln (INR n)) - harmonic n z))))) _ _ (clim_val _ (gh + (- g + - (h * (g * p)))) _ _ _) _).
  { ring. }
  { apply clim_plus; [exact Hgh|]. apply clim_plus; [apply clim_opp; exact Hg|]. apply clim_opp. apply clim_mult; [apply clim_const|]. apply clim_mult; [exact Hg|exact Hp]. }
  destruct (clim_near _ _ Hg) as (N1 & Q1). destruct (clim_near _ _ Hp) as (N2 & Q2). exists (N1 + N2)%nat. intros n Hn. specialize (Q1 n ltac:(lia)). specialize (Q2 n ltac:(lia)). cbv beta in Q1, Q2.
  rewrite (gauss_quot z h c C0 Hc H1 n). set (q := RtoC (ln (INR n)) - harmonic n z) in *. pose proof (rho_sum z h c C0 Hc H1 (S n)) as RS. set (rr := csum (rho z h) (S n)) in *.
  replace (4 * Cmod h ^ 2 / c ^ 2)%R with (A * Cmod h ^ 2)%R in RS by (unfold A, Rdiv; ring).
  assert (U : (Cmod (h * q - rr)%C <= Cmod h * P)%R).
  { eapply Rle_trans; [apply Cmod_sub_le; [rewrite Cmod_mult; apply Rmult_le_compat_l; [auto|exact Q2]|exact RS]|]. assert (A * Cmod h ^ 2 <= A * Cmod h)%R by (apply Rmult_le_compat_l; [lra|simpl; nra]). unfold P. lra. }
  pose proof (exp_second (h * q - rr) ltac:(lra)) as X.
  replace (gauss z n * cexp (h * q - rr) + (- gauss z n + - (h * (gauss z n * q)))) with (gauss z n * ((cexp (h * q - rr) - 1 - (h * q - rr)) - rr)) by ring.
  rewrite Cmod_mult. assert (Y : (Cmod (cexp (h * q - rr) - 1 - (h * q - rr) - rr)%C <= (20 * P ^ 2 + A) * Cmod h ^ 2)%R).
  { eapply Rle_trans; [apply Cmod_sub_le; [exact X|exact RS]|]. assert (Cmod (h * q - rr)%C ^ 2 <= (Cmod h * P) ^ 2)%R by (apply pow_incr; split; [apply Cmod_ge_0|exact U]). rewrite Rpow_mult_distr in H. lra. }
  rewrite Rmult_assoc. apply Rmult_le_compat; auto; apply Cmod_ge_0.
Qed.

(** ** existence off the poles *)
Lemma nonint_pole (z : C) : ~ pole z -> (Re z <= 0)%R -> forall k, z <> RtoC (IZR k).
Proof.
  intros H Hz k E. apply H. exists (Z.to_nat (- k)). rewrite E. f_equal. assert (k <= 0)%Z by (apply le_IZR; rewrite E in Hz; exact Hz). rewrite INR_IZR_INZ, Z2Nat.id, opp_IZR by lia. ring.
Qed.
Lemma csin_nonint (z : C) : (forall k, z <> RtoC (IZR k)) -> csin (RtoC PI * z) <> 0.
Proof.
  intros H E. destruct z as [x y]. replace (RtoC PI * (x, y)) with ((PI * x, PI * y)%R : C) in E by (unfold Cmult, RtoC; cbn [fst snd]; f_equal; ring). rewrite csin_parts in E.
  pose proof (f_equal Re E) as E1. pose proof (f_equal Im E) as E2. unfold Re, Im, RtoC in E1, E2. cbn [fst snd] in E1, E2.
  assert (P : (0 < cosh (PI * y))%R) by (unfold cosh; pose proof (exp_pos (PI * y)); pose proof (exp_pos (- (PI * y))); lra). apply Rmult_integral in E1. destruct E1 as [E1|E1]; [|lra].
  assert (C1 : cos (PI * x) <> 0%R) by (intros C0; pose proof (sin2_cos2 (PI * x)) as T; rewrite C0, E1 in T; unfold Rsqr in T; lra).
  apply Rmult_integral in E2. destruct E2 as [E2|E2]; [auto|]. unfold sinh in E2. assert (E3 : exp (PI * y) = exp (- (PI * y))) by lra. apply exp_inv in E3. pose proof PI_RGT_0. assert (y = 0)%R by nra.
  destruct (sin_eq_0_0 _ E1) as [k K]. apply (H k). apply Ceq; simpl; [|auto]. apply (Rmult_eq_reg_l PI); [|apply PI_neq0]. rewrite K. ring.
Qed.
Lemma Gamma_exists (z : C) : ~ pole z -> exists g, is_Gamma z g /\ g <> 0.
Proof.
  intros H. destruct (Rle_or_lt (Re z) 0) as [L|L].
  - assert (P : 0 < Re (RtoC 1 - z)) by (change (0 < 1 - Re z)%R; lra). destruct (gamma_accuracy _ P) as (g & v & G1 & _ & G3 & _). pose proof (nonint_pole z H L) as NI. pose proof (csin_nonint z NI) as S.
    eexists. split; [apply (reflection z g); auto|]. apply Cmult_neq_0; [apply RtoC_neq0, PI_neq0|]. apply Cinv_neq0, Cmult_neq_0; auto.
  - destruct (gamma_accuracy z L) as (g & v & G1 & _ & G3 & _). eauto.
Qed.
Lemma pole_away (z h : C) c : (0 < c)%R -> (forall k, (c * (INR k + 2) <= Cmod (z + RtoC (INR k))%C)%R) -> (Cmod h <= c)%R -> ~ pole (z + h).
Proof.
  intros Hc Ha Hh (n & E). specialize (Ha n). pose proof (pos_INR n). replace (z + RtoC (INR n)) with (- h) in Ha. rewrite Cmod_opp in Ha. nra.
  rewrite RtoC_opp in E. replace (z + RtoC (INR n)) with (z + h - h + RtoC (INR n)) by ring. rewrite E. ring.
Qed.
Lemma pole_0 (z : C) : ~ pole z -> z <> 0.
Proof. intros H E. apply H. exists 0%nat. rewrite E. simpl. f_equal. ring. Qed.
Lemma pole_step (z : C) : ~ pole z -> ~ pole (z + 1).
Proof. intros H (n & E). apply H. exists (S n). rewrite S_INR. replace z with (z + 1 - 1) by ring. rewrite E. rewrite <- RtoC_minus. f_equal. ring. Qed.
Lemma harmonic_step (z : C) n : harmonic n (z + 1) = harmonic n z - / z + / (z + RtoC (INR n) + 1).
Proof.
  induction n as [|n IH]; cbn [harmonic]; [simpl INR; rewrite Cplus_0_r; ring|]. rewrite IH. replace (z + RtoC (INR n) + 1) with (z + RtoC (INR (S n))) by (rewrite S_INR, RtoC_plus; ring). replace (z + 1 + RtoC (INR (S n))) with (z + RtoC (INR (S n)) + 1) by ring. ring.
Qed.
Lemma Digamma_step (z p : C) : ~ pole z -> is_Digamma (z + 1) p -> is_Digamma z (p - / z).
Proof.
  intros H Hp. destruct (away z H) as (c & C0 & Hc).
  assert (L : clim (fun n => / (z + RtoC (INR n) + 1)) 0).
  { apply (clim_le0 _ (fun n => / c * / INR n)%R 1).
    - intros n Hn. apply (le_INR 1) in Hn. simpl (INR 1) in Hn. replace (z + RtoC (INR n) + 1) with (z + RtoC (INR (S n))) by (rewrite S_INR, RtoC_plus; ring). pose proof (Hc (S n)) as A. rewrite S_INR in A at 1.
      assert (0 < c * INR n)%R by (apply Rmult_lt_0_compat; lra). rewrite Cmod_inv by (apply Cmod_pos_neq; nra). rewrite <- Rinv_mult. apply Rinv_le_contravar; [auto|nra].
    - replace (Finite 0) with (Rbar_mult (/ c)%R 0) by (simpl; f_equal; ring). apply (is_lim_seq_scal_l _ _ 0), inv_INR_lim. }
  refine (clim_ext (fun n => (RtoC (ln (INR n)) - harmonic n (z + 1)) + (- / z + / (z + RtoC (INR n) + 1))) _ _ _ _).
  - intros n. rewrite harmonic_step. ring.
  - refine (clim_val _ _ _ _ (clim_plus _ _ _ _ Hp (clim_plus _ _ _ _ (clim_const _) L))). ring.
Qed.
Lemma Digamma_exists (z : C) : ~ pole z -> exists p, is_Digamma z p.
Proof.
  assert (K : forall m (z : C), ~ pole z -> (0 <= Re z + INR m)%R -> exists p, is_Digamma z p).
  { induction m as [|m IH]; intros w H Hm.
    - destruct (body_accuracy w 0) as (v & p & _ & P & _); [simpl in Hm; lra|apply pole_0; auto|eauto].
    - destruct (IH (w + 1)) as (p & P); [apply pole_step; auto|rewrite S_INR in Hm; rewrite Re_add; simpl (Re 1); lra|]. exists (p - / w). apply Digamma_step; auto. }
  intros H. destruct (INR_above (- Re z)) as (m & Hm). apply (K m z H). lra.
Qed.
Lemma gamma_derivative (z g p : C) : ~ pole z -> is_Gamma z g -> is_Digamma z p -> Gamma_derivative z (g * p).
Proof.
  intros Hz Hg Hp. destruct (gamma_second z g p Hz Hg Hp) as (K & r & R0 & K0 & HK). destruct (away z Hz) as (c & C0 & Hc).
  exists g. split; auto. intros eps He. set (d := Rmin (Rmin c r) (eps / (K + 1))). assert (D0 : (0 < eps / (K + 1))%R) by (apply Rdiv_lt_0_compat; lra). exists d. split; [repeat apply Rmin_pos; auto|].
  intros h Hh. pose proof (Rmin_l (Rmin c r) (eps / (K + 1))) as M1. pose proof (Rmin_r (Rmin c r) (eps / (K + 1))) as M2. pose proof (Rmin_l c r) as M3. pose proof (Rmin_r c r) as M4. fold d in M1, M2.
  destruct (Gamma_exists (z + h)) as (gh & G & _); [apply (pole_away z h c); auto; lra|]. exists gh. split; auto. eapply Rle_trans; [apply HK; auto; lra|].
  pose proof (Cmod_ge_0 h) as Mh. simpl (_ ^ 2)%R. rewrite Rmult_1_r, <- Rmult_assoc. apply Rmult_le_compat_r; auto. apply Rle_trans with ((K + 1) * (eps / (K + 1)))%R; [|right; field; lra]. apply Rmult_le_compat; lra.
Qed.

(** ** the reflection formula of the digamma function *)
Lemma lin_mul (e : R) (A a a1 B b b1 : C) Ka Kb : (Rabs e <= 1)%R -> (0 <= Ka)%R -> (0 <= Kb)%R -> (Cmod (A - a - RtoC e * a1)%C <= Ka * e ^ 2)%R -> (Cmod (B - b - RtoC e * b1)%C <= Kb * e ^ 2)%R ->
  (Cmod (A * B - a * b - RtoC e * (a1 * b + a * b1))%C <= (Ka * (Cmod b + Cmod b1 + Kb) + (Cmod a + Cmod a1) * Kb + Cmod a1 * Cmod b1) * e ^ 2)%R.
Proof.
  intros He H1 H2 HA HB. assert (E2 : (0 <= e ^ 2 <= 1)%R) by (rewrite <- pow2_abs; pose proof (Rabs_pos e); split; [apply pow2_ge_0|simpl; nra]).
  assert (Hl : forall x y : C, (Cmod (x + RtoC e * y)%C <= Cmod x + Cmod y)%R).
  { intros x y. eapply Rle_trans; [apply Cmod_triangle|]. rewrite Cmod_mult, Cmod_R. pose proof (Cmod_ge_0 y). pose proof (Rabs_pos e). nra. }
  assert (MB : (Cmod B <= Cmod b + Cmod b1 + Kb)%R).
  { replace B with ((b + RtoC e * b1) + (B - b - RtoC e * b1)) by ring. eapply Rle_trans; [apply Cmod_add_le; [apply Hl|exact HB]|]. nra. }
  replace (A * B - a * b - RtoC e * (a1 * b + a * b1)) with ((A - a - RtoC e * a1) * B + (a + RtoC e * a1) * (B - b - RtoC e * b1) + RtoC e * RtoC e * (a1 * b1)) by ring.
  apply Rle_trans with (Ka * e ^ 2 * (Cmod b + Cmod b1 + Kb) + (Cmod a + Cmod a1) * (Kb * e ^ 2) + e ^ 2 * (Cmod a1 * Cmod b1))%R; [|right; ring].
  apply Cmod_add_le; [apply Cmod_add_le|]; rewrite Cmod_mult.
  - apply Rmult_le_compat; auto; apply Cmod_ge_0.
  - apply Rmult_le_compat; auto; apply Cmod_ge_0.
  - rewrite !Cmod_mult, Cmod_R. right. replace (Rabs e * Rabs e)%R with (e ^ 2)%R by (rewrite <- pow2_abs; ring). ring.
Qed.
Lemma lin_zero (X : C) K r : (0 < r)%R -> (0 <= K)%R -> (forall e, (0 < e <= r)%R -> (Cmod (RtoC e * X)%C <= K * e ^ 2)%R) -> X = 0.
Proof.
  intros R0 K0 H. apply Cmod_eq_0. apply Rle_antisym; [|apply Cmod_ge_0]. apply le_epsilon. intros eps He. rewrite Rplus_0_l.
  set (e := Rmin r (eps / (K + 1))). assert (D0 : (0 < eps / (K + 1))%R) by (apply Rdiv_lt_0_compat; lra). pose proof (Rmin_l r (eps / (K + 1))) as M1. pose proof (Rmin_r r (eps / (K + 1))) as M2. fold e in M1, M2.
  assert (E0 : (0 < e)%R) by (apply Rmin_pos; auto). specialize (H e (conj E0 M1)). rewrite Cmod_mult, Cmod_R, Rabs_pos_eq in H by lra.
  assert (Cmod X <= K * e)%R by (apply Rmult_le_reg_l with e; auto; simpl in H; lra). apply Rle_trans with (K * e)%R; auto. apply Rle_trans with ((K + 1) * (eps / (K + 1)))%R; [|right; field; lra]. apply Rmult_le_compat; lra.
Qed.
Lemma csin_second (w d : C) : (Cmod d <= 1 / 2)%R -> (Cmod (csin (w + d) - csin w - d * ccos w)%C <= 10 * (Cmod (cexp (Ci * w))%C + Cmod (cexp (- (Ci * w)))%C) * Cmod d ^ 2)%R.
Proof.
  intros H. assert (Mi : Cmod Ci = 1%R) by (unfold Cmod, Ci; simpl; rewrite !Rmult_0_l, !Rmult_1_r, Rplus_0_l; apply sqrt_1).
  assert (NI : Ci <> 0) by (intros E; apply (f_equal Im) in E; simpl in E; lra). assert (N2 : RtoC 2 <> 0) by (apply RtoC_neq0; lra).
  assert (A1 : (Cmod (cexp (Ci * d) - 1 - Ci * d)%C <= 20 * Cmod d ^ 2)%R) by (pose proof (exp_second (Ci * d)) as X; rewrite (Cmod_mult Ci), Mi, Rmult_1_l in X; auto).
  assert (A2 : (Cmod (cexp (- (Ci * d)) - 1 - - (Ci * d))%C <= 20 * Cmod d ^ 2)%R) by (pose proof (exp_second (- (Ci * d))) as X; rewrite (Cmod_opp (Ci * d)), (Cmod_mult Ci), Mi, Rmult_1_l in X; auto).
  assert (E : csin (w + d) - csin w - d * ccos w = (cexp (Ci * w) * (cexp (Ci * d) - 1 - Ci * d) - cexp (- (Ci * w)) * (cexp (- (Ci * d)) - 1 - - (Ci * d))) / (RtoC 2 * Ci)).
  { unfold csin, ccos. replace (Ci * (w + d)) with (Ci * w + Ci * d) by ring. replace (- (Ci * w + Ci * d)) with (- (Ci * w) + - (Ci * d)) by ring. rewrite !cexp_plus. field. auto. }
  rewrite E. unfold Cdiv. rewrite Cmod_mult, Cmod_inv, Cmod_mult, Mi, Cmod_R, Rabs_pos_eq by (try apply Cmult_neq_0; auto; lra).
  assert (Cmod (cexp (Ci * w) * (cexp (Ci * d) - 1 - Ci * d) - cexp (- (Ci * w)) * (cexp (- (Ci * d)) - 1 - - (Ci * d)))%C <= Cmod (cexp (Ci * w))%C * (20 * Cmod d ^ 2) + Cmod (cexp (- (Ci * w)))%C * (20 * Cmod d ^ 2))%R.
  { apply Cmod_sub_le; rewrite Cmod_mult; apply Rmult_le_compat_l; auto; apply Cmod_ge_0. }
  lra.
Qed.
Lemma nonint_poles (z : C) : (forall k, z <> RtoC (IZR k)) <-> ~ pole z /\ ~ pole (1 - z).
Proof.
  split.
  - intros H. split; intros (n & E).
    + apply (H (- Z.of_nat n)%Z). rewrite E, opp_IZR, <- INR_IZR_INZ. reflexivity.
    + apply (H (1 + Z.of_nat n)%Z). rewrite plus_IZR, <- INR_IZR_INZ, RtoC_plus. replace z with (1 - (1 - z)) by ring. rewrite E, RtoC_opp. ring.
  - intros [H1 H2] k E. destruct (Z_le_gt_dec k 0) as [L|L].
    + apply H1. exists (Z.to_nat (- k)). rewrite INR_IZR_INZ, Z2Nat.id, opp_IZR by lia. rewrite E. f_equal. ring.
    + apply H2. exists (Z.to_nat (k - 1)). rewrite INR_IZR_INZ, Z2Nat.id, minus_IZR by lia. rewrite E, <- RtoC_minus. f_equal. ring.
Qed.
Lemma reflection_prod (z g g' : C) : (forall k, z <> RtoC (IZR k)) -> is_Gamma z g -> is_Gamma (1 - z) g' -> g * g' * csin (RtoC PI * z) = RtoC PI.
Proof.
  intros H H1 H2. pose proof (csin_nonint z H) as S. assert (N : g' <> 0).
  { destruct (Gamma_exists (1 - z)) as (g2 & A & B); [apply nonint_poles; auto|]. rewrite (Gamma_unique _ _ _ H2 A). auto. }
  rewrite (Gamma_unique _ _ _ H1 (reflection z g' H H2 N S)). field. auto.
Qed.
Lemma digamma_reflection (z q : C) : (forall k, z <> RtoC (IZR k)) -> is_Digamma (1 - z) q -> is_Digamma z (q - RtoC PI * (ccos (RtoC PI * z) / csin (RtoC PI * z))).
Proof.
  intros H Hq. destruct (proj1 (nonint_poles z) H) as [P1 P2]. destruct (Gamma_exists z P1) as (g & G1 & Ng). destruct (Gamma_exists (1 - z) P2) as (g' & G2 & Ng'). destruct (Digamma_exists z P1) as (p & Hp).
  destruct (gamma_second z g p P1 G1 Hp) as (K1 & r1 & R1 & K10 & S1). destruct (gamma_second (1 - z) g' q P2 G2 Hq) as (K2 & r2 & R2 & K20 & S2).
  destruct (away z P1) as (c1 & C1 & A1). destruct (away (1 - z) P2) as (c2 & C2 & A2).
  set (w := RtoC PI * z). set (s := csin w). set (c := ccos w). pose proof (csin_nonint z H) as Ns. fold w s in Ns.
  set (K3 := (10 * (Cmod (cexp (Ci * w))%C + Cmod (cexp (- (Ci * w)))%C) * PI ^ 2)%R). assert (K30 : (0 <= K3)%R).
  { unfold K3. apply Rmult_le_pos; [|apply pow2_ge_0]. pose proof (Cmod_ge_0 (cexp (Ci * w))). pose proof (Cmod_ge_0 (cexp (- (Ci * w)))). lra. }
  pose proof PI_RGT_0 as PP. pose proof PI_4 as P4.
  set (r := Rmin (Rmin r1 r2) (Rmin (Rmin c1 c2) (1 / 8))). assert (R0 : (0 < r)%R) by (repeat apply Rmin_pos; lra).
  assert (RR : forall e : R, (0 < e <= r)%R -> (e <= r1 /\ e <= r2 /\ e <= c1 /\ e <= c2 /\ e <= 1 / 8)%R).
  { intros e He. unfold r in He. pose proof (Rmin_l (Rmin r1 r2) (Rmin (Rmin c1 c2) (1 / 8))). pose proof (Rmin_r (Rmin r1 r2) (Rmin (Rmin c1 c2) (1 / 8))). pose proof (Rmin_l r1 r2). pose proof (Rmin_r r1 r2). pose proof (Rmin_l (Rmin c1 c2) (1 / 8)). pose proof (Rmin_r (Rmin c1 c2) (1 / 8)). pose proof (Rmin_l c1 c2). pose proof (Rmin_r c1 c2). lra. }
  set (K12 := (K1 * (Cmod g' + Cmod (- (g' * q))%C + K2) + (Cmod g + Cmod (g * p)%C) * K2 + Cmod (g * p)%C * Cmod (- (g' * q))%C)%R).
  assert (K120 : (0 <= K12)%R) by (unfold K12; pose proof (Cmod_ge_0 g); pose proof (Cmod_ge_0 g'); pose proof (Cmod_ge_0 (g * p)); pose proof (Cmod_ge_0 (- (g' * q))); repeat apply Rplus_le_le_0_compat; apply Rmult_le_pos; lra).
  set (X1 := (g * p) * g' + g * (- (g' * q))). set (X := X1 * s + (g * g') * (RtoC PI * c)).
  set (K := (K12 * (Cmod s + Cmod (RtoC PI * c)%C + K3) + (Cmod (g * g')%C + Cmod X1) * K3 + Cmod X1 * Cmod (RtoC PI * c)%C)%R).
  assert (K0 : (0 <= K)%R) by (unfold K; pose proof (Cmod_ge_0 s); pose proof (Cmod_ge_0 (g * g')); pose proof (Cmod_ge_0 X1); pose proof (Cmod_ge_0 (RtoC PI * c)); repeat apply Rplus_le_le_0_compat; apply Rmult_le_pos; lra).
  assert (Z : X = 0).
  { apply (lin_zero X K r R0 K0). intros e He. destruct (RR e He) as (B1 & B2 & B3 & B4 & B5). assert (Me : Cmod (RtoC e) = e) by (rewrite Cmod_R, Rabs_pos_eq; lra). assert (Mo : Cmod (RtoC (- e)) = e) by (rewrite Cmod_R, Rabs_Ropp, Rabs_pos_eq; lra).
    assert (Q1 : ~ pole (z + RtoC e)) by (apply (pole_away z _ c1); auto; lra). assert (Q2 : ~ pole (1 - z + RtoC (- e))) by (apply (pole_away (1 - z) _ c2); auto; lra).
    destruct (Gamma_exists _ Q1) as (h1 & H1 & _). destruct (Gamma_exists _ Q2) as (h2 & H2 & _).
    pose proof (S1 (RtoC e) _ ltac:(lra) H1) as T1. pose proof (S2 (RtoC (- e)) _ ltac:(lra) H2) as T2. rewrite Me in T1. rewrite Mo in T2.
    replace (h2 - g' - RtoC (- e) * (g' * q)) with (h2 - g' - RtoC e * (- (g' * q))) in T2 by (rewrite RtoC_opp; ring).
    assert (Ae : (Rabs e <= 1)%R) by (rewrite Rabs_pos_eq; lra).
    pose proof (lin_mul e h1 g (g * p) h2 g' (- (g' * q)) K1 K2 Ae K10 K20 T1 T2) as T12. fold K12 X1 in T12.
    assert (T3 : (Cmod (csin (RtoC PI * (z + RtoC e)) - s - RtoC e * (RtoC PI * c))%C <= K3 * e ^ 2)%R).
    { assert (Md : Cmod (RtoC PI * RtoC e)%C = (PI * e)%R) by (rewrite Cmod_mult, Me, Cmod_R, Rabs_pos_eq; lra). pose proof (csin_second w (RtoC PI * RtoC e)) as Y. rewrite Md in Y. fold s c in Y.
      replace (RtoC PI * (z + RtoC e)) with (w + RtoC PI * RtoC e) by (unfold w; ring). replace (RtoC e * (RtoC PI * c)) with (RtoC PI * RtoC e * c) by ring. eapply Rle_trans; [apply Y; nra|]. right. unfold K3. ring. }
    pose proof (lin_mul e (h1 * h2) (g * g') X1 (csin (RtoC PI * (z + RtoC e))) s (RtoC PI * c) K12 K3 Ae K120 K30 T12 T3) as T. fold K X in T.
    assert (E1 : g * g' * s = RtoC PI) by (apply (reflection_prod z); auto).
    assert (E2 : h1 * h2 * csin (RtoC PI * (z + RtoC e)) = RtoC PI).
    { apply (reflection_prod (z + RtoC e)); auto.
      - apply nonint_poles. split; auto. replace (1 - (z + RtoC e)) with (1 - z + RtoC (- e)) by (rewrite RtoC_opp; ring). auto.
      - replace (1 - (z + RtoC e)) with (1 - z + RtoC (- e)) by (rewrite RtoC_opp; ring). auto. }
    rewrite E1, E2 in T. replace (RtoC PI - RtoC PI - RtoC e * X) with (- (RtoC e * X)) in T by ring. rewrite Cmod_opp in T. exact T. }
  replace (q - RtoC PI * (c / s)) with p; [exact Hp|].
  assert (NG : g * g' <> 0) by (apply Cmult_neq_0; auto).
  replace p with (X / (g * g' * s) + q - RtoC PI * (c / s)) by (unfold X, X1; field; auto). rewrite Z. field. auto.
Qed.

(** ** accuracy *)
Lemma Digamma_unique z p p' : is_Digamma z p -> is_Digamma z p' -> p = p'.
Proof. apply clim_unique. Qed.
Lemma digamma_accuracy (z : C) : ~ pole z -> exists v p, digamma_ z = Some v /\ is_Digamma z p /\ (Cmod (v - p)%C <= 3.8e-11)%R.
Proof.
  intros H. unfold digamma_. destruct (Rltb_spec (Re z) 0) as [L|L].
  - assert (NI : forall k, z <> RtoC (IZR k)) by (apply nonint_pole; auto; lra). pose proof (csin_nonint z NI) as S. unfold pi_over_tan. rewrite cinv_some by auto. cbn [cbind].
    destruct (body_accuracy (1 - z) (- (RtoC PI * (ccos (RtoC PI * z) * / csin (RtoC PI * z))))) as (v & p & A & B & D); [change (0 <= 1 - Re z)%R; lra|apply Re_pos_neq0; change (0 < 1 - Re z)%R; lra|].
    eexists. eexists. split; [exact A|]. split; [apply digamma_reflection; auto; exact B|]. match goal with |- (Cmod ?x <= _)%R => replace x with (v - p) by (unfold Cdiv; ring) end. exact D.
  - destruct (body_accuracy z 0) as (v & p & A & B & D); [lra|apply pole_0; auto|]. exists (0 + v), p. split; auto. split; auto. replace (0 + v - p) with (v - p) by ring. auto.
Qed.
Lemma derivative_unique (z d d' : C) : Gamma_derivative z d -> Gamma_derivative z d' -> d = d'.
Proof.
  intros (g & G & H) (g' & G' & H'). pose proof (Gamma_unique _ _ _ G G') as <-. apply Cminus_eq_0. apply Cmod_eq_0. apply Rle_antisym; [|apply Cmod_ge_0]. apply le_epsilon. intros eps He. rewrite Rplus_0_l.
  destruct (H (eps / 2)%R ltac:(lra)) as (r & R0 & Q). destruct (H' (eps / 2)%R ltac:(lra)) as (r' & R0' & Q'). set (e := (Rmin r r' / 2)%R).
  assert (E0 : (0 < Rmin r r')%R) by (apply Rmin_pos; auto). pose proof (Rmin_l r r') as M1. pose proof (Rmin_r r r') as M2. assert (Me : Cmod (RtoC e) = e) by (rewrite Cmod_R, Rabs_pos_eq; unfold e; lra). assert (Ep : (0 < e)%R) by (unfold e; lra).
  destruct (Q (RtoC e)) as (h & Hh & B); [rewrite Me; unfold e; lra|]. destruct (Q' (RtoC e)) as (h' & Hh' & B'); [rewrite Me; unfold e; lra|]. pose proof (Gamma_unique _ _ _ Hh Hh') as <-. rewrite Me in B, B'.
  pose proof (Cmod_sub_le _ _ _ _ B' B) as T. replace (h - g - RtoC e * d' - (h - g - RtoC e * d)) with (RtoC e * (d - d')) in T by ring. rewrite Cmod_mult, Me in T. apply Rmult_le_reg_l with e; auto. lra.
Qed.
Lemma jvp_accuracy (z xd : C) : (forall n, Re z <> (- INR n)%R) -> exists v w g d, gamma_jvp z xd = Some (v, w) /\ gamma_ z = Some v /\ is_Gamma z g /\ Gamma_derivative z d /\ (Cmod (w - d * xd)%C <= 4e-11 * (Cmod d + Cmod g) * Cmod xd)%R.
Proof.
  intros H. assert (NP : ~ pole z) by (intros (n & E); apply (H n); rewrite E; reflexivity).
  destruct (gamma_accuracy_off z H) as (g & v & G1 & G2 & G3 & G4). destruct (digamma_accuracy z NP) as (dg & p & D1 & D2 & D3).
  exists v, (v * dg * xd), g, (g * p). unfold gamma_jvp. rewrite G2, D1. split; [reflexivity|]. split; [reflexivity|]. split; [auto|]. split; [apply gamma_derivative; auto|].
  replace (v * dg * xd - g * p * xd) with (((v - g) * p + (v - g) * (dg - p) + g * (dg - p)) * xd) by ring. rewrite (Cmod_mult _ xd). apply Rmult_le_compat_r; [apply Cmod_ge_0|].
  pose proof (Cmod_ge_0 g) as Mg. pose proof (Cmod_ge_0 p) as Mp. pose proof (Cmod_ge_0 (dg - p)) as Md. pose proof (Cmod_ge_0 (v - g)) as Mv.
  eapply Rle_trans; [apply Cmod_add_le; [apply Cmod_add_le|]; rewrite Cmod_mult; [apply Rmult_le_compat; [auto|auto|exact G4|apply Rle_refl]|apply Rmult_le_compat; [auto|auto|exact G4|exact D3]|apply Rmult_le_compat; [auto|auto|apply Rle_refl|exact D3]]|].
  rewrite Cmod_mult. assert (0 <= Cmod g * Cmod p)%R by (apply Rmult_le_pos; auto). lra.
Qed.
