(** Every image off the critical curves belongs to a smooth image branch (inverse function theorem for lens mappings). *)
From Coq Require Import Reals List Bool Arith ZArith Lia Lra Psatz.
From Coquelicot Require Import Coquelicot.
From Verif Require Import Base_R Base_List Base_C S_PointSource S_Multipole M_PointSource M_Multipole P_Lens P_Jets P_Multipole.
Import ListNotations.
Local Open Scope R_scope.
Local Open Scope C_scope.

(** * difference quotient of the deflection *)
Fixpoint DS (L : lens_system) (z z' : C) : C :=
  match L with [] => RtoC 0 | (m, p) :: t => RtoC m / ((z - p) * (z' - p)) + DS t z z' end.
Lemma DS_diag L z : DS L z z = - Wk L z 2.
Proof.
  unfold Wk. replace (wfac 2) with (- RtoC 1) by (unfold wfac; simpl; rewrite <- RtoC_opp; f_equal; ring).
  replace (- (- RtoC 1 * Wsum L z 2)) with (Wsum L z 2) by ring.
  induction L as [|[m p] L IH]; cbn [DS Wsum]; [reflexivity|]. rewrite IH. cbn [Cpow]. rewrite Cmult_1_r. reflexivity.
Qed.
Lemma off_cons m p L z : off_masses ((m, p) :: L) z -> z - p <> 0 /\ off_masses L z.
Proof.
  intros H. split.
  - intros Q. apply (H m p); [left; reflexivity|apply Cminus_eq_0; exact Q].
  - intros m' p' I. apply (H m' p'). right; exact I.
Qed.
Lemma map_diff L z z' : off_masses L z -> off_masses L z' ->
  lens_map L z - lens_map L z' = (z - z') + Cconj ((z - z') * DS L z z').
Proof.
  intros H H'. unfold lens_map.
  assert (E : deflection L z' - deflection L z = Cconj ((z - z') * DS L z z')).
  { induction L as [|[m p] L IH]; cbn [deflection DS].
    - apply Ceq; simpl; ring.
    - apply off_cons in H as [N O]. apply off_cons in H' as [N' O']. specialize (IH O O').
      replace ((z - z') * (RtoC m / ((z - p) * (z' - p)) + DS L z z')) with ((RtoC m / (z' - p) - RtoC m / (z - p)) + (z - z') * DS L z z') by (field; auto).
      rewrite Cconj_plus, <- IH, !Cconj_minus, !Cconj_div, !Cconj_minus, Cconj_RtoC. ring. }
  rewrite <- E. ring.
Qed.
Lemma quot_bound (u0 u v : C) (dl : R) : u0 <> 0 -> (Cmod (u - u0)%C <= dl)%R -> (Cmod (v - u0)%C <= dl)%R -> (dl <= Cmod u0 / 2)%R ->
  u <> 0 /\ v <> 0 /\ (Cmod (/ (u * v) - / (u0 * u0))%C <= 10 * dl / Cmod u0 ^ 3)%R.
Proof.
  intros N A B Hd. pose proof (proj1 (Cmod_gt_0 u0) N) as P.
  assert (Au : (Cmod u0 / 2 <= Cmod u)%R).
  { pose proof (Cmod_triangle (u - u0) (- u)) as T. replace (u - u0 + - u) with (- u0) in T by ring. rewrite !Cmod_opp in T. lra. }
  assert (Av : (Cmod u0 / 2 <= Cmod v)%R).
  { pose proof (Cmod_triangle (v - u0) (- v)) as T. replace (v - u0 + - v) with (- u0) in T by ring. rewrite !Cmod_opp in T. lra. }
  assert (Nu : u <> 0) by (intros Q; rewrite Q, Cmod_0 in Au; lra). assert (Nv : v <> 0) by (intros Q; rewrite Q, Cmod_0 in Av; lra).
  split; [exact Nu|]. split; [exact Nv|].
  replace (/ (u * v) - / (u0 * u0)) with ((u0 * (u0 - v) + v * (u0 - u)) * (/ (u * v) * / (u0 * u0))) by (field; auto).
  rewrite !Cmod_mult. 
  assert (K1 : (Cmod (u0 * (u0 - v) + v * (u0 - u))%C <= 5 / 2 * Cmod u0 * dl)%R).
  { eapply Rle_trans; [apply Cmod_triangle|]. rewrite !Cmod_mult.
    replace (Cmod (u0 - v)%C) with (Cmod (v - u0)%C) by (rewrite <- Cmod_opp; f_equal; ring).
    replace (Cmod (u0 - u)%C) with (Cmod (u - u0)%C) by (rewrite <- Cmod_opp; f_equal; ring).
    assert (Cmod v <= 3 / 2 * Cmod u0)%R.
    { pose proof (Cmod_triangle (v - u0) u0) as T. replace (v - u0 + u0) with v in T by ring. lra. }
    pose proof (Cmod_ge_0 (v - u0)). pose proof (Cmod_ge_0 (u - u0)). pose proof (Cmod_ge_0 v). nra. }
  assert (K2 : (Cmod (/ (u * v))%C <= 4 / (Cmod u0 * Cmod u0))%R).
  { rewrite Cmod_inv by (apply Cmult_neq_0; assumption). rewrite Cmod_mult.
    replace (4 / (Cmod u0 * Cmod u0))%R with (/ ((Cmod u0 / 2) * (Cmod u0 / 2)))%R by (field; lra). apply Rinv_le_contravar; nra. }
  assert (K3 : (Cmod (/ (u0 * u0))%C = / (Cmod u0 * Cmod u0))%R).
  { rewrite Cmod_inv by (apply Cmult_neq_0; assumption). rewrite Cmod_mult. reflexivity. }
  rewrite K3. pose proof (Cmod_ge_0 (u0 * (u0 - v) + v * (u0 - u))). pose proof (Cmod_ge_0 (/ (u * v))).
  replace (10 * dl / Cmod u0 ^ 3)%R with ((5 / 2 * Cmod u0 * dl) * ((4 / (Cmod u0 * Cmod u0)) * / (Cmod u0 * Cmod u0)))%R by (field; lra).
  apply Rmult_le_compat; [assumption| |exact K1|].
  - apply Rmult_le_pos; [assumption|]. left. apply Rinv_0_lt_compat. nra.
  - apply Rmult_le_compat_r; [|exact K2]. left. apply Rinv_0_lt_compat. nra.
Qed.
Lemma DS_cont L z0 : off_masses L z0 -> forall eta, (0 < eta)%R -> exists dl, (0 < dl)%R /\
  forall z z', (Cmod (z - z0)%C <= dl)%R -> (Cmod (z' - z0)%C <= dl)%R ->
    off_masses L z /\ off_masses L z' /\ (Cmod (DS L z z' - DS L z0 z0)%C <= eta)%R.
Proof.
  intros O. induction L as [|[m p] L IH]; intros eta He.
  - exists 1%R. split; [lra|]. intros z z' _ _. split; [intros ? ? []|]. split; [intros ? ? []|]. cbn [DS].
    replace (RtoC 0 - RtoC 0) with (RtoC 0) by ring. rewrite Cmod_0. lra.
  - apply off_cons in O as [N O]. destruct (IH O (eta / 2)%R ltac:(lra)) as (d1 & P1 & H1).
    set (u0 := z0 - p) in *. pose proof (proj1 (Cmod_gt_0 u0) N) as P0.
    set (d2 := (eta * Cmod u0 ^ 3 / (20 * (Rabs m + 1)))%R).
    pose proof (Rabs_pos m) as Pm. assert (P3 : (0 < Cmod u0 ^ 3)%R) by (apply pow_lt; exact P0).
    assert (P2 : (0 < d2)%R) by (unfold d2; apply Rdiv_lt_0_compat; nra).
    exists (Rmin d1 (Rmin d2 (Cmod u0 / 2)))%R.
    assert (M1 := Rmin_l d1 (Rmin d2 (Cmod u0 / 2))). assert (M2 := Rmin_r d1 (Rmin d2 (Cmod u0 / 2))).
    assert (M3 := Rmin_l d2 (Cmod u0 / 2)). assert (M4 := Rmin_r d2 (Cmod u0 / 2)).
    set (dl := Rmin d1 (Rmin d2 (Cmod u0 / 2))) in *.
    split; [unfold dl; repeat apply Rmin_glb_lt; lra|]. intros z z' A B.
    destruct (H1 z z' ltac:(lra) ltac:(lra)) as (O1 & O2 & E).
    destruct (quot_bound u0 (z - p) (z' - p) dl N) as (Nz & Nz' & K).
    { replace (z - p - u0) with (z - z0) by (unfold u0; ring). exact A. }
    { replace (z' - p - u0) with (z' - z0) by (unfold u0; ring). exact B. }
    { lra. }
    split. { intros m' p' [I|I]; [injection I as <- <-; intros Q; apply Nz; rewrite Q; ring|apply (O1 m' p' I)]. }
    split. { intros m' p' [I|I]; [injection I as <- <-; intros Q; apply Nz'; rewrite Q; ring|apply (O2 m' p' I)]. }
    cbn [DS]. fold u0.
    replace (RtoC m / ((z - p) * (z' - p)) + DS L z z' - (RtoC m / (u0 * u0) + DS L z0 z0))
      with (RtoC m * (/ ((z - p) * (z' - p)) - / (u0 * u0)) + (DS L z z' - DS L z0 z0)) by (unfold Cdiv; ring).
    eapply Rle_trans; [apply Cmod_triangle|]. rewrite Cmod_mult, Cmod_R.
    assert (X : (Rabs m * (10 * dl / Cmod u0 ^ 3) <= eta / 2)%R).
    { apply Rle_trans with (Rabs m * (10 * d2 / Cmod u0 ^ 3))%R.
      - apply Rmult_le_compat_l; [exact Pm|]. unfold Rdiv. apply Rmult_le_compat_r; [left; apply Rinv_0_lt_compat; exact P3|]. lra.
      - unfold d2. replace (Rabs m * (10 * (eta * Cmod u0 ^ 3 / (20 * (Rabs m + 1))) / Cmod u0 ^ 3))%R with (eta / 2 * (Rabs m / (Rabs m + 1)))%R by (field; lra).
        rewrite <- (Rmult_1_r (eta / 2)) at 2. apply Rmult_le_compat_l; [lra|]. apply Rmult_le_reg_r with (Rabs m + 1)%R; [lra|].
        unfold Rdiv. rewrite Rmult_assoc, Rinv_l by lra. lra. }
    assert (Y : (Rabs m * Cmod (/ ((z - p) * (z' - p)) - / (u0 * u0))%C <= Rabs m * (10 * dl / Cmod u0 ^ 3))%R) by (apply Rmult_le_compat_l; assumption).
    lra.
Qed.

(** * solving h + conj (S h) = k *)
Definition Tinv (S0 k : C) : C := (k - Cconj S0 * Cconj k) / RtoC (1 - Cmod S0 * Cmod S0).
Lemma Tinv_ok S0 k : (1 - Cmod S0 * Cmod S0 <> 0)%R -> Tinv S0 k + Cconj (Tinv S0 k * S0) = k.
Proof.
  intros N. unfold Tinv. set (d := (1 - Cmod S0 * Cmod S0)%R) in *.
  assert (Nd : RtoC d <> 0) by (apply RtoC_neq0; exact N).
  rewrite Cconj_mult, Cconj_div, Cconj_minus, Cconj_mult, !Cconj_conj, Cconj_RtoC.
  replace ((k - Cconj S0 * Cconj k) / RtoC d + (Cconj k - S0 * k) / RtoC d * Cconj S0) with (k * (1 - S0 * Cconj S0) / RtoC d) by (field; exact Nd).
  rewrite Cmult_conj. replace (1 - RtoC (Cmod S0 * Cmod S0)) with (RtoC d) by (unfold d; rewrite RtoC_minus; reflexivity). field. exact Nd.
Qed.
Lemma Tinv_unique S0 h : (1 - Cmod S0 * Cmod S0 <> 0)%R -> Tinv S0 (h + Cconj (h * S0)) = h.
Proof.
  intros N. unfold Tinv. set (d := (1 - Cmod S0 * Cmod S0)%R) in *.
  assert (Nd : RtoC d <> 0) by (apply RtoC_neq0; exact N).
  rewrite Cconj_plus, Cconj_conj, Cconj_mult.
  replace (h + Cconj h * Cconj S0 - Cconj S0 * (Cconj h + h * S0)) with (h * (1 - S0 * Cconj S0)) by ring.
  rewrite Cmult_conj. replace (1 - RtoC (Cmod S0 * Cmod S0)) with (RtoC d) by (unfold d; rewrite RtoC_minus; reflexivity). field. exact Nd.
Qed.
Lemma Tinv_minus S0 k k' : Tinv S0 (k - k') = Tinv S0 k - Tinv S0 k'.
Proof. unfold Tinv. rewrite Cconj_minus. unfold Cdiv. ring. Qed.
Definition Tc (S0 : C) : R := ((1 + Cmod S0) / Rabs (1 - Cmod S0 * Cmod S0))%R.
Lemma Tinv_bound S0 k : (1 - Cmod S0 * Cmod S0 <> 0)%R -> (Cmod (Tinv S0 k)%C <= Tc S0 * Cmod k)%R.
Proof.
  intros N. unfold Tinv, Tc. rewrite Cmod_div by (apply RtoC_neq0; exact N). rewrite Cmod_R.
  unfold Rdiv. rewrite Rmult_assoc, (Rmult_comm (/ _)), <- Rmult_assoc. apply Rmult_le_compat_r.
  - left. apply Rinv_0_lt_compat. apply Rabs_pos_lt. exact N.
  - unfold Cminus. eapply Rle_trans; [apply Cmod_triangle|]. rewrite Cmod_opp, Cmod_mult, !Cmod_conj. lra.
Qed.
Lemma Tc_pos S0 : (1 - Cmod S0 * Cmod S0 <> 0)%R -> (0 < Tc S0)%R.
Proof. intros N. unfold Tc. apply Rdiv_lt_0_compat; [pose proof (Cmod_ge_0 S0); lra|apply Rabs_pos_lt; exact N]. Qed.

(** * limits of contracting sequences *)
Lemma geom_lim (u : nat -> R) c : (forall n, Rabs (u (S n) - u n) <= c * (1 / 2) ^ n)%R -> exists l : R, is_lim_seq u l.
Proof.
  intros H. 
  assert (X : ex_series (fun n => u (S n) - u n)%R).
  { apply (ex_series_le (K := R_AbsRing) (V := R_CompleteNormedModule) _ (fun n => c * (1 / 2) ^ n)%R).
    - intros n. apply H.
    - apply (ex_series_scal (K := R_AbsRing) (V := R_NormedModule) c (fun n => (1 / 2) ^ n)%R). apply ex_series_geom. rewrite Rabs_pos_eq; lra. }
  destruct X as [l X]. exists (l + u 0%nat)%R. apply is_lim_seq_incr_1.
  apply (is_lim_seq_ext (fun n => sum_n (fun n => u (S n) - u n)%R n + u 0%nat)%R).
  - intros n. assert (E : sum_n (fun n => u (S n) - u n)%R n = (u (S n) - u 0%nat)%R).
    { induction n as [|n IH]; [rewrite sum_O; reflexivity|]. rewrite sum_Sn, IH. unfold plus. simpl. lra. }
    rewrite E. lra.
  - apply is_lim_seq_plus'; [exact X|apply is_lim_seq_const].
Qed.
Lemma Cmod_fst z : (Rabs (fst z) <= Cmod z)%R.
Proof. apply (Rle_trans _ _ _ (Rmax_l _ _) (Rmax_Cmod z)). Qed.
Lemma Cmod_snd z : (Rabs (snd z) <= Cmod z)%R.
Proof. apply (Rle_trans _ _ _ (Rmax_r _ _) (Rmax_Cmod z)). Qed.
Lemma Cmod_le1 (z : C) : (Cmod z <= Rabs (fst z) + Rabs (snd z))%R.
Proof.
  assert (E : z = RtoC (fst z) + RtoC (snd z) * Ci) by (apply Ceq; simpl; ring).
  rewrite E at 1. eapply Rle_trans; [apply Cmod_triangle|]. rewrite Cmod_mult, !Cmod_R.
  replace (Cmod Ci) with 1%R; [lra|]. unfold Cmod, Ci. simpl. replace (0 * (0 * 1) + 1 * (1 * 1))%R with 1%R by ring. rewrite sqrt_1. reflexivity.
Qed.
Definition Clim (u : nat -> C) : C := (real (Lim_seq (fun n => fst (u n))), real (Lim_seq (fun n => snd (u n)))).
Lemma Cgeom_lim (u : nat -> C) c : (forall n, Cmod (u (S n) - u n)%C <= c * (1 / 2) ^ n)%R ->
  forall eps, (0 < eps)%R -> exists N, forall n, (N <= n)%nat -> (Cmod (u n - Clim u)%C < eps)%R.
Proof.
  intros H eps He.
  assert (A : is_lim_seq (fun n => fst (u n)) (fst (Clim u))).
  { destruct (geom_lim (fun n => fst (u n)) c) as [l A].
    - intros n. eapply Rle_trans; [|apply (H n)]. apply (Cmod_fst (u (S n) - u n)).
    - cbn [Clim fst]. rewrite (is_lim_seq_unique _ _ A). exact A. }
  assert (B : is_lim_seq (fun n => snd (u n)) (snd (Clim u))).
  { destruct (geom_lim (fun n => snd (u n)) c) as [l B].
    - intros n. eapply Rle_trans; [|apply (H n)]. apply (Cmod_snd (u (S n) - u n)).
    - cbn [Clim snd]. rewrite (is_lim_seq_unique _ _ B). exact B. }
  apply is_lim_seq_spec in A. apply is_lim_seq_spec in B.
  assert (Hp : (0 < eps / 2)%R) by lra.
  destruct (A (mkposreal _ Hp)) as [N1 A1]. destruct (B (mkposreal _ Hp)) as [N2 B1].
  exists (N1 + N2)%nat. intros n Hn. eapply Rle_lt_trans; [apply Cmod_le1|].
  specialize (A1 n ltac:(lia)). specialize (B1 n ltac:(lia)). cbn [pos] in A1, B1.
  change (fst (u n - Clim u)) with (fst (u n) - fst (Clim u))%R. change (snd (u n - Clim u)) with (snd (u n) - snd (Clim u))%R. lra.
Qed.

(** * the local inverse *)
Section INV.
Variables (L : lens_system) (z0 : C).
Hypothesis O0 : off_masses L z0.
Let S0 := DS L z0 z0.
Hypothesis N0 : (1 - Cmod S0 * Cmod S0 <> 0)%R.
Let c := Tc S0.
Variable dl : R.
Hypothesis Hdl : (0 < dl)%R.
Hypothesis Hball : forall z z', (Cmod (z - z0)%C <= dl)%R -> (Cmod (z' - z0)%C <= dl)%R ->
    off_masses L z /\ off_masses L z' /\ (Cmod (DS L z z' - S0)%C <= / (2 * c))%R /\ (1 - Cmod (DS L z z')%C * Cmod (DS L z z')%C <> 0)%R.
Let w0 := lens_map L z0.
Lemma c_pos : (0 < c)%R. Proof. apply Tc_pos. exact N0. Qed.
Definition Gw (w z : C) : C := z - Tinv S0 (lens_map L z - w).
Definition inB z := (Cmod (z - z0)%C <= dl)%R.
Lemma z0_in : inB z0. Proof. unfold inB. replace (z0 - z0) with (RtoC 0) by ring. rewrite Cmod_0. lra. Qed.
Lemma perturb z z' : inB z -> inB z' -> (Cmod (Tinv S0 (Cconj ((z - z') * (S0 - DS L z z'))))%C <= 1 / 2 * Cmod (z - z')%C)%R.
Proof.
  intros A B. destruct (Hball z z' A B) as (_ & _ & E & _). pose proof c_pos as P.
  eapply Rle_trans; [apply Tinv_bound; exact N0|]. fold c. rewrite Cmod_conj, Cmod_mult.
  replace (Cmod (S0 - DS L z z')%C) with (Cmod (DS L z z' - S0)%C) by (rewrite <- Cmod_opp; f_equal; ring).
  pose proof (Cmod_ge_0 (z - z')). replace (1 / 2 * Cmod (z - z')%C)%R with (c * (Cmod (z - z')%C * / (2 * c)))%R by (field; lra).
  apply Rmult_le_compat_l; [lra|]. apply Rmult_le_compat_l; assumption.
Qed.
Lemma h_split z z' : inB z -> inB z' ->
  z - z' = Tinv S0 (lens_map L z - lens_map L z') + Tinv S0 (Cconj ((z - z') * (S0 - DS L z z'))).
Proof.
  intros A B. destruct (Hball z z' A B) as (O1 & O2 & _ & _). rewrite (map_diff L z z' O1 O2).
  replace ((z - z') + Cconj ((z - z') * DS L z z')) with (((z - z') + Cconj ((z - z') * S0)) - Cconj ((z - z') * (S0 - DS L z z')))
    by (rewrite !Cconj_mult, !Cconj_minus; ring).
  rewrite Tinv_minus, Tinv_unique by exact N0. ring.
Qed.
Lemma G_contr w z z' : inB z -> inB z' -> (Cmod (Gw w z - Gw w z')%C <= 1 / 2 * Cmod (z - z')%C)%R.
Proof.
  intros A B. unfold Gw.
  replace (z - Tinv S0 (lens_map L z - w) - (z' - Tinv S0 (lens_map L z' - w))) with (Tinv S0 (Cconj ((z - z') * (S0 - DS L z z')))); [apply perturb; assumption|].
  replace (z - Tinv S0 (lens_map L z - w) - (z' - Tinv S0 (lens_map L z' - w))) with ((z - z') - (Tinv S0 (lens_map L z - w) - Tinv S0 (lens_map L z' - w))) by ring.
  rewrite <- Tinv_minus. replace (lens_map L z - w - (lens_map L z' - w)) with (lens_map L z - lens_map L z') by ring.
  rewrite (h_split z z' A B) at 2. ring.
Qed.
Definition near w := (Cmod (w - w0)%C <= dl / (2 * c))%R.
Lemma G_in w z : near w -> inB z -> inB (Gw w z).
Proof.
  intros W A. unfold inB. pose proof c_pos as P.
  replace (Gw w z - z0) with ((Gw w z - Gw w z0) + (Gw w z0 - z0)) by ring. eapply Rle_trans; [apply Cmod_triangle|].
  pose proof (G_contr w z z0 A z0_in) as K. unfold inB in A.
  assert (K2 : (Cmod (Gw w z0 - z0)%C <= dl / 2)%R).
  { unfold Gw. fold w0. replace (z0 - Tinv S0 (w0 - w) - z0) with (- Tinv S0 (w0 - w)) by ring. rewrite Cmod_opp.
    eapply Rle_trans; [apply Tinv_bound; exact N0|]. fold c.
    replace (Cmod (w0 - w)%C) with (Cmod (w - w0)%C) by (rewrite <- Cmod_opp; f_equal; ring).
    replace (dl / 2)%R with (c * (dl / (2 * c)))%R by (field; lra). apply Rmult_le_compat_l; [lra|exact W]. }
  lra.
Qed.
Fixpoint it (w : C) (n : nat) : C := match n with O => z0 | S k => Gw w (it w k) end.
Lemma it_in w n : near w -> inB (it w n).
Proof. intros W. induction n; [apply z0_in|apply G_in; assumption]. Qed.
Lemma it_step w n : near w -> (Cmod (it w (S n) - it w n)%C <= 2 * dl * (1 / 2) ^ n)%R.
Proof.
  intros W. induction n as [|n IH].
  - pose proof (it_in w 1 W) as A. cbn [it] in *. unfold inB in A. simpl pow. lra.
  - pose proof (G_contr w _ _ (it_in w (S n) W) (it_in w n W)) as K. cbn [it] in *. simpl pow. lra.
Qed.
Definition zin (w : C) : C := Clim (it w).
Lemma zin_in w : near w -> inB (zin w).
Proof.
  intros W. unfold inB. destruct (Rle_lt_dec (Cmod (zin w - z0)%C) dl) as [K|K]; [exact K|exfalso].
  destruct (Cgeom_lim (it w) _ (fun n => it_step w n W) (Cmod (zin w - z0)%C - dl)%R ltac:(lra)) as [N H].
  specialize (H N (le_n N)). pose proof (it_in w N W) as A. unfold inB in A.
  pose proof (Cmod_triangle (zin w - it w N) (it w N - z0)) as T. replace (zin w - it w N + (it w N - z0)) with (zin w - z0) in T by ring.
  replace (Cmod (zin w - it w N)%C) with (Cmod (it w N - zin w)%C) in T by (rewrite <- Cmod_opp; f_equal; ring). unfold zin in *. lra.
Qed.
Lemma zin_fix w : near w -> Gw w (zin w) = zin w.
Proof.
  intros W. apply Cminus_eq_0. destruct (Rle_lt_dec (Cmod (Gw w (zin w) - zin w)%C) 0) as [K|K].
  - apply Cmod_eq_0. pose proof (Cmod_ge_0 (Gw w (zin w) - zin w)). lra.
  - exfalso. set (e := Cmod (Gw w (zin w) - zin w)%C) in *.
    destruct (Cgeom_lim (it w) _ (fun n => it_step w n W) (e / 2)%R ltac:(lra)) as [N H].
    pose proof (H N (le_n N)) as H1. pose proof (H (S N) ltac:(lia)) as H2.
    pose proof (G_contr w _ _ (zin_in w W) (it_in w N W)) as G1.
    pose proof (Cmod_triangle (Gw w (zin w) - Gw w (it w N)) (it w (S N) - zin w)) as T.
    cbn [it] in *. replace (Gw w (zin w) - Gw w (it w N) + (Gw w (it w N) - zin w)) with (Gw w (zin w) - zin w) in T by ring. fold e in T.
    fold (zin w) in H1, H2.
    replace (Cmod (zin w - it w N)%C) with (Cmod (it w N - zin w)%C) in G1 by (rewrite <- Cmod_opp; f_equal; ring). lra.
Qed.
Lemma zin_ok w : near w -> lens_map L (zin w) = w.
Proof.
  intros W. pose proof (zin_fix w W) as K. unfold Gw in K.
  assert (Z : Tinv S0 (lens_map L (zin w) - w) = 0).
  { transitivity (zin w - (zin w - Tinv S0 (lens_map L (zin w) - w))); [ring|]. rewrite K. ring. }
  apply Cminus_eq_0. pose proof (Tinv_ok S0 (lens_map L (zin w) - w) N0) as T. rewrite Z in T. rewrite <- T. apply Ceq; simpl; ring.
Qed.
Lemma zin_lip z z' : inB z -> inB z' -> (Cmod (z - z')%C <= 2 * c * Cmod (lens_map L z - lens_map L z')%C)%R.
Proof.
  intros A B. pose proof (perturb z z' A B) as P. pose proof (h_split z z' A B) as E.
  assert (T : (Cmod (z - z')%C <= c * Cmod (lens_map L z - lens_map L z')%C + 1 / 2 * Cmod (z - z')%C)%R).
  { rewrite E at 1. eapply Rle_trans; [apply Cmod_triangle|]. apply Rplus_le_compat; [apply Tinv_bound; exact N0|exact P]. }
  lra.
Qed.
Lemma w0_near : near w0.
Proof. unfold near. replace (w0 - w0) with (RtoC 0) by ring. rewrite Cmod_0. left. pose proof c_pos. apply Rdiv_lt_0_compat; lra. Qed.
Lemma zin_w0 : zin w0 = z0.
Proof.
  pose proof (zin_lip (zin w0) z0 (zin_in _ w0_near) z0_in) as K. rewrite (zin_ok _ w0_near) in K. fold w0 in K.
  replace (w0 - w0) with (RtoC 0) in K by ring. rewrite Cmod_0, Rmult_0_r in K.
  apply Cminus_eq_0. apply Cmod_eq_0. pose proof (Cmod_ge_0 (zin w0 - z0)). lra.
Qed.
(** exact difference quotients *)
Lemma zin_quot w k : near w -> near (w + k) -> zin (w + k) - zin w = Tinv (DS L (zin (w + k)) (zin w)) k.
Proof.
  intros W W'. destruct (Hball _ _ (zin_in _ W') (zin_in _ W)) as (O1 & O2 & _ & N).
  rewrite <- (Tinv_unique _ (zin (w + k) - zin w) N). f_equal. rewrite <- (map_diff L _ _ O1 O2), !zin_ok by assumption. ring.
Qed.
(** continuity of the difference quotients *)
Lemma zin_DS w : near w -> (Cmod (w - w0)%C < dl / (2 * c))%R -> forall eps, (0 < eps)%R -> exists d, (0 < d)%R /\ forall w', near w' -> (Cmod (w' - w)%C < d)%R ->
  (Cmod (DS L (zin w') (zin w) - DS L (zin w) (zin w))%C < eps)%R.
Proof.
  intros W _ eps He. pose proof c_pos as P.
  destruct (Hball _ _ (zin_in w W) (zin_in w W)) as (Ow & _).
  destruct (DS_cont L (zin w) Ow (eps / 2)%R ltac:(lra)) as (d1 & P1 & H1).
  exists (d1 / (2 * c))%R. split; [apply Rdiv_lt_0_compat; lra|]. intros w' W' H.
  assert (K : (Cmod (zin w' - zin w)%C <= d1)%R).
  { eapply Rle_trans; [apply (zin_lip _ _ (zin_in w' W') (zin_in w W))|]. rewrite !zin_ok by assumption.
    replace d1 with (2 * c * (d1 / (2 * c)))%R by (field; lra). apply Rmult_le_compat_l; lra. }
  destruct (H1 (zin w') (zin w) K) as (_ & _ & E); [|lra].
  replace (zin w - zin w) with (RtoC 0) by ring. rewrite Cmod_0. lra.
Qed.
End INV.

Lemma is_derive_quot (f q : R -> R) x r : (Rabs x < r)%R -> (forall t, (Rabs t < r)%R -> (f t - f x = (t - x) * q t)%R) ->
  (forall eps, (0 < eps)%R -> exists d, (0 < d)%R /\ forall t, (Rabs t < r)%R -> (Rabs (t - x) < d)%R -> (Rabs (q t - q x) < eps)%R) ->
  is_derive f x (q x).
Proof.
  intros Hx H Hc. apply is_derive_Reals. intros eps He. destruct (Hc eps He) as (d & Pd & Hd).
  assert (Pm : (0 < Rmin d (r - Rabs x))%R) by (apply Rmin_glb_lt; lra).
  exists (mkposreal _ Pm). intros h Nh Hh. cbn [pos] in Hh.
  assert (A1 := Rmin_l d (r - Rabs x)). assert (A2 := Rmin_r d (r - Rabs x)).
  assert (B : (Rabs (x + h) < r)%R) by (pose proof (Rabs_triang x h); lra).
  rewrite (H _ B). replace ((x + h - x) * q (x + h) / h)%R with (q (x + h)%R) by (field; exact Nh). apply Hd; [exact B|].
  replace (x + h - x)%R with h by ring. lra.
Qed.
Lemma cont_quot (num den : R -> R) r x : (Rabs x < r)%R ->
  (forall eps, (0 < eps)%R -> exists d, (0 < d)%R /\ forall t, (Rabs t < r)%R -> (Rabs (t - x) < d)%R -> (Rabs (num t - num x) < eps)%R) ->
  (forall eps, (0 < eps)%R -> exists d, (0 < d)%R /\ forall t, (Rabs t < r)%R -> (Rabs (t - x) < d)%R -> (Rabs (den t - den x) < eps)%R) ->
  den x <> 0%R ->
  forall eps, (0 < eps)%R -> exists d, (0 < d)%R /\ forall t, (Rabs t < r)%R -> (Rabs (t - x) < d)%R -> (Rabs (num t / den t - num x / den x) < eps)%R.
Proof.
  intros Hx Hn Hd N eps He.
  assert (Cn : continuity_pt num x).
  { intros e Pe. destruct (Hn e Pe) as (d & Pd & K). exists (Rmin d (r - Rabs x)). split; [apply Rmin_glb_lt; lra|].
    intros t [_ T]. simpl in *. unfold R_dist in *. pose proof (Rmin_l d (r - Rabs x)). pose proof (Rmin_r d (r - Rabs x)). apply K; [|lra].
    pose proof (Rabs_triang (t - x) x) as Q. replace (t - x + x)%R with t in Q by ring. lra. }
  assert (Cd : continuity_pt den x).
  { intros e Pe. destruct (Hd e Pe) as (d & Pd & K). exists (Rmin d (r - Rabs x)). split; [apply Rmin_glb_lt; lra|].
    intros t [_ T]. simpl in *. unfold R_dist in *. pose proof (Rmin_l d (r - Rabs x)). pose proof (Rmin_r d (r - Rabs x)). apply K; [|lra].
    pose proof (Rabs_triang (t - x) x) as Q. replace (t - x + x)%R with t in Q by ring. lra. }
  destruct (continuity_pt_div num den x Cn Cd N eps He) as (d & Pd & K). exists d. split; [exact Pd|]. intros t T1 T2.
  destruct (Req_dec x t) as [<-|Nt].
  - unfold Rminus. rewrite Rplus_opp_r, Rabs_R0. exact He.
  - apply (K t). split; [split; [exact I|exact Nt]|exact T2].
Qed.
Lemma Tinv_comp S0 k : Tinv S0 k = (((fst k - fst S0 * fst k + snd S0 * snd k) / (1 - (fst S0 * fst S0 + snd S0 * snd S0)))%R,
  ((snd k + fst S0 * snd k + snd S0 * fst k) / (1 - (fst S0 * fst S0 + snd S0 * snd S0)))%R).
Proof.
  unfold Tinv. rewrite Cmod_sq. destruct k as [k1 k2], S0 as [p q]. cbn [fst snd].
  set (d := (1 - (p * p + q * q))%R). destruct (Req_dec d 0) as [E|N].
  - rewrite E. unfold Cdiv, Rdiv. apply Ceq; simpl; unfold Rdiv; rewrite ?Rmult_0_l, ?Rplus_0_l, ?Rinv_0; ring.
  - apply Ceq; simpl; field; auto.
Qed.
(** a curve f with f(t) - f(x) = Tinv (S t) ((t - x) k) and S continuous at x *)
Lemma dC_Tinv (f S : R -> C) (k : C) x r : (Rabs x < r)%R -> (1 - Cmod (S x) * Cmod (S x) <> 0)%R ->
  (forall t, (Rabs t < r)%R -> f t - f x = Tinv (S t) (RtoC (t - x) * k)) ->
  (forall eps, (0 < eps)%R -> exists d, (0 < d)%R /\ forall t, (Rabs t < r)%R -> (Rabs (t - x) < d)%R -> (Cmod (S t - S x)%C < eps)%R) ->
  dC f x (Tinv (S x) k).
Proof.
  intros Hx N H Hc.
  assert (C1 : forall eps, (0 < eps)%R -> exists d, (0 < d)%R /\ forall t, (Rabs t < r)%R -> (Rabs (t - x) < d)%R -> (Rabs (fst (S t) - fst (S x)) < eps)%R).
  { intros e Pe. destruct (Hc e Pe) as (d & Pd & K). exists d. split; [exact Pd|]. intros t A B. eapply Rle_lt_trans; [|apply (K t A B)]. apply (Cmod_fst (S t - S x)). }
  assert (C2 : forall eps, (0 < eps)%R -> exists d, (0 < d)%R /\ forall t, (Rabs t < r)%R -> (Rabs (t - x) < d)%R -> (Rabs (snd (S t) - snd (S x)) < eps)%R).
  { intros e Pe. destruct (Hc e Pe) as (d & Pd & K). exists d. split; [exact Pd|]. intros t A B. eapply Rle_lt_trans; [|apply (K t A B)]. apply (Cmod_snd (S t - S x)). }
  rewrite Cmod_sq in N.
  assert (Bd : exists d, (0 < d)%R /\ forall t, (Rabs t < r)%R -> (Rabs (t - x) < d)%R -> (Rabs (fst (S t)) < Rabs (fst (S x)) + 1)%R /\ (Rabs (snd (S t)) < Rabs (snd (S x)) + 1)%R).
  { destruct (C1 1%R ltac:(lra)) as (d1 & P1 & K1). destruct (C2 1%R ltac:(lra)) as (d2 & P2 & K2). exists (Rmin d1 d2). split; [apply Rmin_glb_lt; lra|].
    intros t A B. pose proof (Rmin_l d1 d2). pose proof (Rmin_r d1 d2). specialize (K1 t A ltac:(lra)). specialize (K2 t A ltac:(lra)). split.
    - pose proof (Rabs_triang (fst (S t) - fst (S x)) (fst (S x))) as Q. replace (fst (S t) - fst (S x) + fst (S x))%R with (fst (S t)) in Q by ring. lra.
    - pose proof (Rabs_triang (snd (S t) - snd (S x)) (snd (S x))) as Q. replace (snd (S t) - snd (S x) + snd (S x))%R with (snd (S t)) in Q by ring. lra. }
  assert (Cd : forall eps, (0 < eps)%R -> exists d, (0 < d)%R /\ forall t, (Rabs t < r)%R -> (Rabs (t - x) < d)%R ->
     (Rabs ((1 - (fst (S t) * fst (S t) + snd (S t) * snd (S t))) - (1 - (fst (S x) * fst (S x) + snd (S x) * snd (S x)))) < eps)%R).
  { intros e Pe. set (b1 := (2 * Rabs (fst (S x)) + 1)%R). set (b2 := (2 * Rabs (snd (S x)) + 1)%R).
    pose proof (Rabs_pos (fst (S x))) as Q1. pose proof (Rabs_pos (snd (S x))) as Q2.
    destruct (C1 (e / (4 * b1))%R) as (d1 & P1 & K1); [apply Rdiv_lt_0_compat; unfold b1; lra|].
    destruct (C2 (e / (4 * b2))%R) as (d2 & P2 & K2); [apply Rdiv_lt_0_compat; unfold b2; lra|].
    destruct Bd as (d3 & P3 & K3). exists (Rmin d1 (Rmin d2 d3)). split; [repeat apply Rmin_glb_lt; lra|]. intros t A B.
    pose proof (Rmin_l d1 (Rmin d2 d3)). pose proof (Rmin_r d1 (Rmin d2 d3)). pose proof (Rmin_l d2 d3). pose proof (Rmin_r d2 d3).
    specialize (K1 t A ltac:(lra)). specialize (K2 t A ltac:(lra)). destruct (K3 t A ltac:(lra)) as [K4 K5].
    replace ((1 - (fst (S t) * fst (S t) + snd (S t) * snd (S t))) - (1 - (fst (S x) * fst (S x) + snd (S x) * snd (S x))))%R
      with (- ((fst (S t) - fst (S x)) * (fst (S t) + fst (S x)) + (snd (S t) - snd (S x)) * (snd (S t) + snd (S x))))%R by ring.
    rewrite Rabs_Ropp. eapply Rle_lt_trans; [apply Rabs_triang|]. rewrite !Rabs_mult.
    assert (X1 : (Rabs (fst (S t) - fst (S x)) * Rabs (fst (S t) + fst (S x)) <= e / 4)%R).
    { replace (e / 4)%R with (e / (4 * b1) * b1)%R by (field; unfold b1; lra). apply Rmult_le_compat; try apply Rabs_pos; [lra|].
      eapply Rle_trans; [apply Rabs_triang|]. unfold b1. lra. }
    assert (X2 : (Rabs (snd (S t) - snd (S x)) * Rabs (snd (S t) + snd (S x)) <= e / 4)%R).
    { replace (e / 4)%R with (e / (4 * b2) * b2)%R by (field; unfold b2; lra). apply Rmult_le_compat; try apply Rabs_pos; [lra|].
      eapply Rle_trans; [apply Rabs_triang|]. unfold b2. lra. }
    lra. }
  assert (Clin : forall a b e0 : R, forall eps, (0 < eps)%R -> exists d, (0 < d)%R /\ forall t, (Rabs t < r)%R -> (Rabs (t - x) < d)%R ->
     (Rabs ((e0 + a * fst (S t) + b * snd (S t)) - (e0 + a * fst (S x) + b * snd (S x))) < eps)%R).
  { intros a b e0 e Pe. pose proof (Rabs_pos a) as Q1. pose proof (Rabs_pos b) as Q2.
    destruct (C1 (e / (4 * (Rabs a + 1)))%R) as (d1 & P1 & K1); [apply Rdiv_lt_0_compat; lra|].
    destruct (C2 (e / (4 * (Rabs b + 1)))%R) as (d2 & P2 & K2); [apply Rdiv_lt_0_compat; lra|].
    exists (Rmin d1 d2). split; [repeat apply Rmin_glb_lt; lra|]. intros t A B. pose proof (Rmin_l d1 d2). pose proof (Rmin_r d1 d2).
    specialize (K1 t A ltac:(lra)). specialize (K2 t A ltac:(lra)).
    replace ((e0 + a * fst (S t) + b * snd (S t)) - (e0 + a * fst (S x) + b * snd (S x)))%R with (a * (fst (S t) - fst (S x)) + b * (snd (S t) - snd (S x)))%R by ring.
    eapply Rle_lt_trans; [apply Rabs_triang|]. rewrite !Rabs_mult.
    assert (X1 : (Rabs a * Rabs (fst (S t) - fst (S x)) <= e / 4)%R).
    { replace (e / 4)%R with ((Rabs a + 1) * (e / (4 * (Rabs a + 1))))%R by (field; lra). apply Rmult_le_compat; try apply Rabs_pos; lra. }
    assert (X2 : (Rabs b * Rabs (snd (S t) - snd (S x)) <= e / 4)%R).
    { replace (e / 4)%R with ((Rabs b + 1) * (e / (4 * (Rabs b + 1))))%R by (field; lra). apply Rmult_le_compat; try apply Rabs_pos; lra. }
    lra. }
  destruct k as [k1 k2]. split.
  - set (q := fun t => ((k1 + (- k1) * fst (S t) + k2 * snd (S t)) / (1 - (fst (S t) * fst (S t) + snd (S t) * snd (S t))))%R).
    replace (fst (Tinv (S x) (k1, k2))) with (q x) by (rewrite Tinv_comp; unfold q; cbn [fst snd]; unfold Rdiv; ring).
    apply (is_derive_quot (fun s => fst (f s)) q x r Hx).
    + intros t T. transitivity (fst (f t - f x)); [reflexivity|]. rewrite (H t T), Tinv_comp. unfold q. simpl. unfold Rdiv. ring.
    + unfold q. apply (cont_quot (fun t => k1 + - k1 * fst (S t) + k2 * snd (S t))%R (fun t => 1 - (fst (S t) * fst (S t) + snd (S t) * snd (S t)))%R r x Hx); auto.
  - set (q := fun t => ((k2 + k2 * fst (S t) + k1 * snd (S t)) / (1 - (fst (S t) * fst (S t) + snd (S t) * snd (S t))))%R).
    replace (snd (Tinv (S x) (k1, k2))) with (q x) by (rewrite Tinv_comp; unfold q; cbn [fst snd]; unfold Rdiv; ring).
    apply (is_derive_quot (fun s => snd (f s)) q x r Hx).
    + intros t T. transitivity (snd (f t - f x)); [reflexivity|]. rewrite (H t T), Tinv_comp. unfold q. simpl. unfold Rdiv. ring.
    + unfold q. apply (cont_quot (fun t => k2 + k2 * fst (S t) + k1 * snd (S t))%R (fun t => 1 - (fst (S t) * fst (S t) + snd (S t) * snd (S t)))%R r x Hx); auto.
Qed.

(** * derivatives of every order *)
Inductive zx := Z0 | ZW (k : nat) | ZMu | ZC (c : C) | ZP (e f : zx) | ZM (e f : zx) | ZJ (e : zx).
Definition A10e : zx := ZM ZMu (ZP (ZC (RtoC 1)) (ZJ (ZW 2))).
Definition A01e : zx := ZM ZMu (ZM (ZC Ci) (ZP (ZC (RtoC 1)) (ZM (ZC (RtoC (-1))) (ZJ (ZW 2))))).
Fixpoint Dg (A e : zx) : zx :=
  match e with
  | Z0 => A | ZW k => ZM (ZW (S k)) A
  | ZMu => ZM (ZM ZMu ZMu) (ZP (ZM (ZM (ZW 3) A) (ZJ (ZW 2))) (ZM (ZW 2) (ZJ (ZM (ZW 3) A))))
  | ZC _ => ZC (RtoC 0) | ZP e f => ZP (Dg A e) (Dg A f) | ZM e f => ZP (ZM (Dg A e) f) (ZM e (Dg A f)) | ZJ e => ZJ (Dg A e) end.
Fixpoint zok (e : zx) : Prop :=
  match e with ZW k => (1 <= k)%nat | ZP e f | ZM e f => zok e /\ zok f | ZJ e => zok e | _ => True end.
Lemma zok_A10 : zok A10e. Proof. cbn. intuition lia. Qed.
Lemma zok_A01 : zok A01e. Proof. cbn. intuition lia. Qed.
Lemma zok_D A e : zok A -> zok e -> zok (Dg A e).
Proof. intros HA. induction e; cbn; intuition (try lia). Qed.
Lemma Cm1 : RtoC (-1) = - RtoC 1. Proof. apply Ceq; simpl; ring. Qed.
Lemma Cconj_I : Cconj Ci = - Ci. Proof. apply Ceq; simpl; ring. Qed.

Section FAM.
Variables (L : lens_system) (r : R) (z : R -> R -> C).
Hypothesis Hoff : forall x y, (Rabs x < r)%R -> (Rabs y < r)%R -> off_masses L (z x y).
Hypothesis Hne : forall x y, (Rabs x < r)%R -> (Rabs y < r)%R -> (1 - Cmod (Wk L (z x y) 2) ^ 2 <> 0)%R.
Hypothesis Hdx : forall x y, (Rabs x < r)%R -> (Rabs y < r)%R -> dC (fun t => z t y) x (a10 (Wk L (z x y) 2)).
Hypothesis Hdy : forall x y, (Rabs x < r)%R -> (Rabs y < r)%R -> dC (fun t => z x t) y (a01 (Wk L (z x y) 2)).
Fixpoint zev (e : zx) (x y : R) : C :=
  match e with
  | Z0 => z x y | ZW k => Wk L (z x y) k | ZMu => RtoC (mu0 (Wk L (z x y) 2)) | ZC c => c
  | ZP e f => zev e x y + zev f x y | ZM e f => zev e x y * zev f x y | ZJ e => Cconj (zev e x y) end.
Lemma zev_A10 x y : zev A10e x y = a10 (Wk L (z x y) 2).
Proof. reflexivity. Qed.
Lemma zev_A01 x y : zev A01e x y = a01 (Wk L (z x y) 2).
Proof. cbn [zev A01e]. unfold a01. rewrite Cm1. ring. Qed.
Lemma mu_inv (W : C) : (1 - Cmod W ^ 2 <> 0)%R -> RtoC (mu0 W) = / (1 - W * Cconj W) /\ 1 - W * Cconj W <> 0.
Proof.
  intros N. rewrite Cmult_conj. replace (1 - RtoC (Cmod W * Cmod W)) with (RtoC (1 - Cmod W ^ 2)) by (rewrite RtoC_minus; do 2 f_equal; simpl; ring).
  assert (N' : RtoC (1 - Cmod W ^ 2) <> 0) by (apply RtoC_neq0; exact N). split; [|exact N'].
  unfold mu0. rewrite RtoC_div by exact N. field. exact N'.
Qed.
Lemma zev_d A (g : R -> R * R) (t0 x y : R) : (forall t, (Rabs t < r)%R -> (Rabs (fst (g t)) < r)%R /\ (Rabs (snd (g t)) < r)%R) ->
  (Rabs t0 < r)%R -> g t0 = (x, y) ->
  dC (fun t => z (fst (g t)) (snd (g t))) t0 (zev A x y) ->
  forall e, zok e -> dC (fun t => zev e (fst (g t)) (snd (g t))) t0 (zev (Dg A e) x y).
Proof.
  intros Hg Ht Eg HA. assert (Ex : fst (g t0) = x) by (rewrite Eg; reflexivity). assert (Ey : snd (g t0) = y) by (rewrite Eg; reflexivity).
  destruct (Hg t0 Ht) as [B1 B2]. rewrite Ex in B1. rewrite Ey in B2.
  assert (HW : forall k, (1 <= k)%nat -> dC (fun t => Wk L (z (fst (g t)) (snd (g t))) k) t0 (Wk L (z x y) (S k) * zev A x y)).
  { intros k Hk. pose proof (dC_W L (fun t => z (fst (g t)) (snd (g t))) t0 _ k Hk HA) as P. cbv beta in P. rewrite Ex, Ey in P. apply P. apply Hoff; assumption. }
  induction e as [|k| |c|e1 IH1 e2 IH2|e1 IH1 e2 IH2|e1 IH1]; intros Ok; cbn [zev Dg zok] in *.
  - exact HA.
  - apply HW. exact Ok.
  - pose proof (HW 2%nat ltac:(lia)) as D2. set (f := fun t => Wk L (z (fst (g t)) (snd (g t))) 2) in *.
    pose proof (dC_plus (fun _ => RtoC 1) _ _ _ _ (dC_const _ _) (dC_mult (fun _ => RtoC (-1)) _ _ _ _ (dC_const _ _) (dC_mult _ _ _ _ _ D2 (dC_conj _ _ _ D2)))) as D3.
    cbv beta in D3. assert (Ef : f t0 = Wk L (z x y) 2) by (unfold f; rewrite Ex, Ey; reflexivity).
    pose proof (Hne x y B1 B2) as N. destruct (mu_inv _ N) as [M1 M2].
    pose proof (dC_inv _ _ _ D3) as D4. cbv beta in D4. rewrite Ef in D4.
    replace (1 + RtoC (-1) * (Wk L (z x y) 2 * Cconj (Wk L (z x y) 2))) with (1 - Wk L (z x y) 2 * Cconj (Wk L (z x y) 2)) in D4 by (rewrite Cm1; ring).
    specialize (D4 M2).
    match goal with |- dC _ _ ?v => match type of D4 with dC _ _ ?u => replace v with u end end.
    + apply (dC_ext_box r (fun t => / (1 + RtoC (-1) * (f t * Cconj (f t))))); [exact Ht| |exact D4].
      intros t T. destruct (Hg t T) as [T1 T2]. destruct (mu_inv _ (Hne _ _ T1 T2)) as [Q _]. unfold f. rewrite Q. f_equal. rewrite Cm1. ring.
    + rewrite M1. rewrite Cconj_mult. cbn [Cpow]. rewrite Cm1. field. exact M2.
  - apply dC_const.
  - destruct Ok. apply (dC_plus (fun t => zev e1 (fst (g t)) (snd (g t))) (fun t => zev e2 (fst (g t)) (snd (g t)))); auto.
  - destruct Ok as [K1 K2]. pose proof (dC_mult (fun t => zev e1 (fst (g t)) (snd (g t))) (fun t => zev e2 (fst (g t)) (snd (g t))) _ _ _ (IH1 K1) (IH2 K2)) as P.
    cbv beta in P. rewrite Ex, Ey in P. exact P.
  - apply (dC_conj (fun t => zev e1 (fst (g t)) (snd (g t)))); auto.
Qed.
Lemma zev_dx e x y : zok e -> (Rabs x < r)%R -> (Rabs y < r)%R -> dC (fun t => zev e t y) x (zev (Dg A10e e) x y).
Proof.
  intros Ok Hx Hy. apply (zev_d A10e (fun t => (t, y)) x x y); auto. cbn [fst snd]. rewrite zev_A10. apply Hdx; assumption.
Qed.
Lemma zev_dy e x y : zok e -> (Rabs x < r)%R -> (Rabs y < r)%R -> dC (fun t => zev e x t) y (zev (Dg A01e e) x y).
Proof.
  intros Ok Hx Hy. apply (zev_d A01e (fun t => (x, t)) y x y); auto. cbn [fst snd]. rewrite zev_A01. apply Hdy; assumption.
Qed.
Lemma base_comm x y : (Rabs x < r)%R -> (Rabs y < r)%R -> zev (Dg A01e A10e) x y = zev (Dg A10e A01e) x y.
Proof.
  intros Hx Hy. destruct (mu_inv _ (Hne x y Hx Hy)) as [M1 M2]. unfold A10e, A01e. cbn [Dg zev].
  repeat first [rewrite Cconj_mult | rewrite Cconj_plus | rewrite Cconj_conj | rewrite Cconj_RtoC | rewrite Cconj_I | rewrite M1 | rewrite Cm1].
  set (W := Wk L (z x y) 2) in *. set (V := Wk L (z x y) 3). field. exact M2.
Qed.
Lemma D_comm e x y : (Rabs x < r)%R -> (Rabs y < r)%R -> zev (Dg A01e (Dg A10e e)) x y = zev (Dg A10e (Dg A01e e)) x y.
Proof.
  intros Hx Hy. pose proof (base_comm x y Hx Hy) as B.
  induction e as [|k| |c|e1 IH1 e2 IH2|e1 IH1 e2 IH2|e1 IH1]; cbn [zev Dg].
  - exact B.
  - rewrite B. ring.
  - rewrite !Cconj_plus, !Cconj_mult, B. ring.
  - reflexivity.
  - rewrite IH1, IH2. reflexivity.
  - rewrite IH1, IH2. ring.
  - rewrite IH1. reflexivity.
Qed.
Definition zeq_on e f := forall x y, (Rabs x < r)%R -> (Rabs y < r)%R -> zev e x y = zev f x y.
Lemma zeq_dx e f : zok e -> zok f -> zeq_on e f -> zeq_on (Dg A10e e) (Dg A10e f).
Proof.
  intros Oe Of H x y Hx Hy. apply (dC_unique (fun t => zev f t y) x); [|apply zev_dx; assumption].
  apply (dC_ext_box r (fun t => zev e t y)); [exact Hx| |apply zev_dx; assumption]. intros s Hs. apply H; assumption.
Qed.
Fixpoint zitx (m : nat) (e : zx) : zx := match m with O => e | S k => Dg A10e (zitx k e) end.
Fixpoint zity (n : nat) (e : zx) : zx := match n with O => e | S k => Dg A01e (zity k e) end.
Lemma zok_itx m e : zok e -> zok (zitx m e).
Proof. intros H. induction m; cbn [zitx]; [exact H|apply zok_D; [apply zok_A10|exact IHm]]. Qed.
Lemma zok_ity m e : zok e -> zok (zity m e).
Proof. intros H. induction m; cbn [zity]; [exact H|apply zok_D; [apply zok_A01|exact IHm]]. Qed.
Lemma zit_comm m e : zok e -> zeq_on (Dg A01e (zitx m e)) (zitx m (Dg A01e e)).
Proof.
  intros Ok. induction m as [|m IH]; cbn [zitx]; [intros x y _ _; reflexivity|].
  intros x y A B. rewrite (D_comm _ x y A B). apply zeq_dx; auto.
  - apply zok_D; [apply zok_A01|apply zok_itx; exact Ok].
  - apply zok_itx, zok_D; [apply zok_A01|exact Ok].
Qed.
Definition zfam (m n : nat) (x y : R) : C := zev (zitx m (zity n Z0)) x y.
Lemma zfam_ok w0 : (0 < r)%R -> (forall x y, (Rabs x < r)%R -> (Rabs y < r)%R -> lens_map L (z x y) = w0 + (x, y)) ->
  image_branch L w0 r zfam.
Proof.
  intros Hr Hm. split; [exact Hr| | |].
  - intros x y A B. split; [apply Hoff; assumption|apply Hm; assumption].
  - intros m n x y A B. apply (zev_dx _ x y (zok_itx m _ (zok_ity n Z0 I)) A B).
  - intros m n x y A B. unfold zfam. cbn [zity]. rewrite <- (zit_comm m _ (zok_ity n Z0 I) x y A B).
    apply zev_dy; auto. apply zok_itx, zok_ity. exact I.
Qed.
End FAM.

Theorem branch_exists (L : lens_system) (z0 : C) D : off_masses L z0 -> jacobian_det L z0 D -> D <> 0%R ->
  exists r a, image_branch L (lens_map L z0) r a /\ a 0%nat 0%nat 0%R 0%R = z0.
Proof.
  intros O J N.
  assert (ED : D = (1 - Cmod (Wk L z0 2) ^ 2)%R).
  { destruct J as (M & HM & <-). destruct (jac_W L z0 O) as (M' & HM' & <-). now rewrite (has_derivative_unique _ _ _ _ HM HM'). }
  set (S0 := DS L z0 z0).
  assert (N0 : (1 - Cmod S0 * Cmod S0 <> 0)%R).
  { unfold S0. rewrite DS_diag, Cmod_opp. intros Q. apply N. rewrite ED. simpl. lra. }
  pose proof (Tc_pos S0 N0) as Pc. set (c := Tc S0) in *.
  assert (N1 : (Cmod S0 <> 1)%R) by (intros Q; apply N0; rewrite Q; ring).
  set (eta := Rmin (/ (2 * c)) (Rabs (1 - Cmod S0) / 2)).
  assert (Pe : (0 < eta)%R).
  { apply Rmin_glb_lt; [apply Rinv_0_lt_compat; lra|]. assert (0 < Rabs (1 - Cmod S0))%R by (apply Rabs_pos_lt; intros Q; apply N1; lra). lra. }
  destruct (DS_cont L z0 O eta Pe) as (dl & Pd & Hb).
  assert (Hball : forall z z', (Cmod (z - z0)%C <= dl)%R -> (Cmod (z' - z0)%C <= dl)%R ->
    off_masses L z /\ off_masses L z' /\ (Cmod (DS L z z' - S0)%C <= / (2 * c))%R /\ (1 - Cmod (DS L z z') * Cmod (DS L z z') <> 0)%R).
  { intros z z' A B. destruct (Hb z z' A B) as (O1 & O2 & K). fold S0 in K. split; [exact O1|]. split; [exact O2|].
    split; [eapply Rle_trans; [exact K|apply Rmin_l]|]. intros Q. pose proof (Cmod_ge_0 (DS L z z')) as G.
    assert (M1 : Cmod (DS L z z') = 1%R) by nra.
    pose proof (Rmin_r (/ (2 * c)) (Rabs (1 - Cmod S0) / 2)) as M2. fold eta in M2.
    assert (M3 : (Rabs (1 - Cmod S0) <= Cmod (DS L z z' - S0)%C)%R).
    { rewrite <- M1. apply Rabs_le.
      pose proof (Cmod_triangle (DS L z z' - S0) S0) as T1. replace (DS L z z' - S0 + S0) with (DS L z z') in T1 by ring.
      pose proof (Cmod_triangle (- (DS L z z' - S0)) (DS L z z')) as T2. replace (- (DS L z z' - S0) + DS L z z') with S0 in T2 by ring. rewrite Cmod_opp in T2. lra. }
    assert (0 < Rabs (1 - Cmod S0))%R by (apply Rabs_pos_lt; intros Q'; apply N1; lra). lra. }
  set (w0 := lens_map L z0). set (r := (dl / (4 * c))%R). assert (Pr : (0 < r)%R) by (apply Rdiv_lt_0_compat; lra).
  assert (Nr : forall x y, (Rabs x < r)%R -> (Rabs y < r)%R -> (Cmod (w0 + (x, y) - w0)%C < dl / (2 * c))%R).
  { intros x y A B. replace (w0 + (x, y) - w0) with ((x, y) : C) by (apply Ceq; simpl; ring). eapply Rle_lt_trans; [apply Cmod_le1|]. cbn [fst snd].
    replace (dl / (2 * c))%R with (r + r)%R by (unfold r; field; lra). lra. }
  set (z := fun x y => zin L z0 (w0 + (x, y))).
  assert (Nr' : forall x y, (Rabs x < r)%R -> (Rabs y < r)%R -> near L z0 dl (w0 + (x, y))) by (intros; unfold near; left; apply Nr; assumption).
  assert (Hin : forall x y, (Rabs x < r)%R -> (Rabs y < r)%R -> inB z0 dl (z x y)) by (intros x y A B; apply (zin_in L z0 N0 dl Pd Hball); auto).
  assert (Hmap : forall x y, (Rabs x < r)%R -> (Rabs y < r)%R -> lens_map L (z x y) = w0 + (x, y)) by (intros x y A B; apply (zin_ok L z0 N0 dl Pd Hball); auto).
  assert (Hd : forall (k : C) (g : R -> C) x0 y0 t0, (Rabs x0 < r)%R -> (Rabs y0 < r)%R -> (Rabs t0 < r)%R ->
     (forall t, (Rabs t < r)%R -> near L z0 dl (w0 + g t)) -> g t0 = (x0, y0) -> (forall t, g t - g t0 = RtoC (t - t0) * k) -> (Cmod k <= 1)%R ->
     dC (fun t => zin L z0 (w0 + g t)) t0 (Tinv (DS L (z x0 y0) (z x0 y0)) k)).
  { intros k g x0 y0 t0 A B T Hn Eg Hk Kb.
    assert (Ez : z x0 y0 = zin L z0 (w0 + g t0)) by (unfold z; rewrite Eg; reflexivity).
    pose proof (dC_Tinv (fun t => zin L z0 (w0 + g t)) (fun t => DS L (zin L z0 (w0 + g t)) (zin L z0 (w0 + g t0))) k t0 r T) as P.
    cbv beta in P. rewrite Ez. apply P; clear P.
    - destruct (Hball _ _ (zin_in L z0 N0 dl Pd Hball _ (Hn t0 T)) (zin_in L z0 N0 dl Pd Hball _ (Hn t0 T))) as (_ & _ & _ & Q). exact Q.
    - intros t Ht. rewrite <- Hk. replace (w0 + g t) with ((w0 + g t0) + (g t - g t0)) by ring.
      apply (zin_quot L z0 N0 dl Pd Hball); [apply Hn; exact T|]. replace (w0 + g t0 + (g t - g t0)) with (w0 + g t) by ring. apply Hn; exact Ht.
    - intros eps He. assert (Nt0 := Hn t0 T).
      assert (St : (Cmod (w0 + g t0 - lens_map L z0)%C < dl / (2 * c))%R) by (rewrite Eg; fold w0; apply Nr; assumption).
      destruct (zin_DS L z0 N0 dl Pd Hball (w0 + g t0) Nt0 St eps He) as (d & Pd' & K). exists d. split; [exact Pd'|].
      intros t T1 T2. apply K; [apply Hn; exact T1|]. replace (w0 + g t - (w0 + g t0)) with (g t - g t0) by ring. rewrite Hk, Cmod_mult, Cmod_R.
      pose proof (Cmod_ge_0 k). pose proof (Rabs_pos (t - t0)). nra. }
  exists r, (zfam L z). split.
  - apply zfam_ok; auto.
    + intros x y A B. destruct (Hball _ _ (Hin x y A B) (Hin x y A B)) as (Q & _). exact Q.
    + intros x y A B. destruct (Hball _ _ (Hin x y A B) (Hin x y A B)) as (_ & _ & _ & Q). rewrite DS_diag, Cmod_opp in Q. simpl. rewrite Rmult_1_r. exact Q.
    + intros x y A B. pose proof (Hd (RtoC 1) (fun t => (t, y)) x y x A B A) as P. cbv beta in P.
      replace (a10 (Wk L (z x y) 2)) with (Tinv (DS L (z x y) (z x y)) (RtoC 1)).
      * apply P; auto. { intros t. apply Ceq; simpl; ring. } rewrite Cmod_1. lra.
      * destruct (Hball _ _ (Hin x y A B) (Hin x y A B)) as (_ & _ & _ & Q). rewrite DS_diag in *. unfold Tinv, a10, mu0.
        rewrite Cmod_opp in *. rewrite RtoC_div by (simpl; rewrite Rmult_1_r; exact Q). rewrite Cconj_RtoC.
        replace (Cmod (Wk L (z x y) 2) ^ 2)%R with (Cmod (Wk L (z x y) 2) * Cmod (Wk L (z x y) 2))%R by (simpl; ring).
        replace (Cconj (- Wk L (z x y) 2)) with (- Cconj (Wk L (z x y) 2)) by (apply Ceq; simpl; ring). field. apply RtoC_neq0. exact Q.
    + intros x y A B. pose proof (Hd Ci (fun t => (x, t)) x y y A B B) as P. cbv beta in P.
      replace (a01 (Wk L (z x y) 2)) with (Tinv (DS L (z x y) (z x y)) Ci).
      * apply P; auto. { intros t. apply Ceq; simpl; ring. } pose proof (Cmod_le1 Ci) as Q. simpl in Q. rewrite Rabs_R0, Rabs_R1 in Q. lra.
      * destruct (Hball _ _ (Hin x y A B) (Hin x y A B)) as (_ & _ & _ & Q). rewrite DS_diag in *. unfold Tinv, a01, mu0.
        rewrite Cmod_opp in *. rewrite RtoC_div by (simpl; rewrite Rmult_1_r; exact Q). rewrite Cconj_I.
        replace (Cmod (Wk L (z x y) 2) ^ 2)%R with (Cmod (Wk L (z x y) 2) * Cmod (Wk L (z x y) 2))%R by (simpl; ring).
        replace (Cconj (- Wk L (z x y) 2)) with (- Cconj (Wk L (z x y) 2)) by (apply Ceq; simpl; ring). field. apply RtoC_neq0. exact Q.
  - unfold zfam, z. cbn [zitx zity zev]. replace (w0 + ((0%R, 0%R) : C)) with w0 by (apply Ceq; simpl; ring). apply (zin_w0 L z0 N0 dl Pd Hball).
Qed.
