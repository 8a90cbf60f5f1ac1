(** Stirling's series in the right half plane: the logarithm along a segment, and how far the truncated series is from
    satisfying the functional equation of the gamma function. *)
From Coq Require Import Reals List Bool Lra Lia.
From Coquelicot Require Import Coquelicot.
From Verif Require Import Base_R Base_C M_Kernels P_Kernels.
Import ListNotations.
Local Open Scope R_scope.
Local Open Scope C_scope.

(** ** the logarithm in the right half plane *)
Definition clogp (t : C) : C := (ln (Cmod t), atan (Im t / Re t)).
Arguments clogp t%C.
Lemma clog_clogp (t : C) : 0 < Re t -> clog t = Some (clogp t).
Proof.
  intros H. unfold clog, clogp, carg. destruct (Reqb_spec (Cmod t) 0) as [E|_]; [apply Cmod_eq_0 in E; subst; simpl in H; lra|].
  destruct (Rltb_spec 0 (Re t)); [reflexivity|lra].
Qed.
Lemma cexp_clogp (t : C) : 0 < Re t -> cexp (clogp t) = t.
Proof. intros H. destruct (clog_some t (Re_pos_neq0 t H)) as (l & E & E'). rewrite clog_clogp in E by auto. injection E as <-. exact E'. Qed.
Lemma clogp_R (x : R) : 0 < x -> clogp (RtoC x) = RtoC (ln x).
Proof. intros H. unfold clogp. cbn [Re Im fst snd RtoC]. rewrite Cmod_R, Rabs_pos_eq by lra. replace (0 / x)%R with 0%R by (field; lra). rewrite atan_0. reflexivity. Qed.
Lemma ln_Cmod (t : C) : t <> 0 -> ln (Cmod t) = (/ 2 * ln (Re t * Re t + Im t * Im t))%R.
Proof.
  intros H. pose proof (proj1 (Cmod_gt_0 t) H) as P. pose proof (Cmod_sq t) as Q. change (fst t) with (Re t) in Q. change (snd t) with (Im t) in Q. rewrite <- Q, ln_mult by auto. lra.
Qed.
Lemma clogp_path (t h : C) (s : R) : 0 < Re t -> 0 <= Re h -> (0 <= s)%R ->
  is_derive (fun u : R => Re (clogp (t + RtoC u * h))) s (Re (h / (t + RtoC s * h))) /\
  is_derive (fun u : R => Im (clogp (t + RtoC u * h))) s (Im (h / (t + RtoC s * h))).
Proof.
  intros Ht Hh Hs. destruct t as [x y], h as [a b]. cbn [Re Im fst snd] in *.
  assert (P : (0 < x + s * a)%R) by nra.
  assert (E1 : forall u : R, Re ((x, y) + RtoC u * (a, b)) = (x + u * a)%R) by (intros; simpl; ring).
  assert (E2 : forall u : R, Im ((x, y) + RtoC u * (a, b)) = (y + u * b)%R) by (intros; simpl; ring).
  assert (L : locally s (fun u : R => (0 < x + u * a)%R)).
  { assert (Cn : continuous (fun u : R => x + u * a)%R s) by (apply (@ex_derive_continuous R_AbsRing R_NormedModule); auto_derive; auto).
    apply (Cn (fun v => 0 < v)%R). apply (open_gt 0). exact P. }
  assert (Q : (0 < (x + s * a) ^ 2 + (y + s * b) ^ 2)%R) by (pose proof (pow_lt _ 2 P); pose proof (pow2_ge_0 (y + s * b)); lra).
  assert (D : (a, b) / ((x, y) + RtoC s * (a, b)) = (((a * (x + s * a) + b * (y + s * b)) / ((x + s * a) ^ 2 + (y + s * b) ^ 2))%R, ((b * (x + s * a) - a * (y + s * b)) / ((x + s * a) ^ 2 + (y + s * b) ^ 2))%R)).
  { unfold Cdiv, Cinv, Cplus, Cmult, RtoC. cbn [fst snd].     replace (x + (s * a - 0 * b))%R with (x + s * a)%R by ring. replace (y + (s * b + 0 * a))%R with (y + s * b)%R by ring. apply Ceq; cbn [fst snd]; field; lra. }
  rewrite D. cbn [Re Im fst snd]. split.
  - apply (is_derive_ext_loc (fun u : R => (/ 2 * ln ((x + u * a) * (x + u * a) + (y + u * b) * (y + u * b)))%R)).
    + revert L. apply filter_imp. intros u Hu. unfold clogp. cbn [Re fst]. rewrite ln_Cmod by (apply Re_pos_neq0; rewrite E1; exact Hu). rewrite E1, E2. reflexivity.
    + auto_derive; [lra|]. field. lra.
  - apply (is_derive_ext (fun u : R => atan ((y + u * b) / (x + u * a)))%R).
    + intros u. unfold clogp. cbn [Im snd]. rewrite E1, E2. reflexivity.
    + auto_derive; [lra|]. field. split; lra.
Qed.

(** a complex function on [0, 1] moves no further than twice the bound on its derivative *)
Lemma path_bound (fr fi : R -> R) (d : R -> C) (B : R) :
  (forall s, (0 <= s <= 1)%R -> is_derive fr s (Re (d s)) /\ is_derive fi s (Im (d s)) /\ (Cmod (d s) <= B)%R) ->
  (Cmod ((fr 1, fi 1)%R - (fr 0, fi 0)%R)%C <= 2 * B)%R.
Proof.
  intros H.
  assert (K : forall (f : R -> R) (df : R -> R), (forall s, (0 <= s <= 1)%R -> is_derive f s (df s) /\ (Rabs (df s) <= B)%R) -> (Rabs (f 1 - f 0) <= B)%R).
  { intros f df Hf. destruct (MVT_gen f 0 1 df) as (c & Hc & E).
    - intros s. rewrite Rmin_left, Rmax_right by lra. intros Hs. apply Hf. lra.
    - intros s. rewrite Rmin_left, Rmax_right by lra. intros Hs. apply continuity_pt_filterlim. apply (@ex_derive_continuous R_AbsRing R_NormedModule). exists (df s). apply Hf. lra.
    - rewrite Rmin_left, Rmax_right in Hc by lra. rewrite E. replace (df c * (1 - 0))%R with (df c) by ring. apply Hf. lra. }
  assert (Kr : (Rabs (fr 1 - fr 0) <= B)%R).
  { apply (K fr (fun s => Re (d s))). intros s Hs. destruct (H s Hs) as (A & _ & A3). split; auto. pose proof (Rmax_Cmod (d s)). unfold Rmax in H0. change (fst (d s)) with (Re (d s)) in H0. destruct Rle_dec; lra. }
  assert (Ki : (Rabs (fi 1 - fi 0) <= B)%R).
  { apply (K fi (fun s => Im (d s))). intros s Hs. destruct (H s Hs) as (_ & A & A3). split; auto. pose proof (Rmax_Cmod (d s)). unfold Rmax in H0. change (snd (d s)) with (Im (d s)) in H0. destruct Rle_dec; lra. }
  assert (HB : (0 <= B)%R) by (pose proof (Rabs_pos (fr 1 - fr 0)); lra).
  replace ((fr 1, fi 1) - (fr 0, fi 0)) with (RtoC (fr 1 - fr 0) + Ci * RtoC (fi 1 - fi 0)) by (apply Ceq; simpl; ring).
  eapply Rle_trans; [apply Cmod_triangle|]. rewrite Cmod_mult, !Cmod_R. replace (Cmod Ci) with 1%R; [lra|].
  unfold Cmod, Ci. simpl. rewrite !Rmult_0_l, !Rmult_1_r, Rplus_0_l. rewrite sqrt_1. reflexivity.
Qed.

(** ** Taylor's polynomial of the logarithm *)
Fixpoint Tlog (n : nat) (w : C) : C := match n with 0%nat => RtoC 0 | S m => Tlog m w + RtoC ((-1) ^ m / INR (S m)) * w ^ (S m) end.
Arguments Tlog n%nat w%C.
Fixpoint Tpath (n : nat) (w : C) (s : R) : C := match n with 0%nat => RtoC 0 | S m => Tpath m w s + RtoC ((-1) ^ m * s ^ (S m) / INR (S m)) * w ^ (S m) end.
Fixpoint Tder (n : nat) (w : C) (s : R) : C := match n with 0%nat => RtoC 0 | S m => Tder m w s + RtoC ((-1) ^ m * s ^ m) * w ^ (S m) end.
Lemma Tpath_1 n w : Tpath n w 1 = Tlog n w.
Proof. induction n; cbn [Tpath Tlog]; auto. rewrite IHn, pow1, Rmult_1_r. reflexivity. Qed.
Lemma Tpath_0 n w : Tpath n w 0 = 0.
Proof. induction n; cbn [Tpath]; auto. rewrite IHn, pow_i by lia. rewrite Rmult_0_r. unfold Rdiv. rewrite Rmult_0_l. ring. Qed.
Lemma Re_lin (z v : C) (c : R) : Re (z + RtoC c * v) = (Re z + c * Re v)%R.
Proof. unfold Re. cbn [fst snd Cplus Cmult RtoC]. ring. Qed.
Lemma Im_lin (z v : C) (c : R) : Im (z + RtoC c * v) = (Im z + c * Im v)%R.
Proof. unfold Im. cbn [fst snd Cplus Cmult RtoC]. ring. Qed.
Lemma Tpath_der n w s : is_derive (fun u : R => Re (Tpath n w u)) s (Re (Tder n w s)) /\ is_derive (fun u : R => Im (Tpath n w u)) s (Im (Tder n w s)).
Proof.
  induction n as [|n [I1 I2]]; cbn [Tpath Tder]; [split; apply (@is_derive_const R_AbsRing R_NormedModule)|].
  assert (Q : forall c : R, is_derive (fun u : R => (-1) ^ n * u ^ (S n) / INR (S n) * c)%R s ((-1) ^ n * s ^ n * c)%R).
  { intros c. pose proof (lt_0_INR (S n) ltac:(lia)) as HI. auto_derive; auto. change (match n with 0%nat => 1%R | S _ => (INR n + 1)%R end) with (INR (S n)). rewrite Nat.sub_0_r || idtac. simpl pred. field. lra. }
  split.
  - apply (is_derive_ext (fun u : R => (Re (Tpath n w u) + (-1) ^ n * u ^ (S n) / INR (S n) * Re (w ^ S n)%C)%R)).
    { intros u. symmetry. apply Re_lin. }
    rewrite Re_lin. exact (@is_derive_plus R_AbsRing R_NormedModule _ _ s _ _ I1 (Q _)).
  - apply (is_derive_ext (fun u : R => (Im (Tpath n w u) + (-1) ^ n * u ^ (S n) / INR (S n) * Im (w ^ S n)%C)%R)).
    { intros u. symmetry. apply Im_lin. }
    rewrite Im_lin. exact (@is_derive_plus R_AbsRing R_NormedModule _ _ s _ _ I2 (Q _)).
Qed.
Lemma Tder_geom n w s : Tder n w s * (1 + RtoC s * w) = w * (1 - RtoC ((-1) ^ n * s ^ n) * w ^ n).
Proof.
  induction n as [|n IH]; cbn [Tder]; [rewrite !pow_O, Rmult_1_r; cbn [Cpow]; ring|].
  rewrite Cmult_plus_distr_r, IH. rewrite <- !tech_pow_Rmult. cbn [Cpow]. rewrite !RtoC_mult. replace (RtoC (-1)) with (- RtoC 1) by (rewrite <- RtoC_opp; f_equal; ring). ring.
Qed.
Lemma Cmod_ge_Re (t : C) : (Re t <= Cmod t)%R.
Proof. pose proof (Rmax_Cmod t). unfold Rmax in H. change (fst t) with (Re t) in H. pose proof (Rle_abs (Re t)). destruct Rle_dec; lra. Qed.
Lemma Cmod_right (t h : C) : 0 <= Re t -> 0 <= Re h -> 0 <= Re (h * Cconj t) -> (Cmod t <= Cmod (t + h))%R.
Proof.
  intros H H1 H2. apply Rsqr_incr_0; try apply Cmod_ge_0. unfold Rsqr. rewrite !Cmod_sq. destruct t as [x y], h as [a b]. simpl in *. nra.
Qed.
Lemma Cmod_shift (t : C) (s : R) : 0 <= Re t -> (0 <= s)%R -> (Cmod t <= Cmod (t + RtoC s))%R.
Proof. intros H Hs. apply Cmod_right; auto. destruct t as [x y]; simpl in *. nra. Qed.
Lemma log_taylor n (t : C) : 0 < Re t -> (Cmod (clogp (t + 1) - clogp t - Tlog n (/ t))%C <= 2 * (/ Cmod t) ^ (S n))%R.
Proof.
  intros H. pose proof (Re_pos_neq0 t H) as Nz. set (w := / t).
  assert (Nw : Cmod w = (/ Cmod t)%R) by (unfold w; apply Cmod_inv; auto).
  pose proof (path_bound (fun u => Re (clogp (t + RtoC u * 1)%C) - Re (Tpath n w u))%R (fun u => Im (clogp (t + RtoC u * 1)%C) - Im (Tpath n w u))%R
    (fun s => 1 / (t + RtoC s * 1) - Tder n w s) ((/ Cmod t) ^ S n)) as K.
  assert (HH : forall s, (0 <= s <= 1)%R -> is_derive (fun u => Re (clogp (t + RtoC u * 1)%C) - Re (Tpath n w u))%R s (Re (1 / (t + RtoC s * 1) - Tder n w s)%C) /\ is_derive (fun u => Im (clogp (t + RtoC u * 1)%C) - Im (Tpath n w u))%R s (Im (1 / (t + RtoC s * 1) - Tder n w s)%C) /\ (Cmod (1 / (t + RtoC s * 1) - Tder n w s)%C <= (/ Cmod t) ^ S n)%R).
  { intros s Hs. destruct (clogp_path t 1 s H ltac:(simpl; lra) ltac:(lra)) as [A1 A2]. destruct (Tpath_der n w s) as [B1 B2].
    replace (Re (1 / (t + RtoC s * 1) - Tder n w s)%C) with (Re (1 / (t + RtoC s * 1))%C - Re (Tder n w s))%R by (unfold Re; cbn [fst Cminus Cplus Copp]; ring).
    replace (Im (1 / (t + RtoC s * 1) - Tder n w s)%C) with (Im (1 / (t + RtoC s * 1))%C - Im (Tder n w s))%R by (unfold Im; cbn [snd Cminus Cplus Copp]; ring).
    split; [apply (@is_derive_minus R_AbsRing R_NormedModule); auto|]. split; [apply (@is_derive_minus R_AbsRing R_NormedModule); auto|].
    assert (N1 : t + RtoC s <> 0) by (apply Re_pos_neq0; change (Re (t + RtoC s)) with (Re t + s)%R; lra).
    assert (E : 1 / (t + RtoC s * 1) - Tder n w s = RtoC ((-1) ^ n * s ^ n) * w ^ n / (t + RtoC s)).
    { assert (Hg := Tder_geom n w s). replace (1 + RtoC s * w) with ((t + RtoC s) / t) in Hg by (unfold w; field; auto).
      assert (Hg' : Tder n w s = (1 - RtoC ((-1) ^ n * s ^ n) * w ^ n) / (t + RtoC s)).
      { replace (Tder n w s) with (Tder n w s * ((t + RtoC s) / t) * t / (t + RtoC s)) by (field; auto). rewrite Hg. unfold w at 1. field. auto. }
      rewrite Hg'. field. auto. }
    rewrite E. unfold Cdiv. rewrite !Cmod_mult, Cmod_inv, Cmod_R, Cmod_pow, Nw by auto. rewrite Rabs_mult, <- !RPow_abs. replace (Rabs (-1)) with 1%R by (unfold Rabs; destruct Rcase_abs; lra). rewrite pow1, (Rabs_pos_eq s) by lra.
    pose proof (Cmod_shift t s ltac:(lra) ltac:(lra)) as M. pose proof (proj1 (Cmod_gt_0 t) Nz) as P.
    assert (0 <= s ^ n <= 1)%R by (split; [apply pow_le; lra|rewrite <- (pow1 n); apply pow_incr; lra]).
    assert (0 < / Cmod t)%R by (apply Rinv_0_lt_compat; auto). assert (0 < (/ Cmod t) ^ n)%R by (apply pow_lt; auto). assert (/ Cmod (t + RtoC s)%C <= / Cmod t)%R by (apply Rinv_le_contravar; auto).
    assert (0 < / Cmod (t + RtoC s)%C)%R by (apply Rinv_0_lt_compat; lra). rewrite <- tech_pow_Rmult.
    replace (1 * s ^ n * (/ Cmod t) ^ n * / Cmod (t + RtoC s)%C)%R with (s ^ n * ((/ Cmod t) ^ n * / Cmod (t + RtoC s)%C))%R by ring. rewrite (Rmult_comm (/ Cmod t)). 
    apply Rle_trans with (1 * ((/ Cmod t) ^ n * / Cmod (t + RtoC s)%C))%R; [apply Rmult_le_compat_r; [|lra]|rewrite Rmult_1_l; apply Rmult_le_compat_l; lra].
    left. apply Rmult_lt_0_compat; auto. }
  specialize (K HH). eapply Rle_trans; [|exact K]. right. f_equal. rewrite Tpath_1, Tpath_0.
  replace (t + RtoC 1 * 1) with (t + 1) by ring. replace (t + RtoC 0 * 1) with t by ring. apply Ceq; unfold Re, Im; cbn [fst snd Cminus Cplus Copp]; simpl; ring.
Qed.

(** ** the series *)
Definition gs_5 (t : C) : C := RtoC 1 / RtoC 12 / t - RtoC 1 / RtoC 360 / t ^ 3 + RtoC 1 / RtoC 1260 / t ^ 5 - RtoC 1 / RtoC 1680 / t ^ 7 + RtoC 1 / RtoC 1188 / t ^ 9.
Definition gs_3 (t : C) : C := RtoC 1 / RtoC 12 / t - RtoC 1 / RtoC 360 / t ^ 3 + RtoC 1 / RtoC 1260 / t ^ 5.

Lemma Tlog_12 w : Tlog 12 w = w - w ^ 2 / RtoC 2 + w ^ 3 / RtoC 3 - w ^ 4 / RtoC 4 + w ^ 5 / RtoC 5 - w ^ 6 / RtoC 6 + w ^ 7 / RtoC 7 - w ^ 8 / RtoC 8 + w ^ 9 / RtoC 9 - w ^ 10 / RtoC 10 + w ^ 11 / RtoC 11 - w ^ 12 / RtoC 12.
Proof.
  cbn [Tlog]. assert (Q : forall (a b c : R), b <> 0%R -> (a = c * / b)%R -> RtoC a = RtoC c / RtoC b) by (intros a b c Hb ->; change (c * / b)%R with (c / b)%R; apply RtoC_div; auto).
  rewrite (Q ((-1) ^ 0 / INR 1)%R 1%R (1)%R) by (simpl; lra).
  rewrite (Q ((-1) ^ 1 / INR 2)%R 2%R (-1)%R) by (simpl; lra).
  rewrite (Q ((-1) ^ 2 / INR 3)%R 3%R (1)%R) by (simpl; lra).
  rewrite (Q ((-1) ^ 3 / INR 4)%R 4%R (-1)%R) by (simpl; lra).
  rewrite (Q ((-1) ^ 4 / INR 5)%R 5%R (1)%R) by (simpl; lra).
  rewrite (Q ((-1) ^ 5 / INR 6)%R 6%R (-1)%R) by (simpl; lra).
  rewrite (Q ((-1) ^ 6 / INR 7)%R 7%R (1)%R) by (simpl; lra).
  rewrite (Q ((-1) ^ 7 / INR 8)%R 8%R (-1)%R) by (simpl; lra).
  rewrite (Q ((-1) ^ 8 / INR 9)%R 9%R (1)%R) by (simpl; lra).
  rewrite (Q ((-1) ^ 9 / INR 10)%R 10%R (-1)%R) by (simpl; lra).
  rewrite (Q ((-1) ^ 10 / INR 11)%R 11%R (1)%R) by (simpl; lra).
  rewrite (Q ((-1) ^ 11 / INR 12)%R 12%R (-1)%R) by (simpl; lra).
  cbn [Cpow]. replace (RtoC (-1)) with (- RtoC 1) by (rewrite <- RtoC_opp; f_equal; ring). field. repeat split; apply RtoC_neq0; lra.
Qed.
Lemma residue_5 (t : C) : t <> 0 -> t + 1 <> 0 ->
  (t + RtoC 1 / RtoC 2) * Tlog 12 (/ t) - 1 + gs_5 (t + 1) - gs_5 t = ((- RtoC 247 / RtoC 2520) * t ^ 9 + (- RtoC 607 / RtoC 840) * t ^ 8 + (- RtoC 233 / RtoC 90) * t ^ 7 + (- RtoC 28171 / RtoC 5040) * t ^ 6 + (- RtoC 2193 / RtoC 280) * t ^ 5 + (- RtoC 5269 / RtoC 720) * t ^ 4 + (- RtoC 613 / RtoC 135) * t ^ 3 + (- RtoC 9 / RtoC 5) * t ^ 2 + (- RtoC 109 / RtoC 264) * t ^ 1 + (- RtoC 1 / RtoC 24) * t ^ 0) / (t ^ 12 * (t + 1) ^ 9).
Proof. intros H H1. rewrite Tlog_12. unfold gs_5. field. repeat split; auto; apply RtoC_neq0; lra. Qed.

Lemma Tlog_8 w : Tlog 8 w = w - w ^ 2 / RtoC 2 + w ^ 3 / RtoC 3 - w ^ 4 / RtoC 4 + w ^ 5 / RtoC 5 - w ^ 6 / RtoC 6 + w ^ 7 / RtoC 7 - w ^ 8 / RtoC 8.
Proof.
  cbn [Tlog]. assert (Q : forall (a b c : R), b <> 0%R -> (a = c * / b)%R -> RtoC a = RtoC c / RtoC b) by (intros a b c Hb ->; change (c * / b)%R with (c / b)%R; apply RtoC_div; auto).
  rewrite (Q ((-1) ^ 0 / INR 1)%R 1%R (1)%R) by (simpl; lra).
  rewrite (Q ((-1) ^ 1 / INR 2)%R 2%R (-1)%R) by (simpl; lra).
  rewrite (Q ((-1) ^ 2 / INR 3)%R 3%R (1)%R) by (simpl; lra).
  rewrite (Q ((-1) ^ 3 / INR 4)%R 4%R (-1)%R) by (simpl; lra).
  rewrite (Q ((-1) ^ 4 / INR 5)%R 5%R (1)%R) by (simpl; lra).
  rewrite (Q ((-1) ^ 5 / INR 6)%R 6%R (-1)%R) by (simpl; lra).
  rewrite (Q ((-1) ^ 6 / INR 7)%R 7%R (1)%R) by (simpl; lra).
  rewrite (Q ((-1) ^ 7 / INR 8)%R 8%R (-1)%R) by (simpl; lra).
  cbn [Cpow]. replace (RtoC (-1)) with (- RtoC 1) by (rewrite <- RtoC_opp; f_equal; ring). field. repeat split; apply RtoC_neq0; lra.
Qed.
Lemma residue_3 (t : C) : t <> 0 -> t + 1 <> 0 ->
  (t + RtoC 1 / RtoC 2) * Tlog 8 (/ t) - 1 + gs_3 (t + 1) - gs_3 t = ((- RtoC 83 / RtoC 720) * t ^ 5 + (- RtoC 371 / RtoC 720) * t ^ 4 + (- RtoC 67 / RtoC 72) * t ^ 3 + (- RtoC 5 / RtoC 6) * t ^ 2 + (- RtoC 41 / RtoC 112) * t ^ 1 + (- RtoC 1 / RtoC 16) * t ^ 0) / (t ^ 8 * (t + 1) ^ 5).
Proof. intros H H1. rewrite Tlog_8. unfold gs_3. field. repeat split; auto; apply RtoC_neq0; lra. Qed.

Lemma Cmod_c (n d : positive) : Cmod (RtoC (IZR (Zpos n)) / RtoC (IZR (Zpos d))) = (IZR (Zpos n) / IZR (Zpos d))%R.
Proof.
  assert (P : (0 < IZR (Zpos d))%R) by (apply IZR_lt; lia). rewrite <- RtoC_div by lra. rewrite Cmod_R, Rabs_pos_eq; auto. apply Rdiv_le_0_compat; auto. apply IZR_le. lia.
Qed.
Lemma Cmod_add_le (a b : C) x y : (Cmod a <= x)%R -> (Cmod b <= y)%R -> (Cmod (a + b)%C <= x + y)%R.
Proof. intros. eapply Rle_trans; [apply Cmod_triangle|lra]. Qed.
Lemma Cmod_sub_le (a b : C) x y : (Cmod a <= x)%R -> (Cmod b <= y)%R -> (Cmod (a - b)%C <= x + y)%R.
Proof. intros. unfold Cminus. apply Cmod_add_le; auto. rewrite Cmod_opp. auto. Qed.
Lemma pow_inv_le (m : R) k : (1 <= m)%R -> (/ m ^ (S k) <= / m)%R.
Proof. intros H. apply Rinv_le_contravar; [lra|]. rewrite <- tech_pow_Rmult. pose proof (pow_R1_Rle m k H). nra. Qed.
Lemma gs_term (n d : positive) (t : C) k : (1 <= Cmod t)%R -> (Cmod (RtoC (IZR (Zpos n)) / RtoC (IZR (Zpos d)) / t ^ (S k))%C <= IZR (Zpos n) / IZR (Zpos d) * / Cmod t)%R.
Proof.
  intros H. assert (Nz : t <> 0) by (apply Cmod_pos_neq; lra). unfold Cdiv at 1. rewrite Cmod_mult, Cmod_c, Cmod_inv, Cmod_pow by (apply Cpow_neq0; auto).
  apply Rmult_le_compat_l; [apply Rdiv_le_0_compat; [apply IZR_le|apply IZR_lt]; lia|]. apply pow_inv_le; auto.
Qed.
Lemma gs_term1 (n d : positive) (t : C) : (1 <= Cmod t)%R -> (Cmod (RtoC (IZR (Zpos n)) / RtoC (IZR (Zpos d)) / t)%C <= IZR (Zpos n) / IZR (Zpos d) * / Cmod t)%R.
Proof. intros H. pose proof (gs_term n d t 0 H) as Q. replace (t ^ 1)%C with t in Q by (cbn [Cpow]; ring). exact Q. Qed.
Lemma gs_3_small (t : C) : (1 <= Cmod t)%R -> (Cmod (gs_3 t) <= / Cmod t)%R.
Proof.
  intros H. unfold gs_3. assert (0 < / Cmod t)%R by (apply Rinv_0_lt_compat; lra).
  eapply Rle_trans; [apply Cmod_add_le; [apply Cmod_sub_le; [apply gs_term1|apply gs_term]|apply gs_term]; auto|]. lra.
Qed.
Lemma gs_5_small (t : C) : (1 <= Cmod t)%R -> (Cmod (gs_5 t) <= / Cmod t)%R.
Proof.
  intros H. unfold gs_5. assert (0 < / Cmod t)%R by (apply Rinv_0_lt_compat; lra).
  eapply Rle_trans; [apply Cmod_add_le; [apply Cmod_sub_le; [apply Cmod_add_le; [apply Cmod_sub_le; [apply gs_term1|apply gs_term]|apply gs_term]|apply gs_term]|apply gs_term]; auto|]. lra.
Qed.
Lemma series_gs_5 (t : C) : t <> 0 -> gamma_series gamma_a t (t * t) = gs_5 t.
Proof.
  intros H. unfold gamma_a, coeff, gs_5. cbn [gamma_series]. rewrite !RtoC_div by lra. replace (RtoC (-1)) with (- RtoC 1) by (rewrite <- RtoC_opp; f_equal; ring). field. repeat split; auto; apply RtoC_neq0; lra.
Qed.

(** how far the truncated series is from the functional equation *)
Definition stir (gs : C -> C) (t : C) : C := RtoC (ln (2 * PI) / 2) - t + (t - RtoC 1 / RtoC 2) * clogp t + gs t.
Definition stir_step (gs : C -> C) (t : C) : C := stir gs (t + 1) - stir gs t - clogp t.
Lemma stir_step_split gs n (t : C) : stir_step gs t = (t + RtoC 1 / RtoC 2) * (clogp (t + 1) - clogp t - Tlog n (/ t)) + ((t + RtoC 1 / RtoC 2) * Tlog n (/ t) - 1 + gs (t + 1) - gs t).
Proof. unfold stir_step, stir. field. apply RtoC_neq0. lra. Qed.
Lemma step_err n (t : C) : 0 < Re t -> (1 <= Cmod t)%R -> (Cmod ((t + RtoC 1 / RtoC 2) * (clogp (t + 1) - clogp t - Tlog n (/ t)))%C <= 3 * / Cmod t ^ n)%R.
Proof.
  intros H H1. rewrite Cmod_mult. pose proof (log_taylor n t H) as L. assert (A : (Cmod (t + RtoC 1 / RtoC 2)%C <= 3 / 2 * Cmod t)%R).
  { eapply Rle_trans; [apply Cmod_triangle|]. rewrite (Cmod_c 1 2). lra. }
  rewrite pow_inv in L by lra. assert (0 < / Cmod t ^ S n)%R by (apply Rinv_0_lt_compat, pow_lt; lra).
  apply Rle_trans with (3 / 2 * Cmod t * (2 * / Cmod t ^ S n))%R; [apply Rmult_le_compat; try apply Cmod_ge_0; auto|]. right. simpl. field. split; [apply pow_nonzero|]; lra.
Qed.
Lemma num_term (n d : positive) (t : C) k m : (1 <= Cmod t)%R -> (k <= m)%nat -> (Cmod ((- RtoC (IZR (Zpos n)) / RtoC (IZR (Zpos d))) * t ^ k)%C <= IZR (Zpos n) / IZR (Zpos d) * Cmod t ^ m)%R.
Proof.
  intros H Hk. rewrite Cmod_mult. replace (- RtoC (IZR (Zpos n)) / RtoC (IZR (Zpos d))) with (- (RtoC (IZR (Zpos n)) / RtoC (IZR (Zpos d)))) by (unfold Cdiv; ring). rewrite Cmod_opp, Cmod_c, Cmod_pow.
  apply Rmult_le_compat_l; [apply Rdiv_le_0_compat; [apply IZR_le|apply IZR_lt]; lia|]. apply Rle_pow; auto.
Qed.
Lemma residue_bound (num t : C) n D K : 0 < Re t -> (1 <= Cmod t)%R -> (Cmod num <= K * Cmod t ^ D)%R -> (Cmod (num / (t ^ n * (t + 1) ^ D))%C <= K * / Cmod t ^ n)%R.
Proof.
  intros H H1 HK. assert (Nz : t <> 0) by (apply Re_pos_neq0; auto). assert (N1 : t + 1 <> 0) by (apply Re_pos_neq0; change (Re (t + 1)) with (Re t + 1)%R; lra).
  unfold Cdiv. rewrite Cmod_mult, Cmod_inv by (apply Cmult_neq_0; apply Cpow_neq0; auto). rewrite Cmod_mult, !Cmod_pow.
  pose proof (Cmod_shift t 1 ltac:(lra) ltac:(lra)) as M. assert (P : (0 < Cmod t ^ D)%R) by (apply pow_lt; lra). assert (P2 : (0 < Cmod t ^ n)%R) by (apply pow_lt; lra). assert (Q : (Cmod t ^ D <= Cmod (t + 1)%C ^ D)%R) by (apply pow_incr; split; [lra|exact M]).
  assert (HK0 : (0 <= K)%R) by (pose proof (Cmod_ge_0 num); assert (0 <= K * Cmod t ^ D)%R by lra; nra).
  apply Rle_trans with (K * Cmod t ^ D * / (Cmod t ^ n * Cmod t ^ D))%R; [|right; field; lra].
  apply Rmult_le_compat; auto; [apply Cmod_ge_0|left; apply Rinv_0_lt_compat, Rmult_lt_0_compat; lra|]. apply Rinv_le_contravar; [apply Rmult_lt_0_compat; lra|]. apply Rmult_le_compat_l; lra.
Qed.
Ltac numb := repeat (eapply Rle_trans; [apply Cmod_triangle|]; apply Rplus_le_compat); (match goal with |- (Cmod (?c * _ ^ _)%C <= _)%R => apply num_term; auto; lia end).
Lemma stir_step_5 (t : C) : 0 < Re t -> (1 <= Cmod t)%R -> (Cmod (stir_step gs_5 t) <= 34 * / Cmod t ^ 12)%R.
Proof.
  intros H H1. assert (Nz : t <> 0) by (apply Re_pos_neq0; auto). assert (N1 : t + 1 <> 0) by (apply Re_pos_neq0; change (Re (t + 1)) with (Re t + 1)%R; lra).
  rewrite (stir_step_split gs_5 12), residue_5 by auto. replace (34 * / Cmod t ^ 12)%R with (3 * / Cmod t ^ 12 + 31 * / Cmod t ^ 12)%R by ring. apply Cmod_add_le; [apply step_err; auto|]. apply residue_bound; auto.
  eapply Rle_trans; [repeat (apply Cmod_add_le; [|apply (num_term _ _ t _ 9 H1); lia]); apply (num_term _ _ t _ 9 H1); lia|]. assert (P : (0 < Cmod t ^ 9)%R) by (apply pow_lt; lra). lra.
Qed.
Lemma stir_step_3 (t : C) : 0 < Re t -> (1 <= Cmod t)%R -> (Cmod (stir_step gs_3 t) <= 6 * / Cmod t ^ 8)%R.
Proof.
  intros H H1. assert (Nz : t <> 0) by (apply Re_pos_neq0; auto). assert (N1 : t + 1 <> 0) by (apply Re_pos_neq0; change (Re (t + 1)) with (Re t + 1)%R; lra).
  rewrite (stir_step_split gs_3 8), residue_3 by auto. replace (6 * / Cmod t ^ 8)%R with (3 * / Cmod t ^ 8 + 3 * / Cmod t ^ 8)%R by ring. apply Cmod_add_le; [apply step_err; auto|]. apply residue_bound; auto.
  eapply Rle_trans; [repeat (apply Cmod_add_le; [|apply (num_term _ _ t _ 5 H1); lia]); apply (num_term _ _ t _ 5 H1); lia|]. assert (P : (0 < Cmod t ^ 5)%R) by (apply pow_lt; lra). lra.
Qed.
