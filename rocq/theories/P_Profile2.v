(** The uniform and the square-root profile differ; the profile functions as transforms; profiles transformed numerically. *)
From Coq Require Import Reals List Bool Arith Lia Lra Psatz.
From Coquelicot Require Import Coquelicot.
From Verif Require Import Base_R Base_C Base_List M_Fftlog M_Special M_MagFft M_MagCurve S_Fftlog S_MagCurve P_Fftlog P_FftConv P_HankelConv P_MagCurve S_Profile P_Profile P_MagSamples.
Import ListNotations.
Local Open Scope R_scope.

Lemma cos_bounds y : -1 <= y <= 1 -> 1 - y ^ 2 / 2 <= cos y <= 1 - y ^ 2 / 2 + y ^ 4 / 24.
Proof.
  intros H. pose proof (pre_cos_bound y 0 ltac:(lra) ltac:(lra)) as B. unfold cos_approx, cos_term in B. cbn -[pow] in B. unfold sum_f_R0 in B. cbn in B. split; [destruct B as [B _]|destruct B as [_ B]]; cbn; lra.
Qed.
Lemma differ rho k : 0 < rho -> 0 < k * rho <= 1 -> transform (uniform rho) rho k < transform (root rho) rho k.
Proof.
  intros Hr Hx. set (x := k * rho) in *. pose proof PI_RGT_0 as Hpi. rewrite uniform_transform, root_transform_int by auto. fold x.
  set (c := x ^ 2 / 2 - x ^ 4 / 24). set (d := x ^ 2 / 2).
  assert (B : forall t, -1 < t < 1 -> 1 - d * t ^ 2 <= cos (x * t) <= 1 - c * t ^ 2).
  { intros t Ht. assert (Hy : -1 <= x * t <= 1) by nra. pose proof (cos_bounds (x * t) Hy) as [B1 B2]. unfold c, d. split; [nra|]. eapply Rle_trans; [exact B2|].
    replace ((x * t) ^ 4) with (x ^ 4 * t ^ 4) by ring. assert (t ^ 4 <= t ^ 2) by (assert (t ^ 2 <= 1) by nra; pose proof (pow2_ge_0 t); replace (t ^ 4) with (t ^ 2 * t ^ 2) by ring; nra).
    assert (0 <= x ^ 4) by (replace (x ^ 4) with ((x ^ 2) ^ 2) by ring; apply pow2_ge_0). replace ((x * t) ^ 2) with (x ^ 2 * t ^ 2) by ring. nra. }
  assert (CP : forall t, continuous (fun t => 1 - t ^ 2) t) by (intros t; apply (@ex_derive_continuous R_AbsRing R_NormedModule); auto_derive; auto).
  assert (C3 : forall t, continuous (fun t => sqrt (1 - t ^ 2) ^ 3) t).
  { intros t. apply (continuous_comp (fun t => sqrt (1 - t ^ 2)) (fun z => z ^ 3)); [apply wcont|]. apply (@ex_derive_continuous R_AbsRing R_NormedModule). auto_derive. auto. }
  assert (Up : RInt (fun t => sqrt (1 - t ^ 2) * cos (x * t)) (-1) 1 <= PI / 2 - c * (PI / 8)).
  { assert (E : is_RInt (fun t => (1 - c) * sqrt (1 - t ^ 2) + c * sqrt (1 - t ^ 2) ^ 3) (-1) 1 ((1 - c) * (PI / 2) + c * (3 * PI / 8))).
    { apply (is_RInt_plus (V := R_NormedModule) (fun t => (1 - c) * sqrt (1 - t ^ 2)) (fun t => c * sqrt (1 - t ^ 2) ^ 3)); [apply (is_RInt_scal (V := R_NormedModule) (fun t => sqrt (1 - t ^ 2)))|apply (is_RInt_scal (V := R_NormedModule) (fun t => sqrt (1 - t ^ 2) ^ 3))].
      - rewrite <- W1. apply (@RInt_correct R_CompleteNormedModule). apply cont_ex, wcont.
      - rewrite <- W3. apply (@RInt_correct R_CompleteNormedModule). apply cont_ex, C3. }
    replace (PI / 2 - c * (PI / 8)) with ((1 - c) * (PI / 2) + c * (3 * PI / 8)) by field. rewrite <- (is_RInt_unique _ _ _ _ E). apply RInt_le; [lra| |eexists; exact E|].
    - apply cont_ex. intros t. apply (continuous_mult (fun t => sqrt (1 - t ^ 2)) (fun t => cos (x * t))); [apply wcont|apply ccont].
    - intros t Ht. assert (H1 : 0 <= 1 - t ^ 2) by nra. pose proof (sqrt_pos (1 - t ^ 2)) as W. pose proof (pow2_sqrt _ H1) as W2. destruct (B t Ht) as [_ B2].
      replace (sqrt (1 - t ^ 2) ^ 3) with (sqrt (1 - t ^ 2) * sqrt (1 - t ^ 2) ^ 2) by ring. rewrite W2. apply Rle_trans with (sqrt (1 - t ^ 2) * (1 - c * t ^ 2)); [apply Rmult_le_compat_l; auto|]. apply Req_le. ring. }
  assert (Lo : 4 / 3 - d * (4 / 15) <= RInt (fun t => (1 - t ^ 2) * cos (x * t)) (-1) 1).
  { assert (E : RInt (fun t => (1 - t ^ 2) * (1 - d * t ^ 2)) (-1) 1 = 4 / 3 - d * (4 / 15)).
    { rewrite (ftc (fun t => t - t ^ 3 / 3 - d * (t ^ 3 / 3 - t ^ 5 / 5))).
      - req. field.
      - intros t. auto_derive; auto. simpl. field.
      - intros t. apply (@ex_derive_continuous R_AbsRing R_NormedModule). auto_derive. auto. }
    rewrite <- E. apply RInt_le; [lra| | |].
    - apply cont_ex. intros t. apply (@ex_derive_continuous R_AbsRing R_NormedModule). auto_derive. auto.
    - apply cont_ex. intros t. apply (continuous_mult (fun t => 1 - t ^ 2) (fun t => cos (x * t))); [apply CP|apply ccont].
    - intros t Ht. apply Rmult_le_compat_l; [nra|]. apply B; auto. }
  assert (U2 : 2 / PI * RInt (fun t => sqrt (1 - t ^ 2) * cos (x * t)) (-1) 1 <= 1 - c / 4).
  { apply Rle_trans with (2 / PI * (PI / 2 - c * (PI / 8))); [apply Rmult_le_compat_l; auto; apply Rlt_le, Rdiv_lt_0_compat; lra|]. apply Req_le. field. lra. }
  assert (Hc : d / 5 < c / 4). { unfold c, d. assert (0 < x ^ 2 <= 1) by nra. replace (x ^ 4) with (x ^ 2 * x ^ 2) by ring. nra. }
  lra.
Qed.

(** ** the profile functions *)
Lemma half_power x : 0 < x -> Rpower x 1.5 = x * sqrt x.
Proof. intros H. replace 1.5 with (1 + / 2) by lra. rewrite Rpower_plus, Rpower_1, Rpower_sqrt by auto. reflexivity. Qed.
Lemma root_value gam x : 0 < x -> nmap (fun j => 1.5 * Rpower 2 1.5 * gam * j / Rpower x 1.5) (j1p5_ x) = Some (gam / (sqrt PI / 2) * (3 * (sin x - x * cos x) / x ^ 3)).
Proof.
  intros Hx. pose proof PI_RGT_0 as Hpi. unfold j1p5_. destruct (Rltb_spec 0 x); [|lra]. cbn [nmap option_map]. f_equal. rewrite !half_power by lra.
  rewrite sqrt_div by nra. rewrite sqrt_mult by lra. pose proof (sqrt_lt_R0 x Hx). pose proof (sqrt_lt_R0 PI Hpi). assert (0 < sqrt 2) by (apply sqrt_lt_R0; lra).
  set (a := sqrt x) in *. set (b := sqrt PI) in *. set (c := sqrt 2) in *. assert (Ex : x = a * a) by (unfold a; rewrite sqrt_sqrt; lra). assert (E2 : c * c = 2) by (unfold c; apply sqrt_sqrt; lra).
  replace (1.5 * (2 * c) * gam * (c / (b * a) * (sin x / x - cos x)) / (x * a)) with (3 * (c * c) * gam * (sin x / x - cos x) / (b * (a * a) * x)) by (replace 1.5 with (3 / 2) by lra; field; repeat split; lra).
  rewrite E2, <- Ex. field. split; lra.
Qed.
Lemma per_k_one f k rho : per_k f [Some k] rho = [f (k * rho)].
Proof. reflexivity. Qed.

(** ** numerical profiles *)
Definition numeric_sum (kappa : R -> R) (u s : list R) (q : R) : R := sumR (map (fun i => nth i u 0 ^ 2 * nth i s 0 * kappa (nth i u 0 * q)) (seq 0 (length u))).
Lemma numeric_val g lo hi N : lo < hi -> Nat.even N = true -> (16 <= N)%nat ->
  exists kappa, forall su s k rho, length s = N -> su rho (logspace lo hi N) = map Some s ->
  sk_numeric g su lo hi N k rho =
  map (fun i => ndiv (Some (numeric_sum kappa (logspace lo hi N) s (0.5 / nth (N - 1 - i) (logspace lo hi N) 0))) (Some (numeric_sum kappa (logspace lo hi N) s (0.5 / nth (N - 1) (logspace lo hi N) 0)))) (seq 0 N).
Proof.
  intros H Ev HN. set (r := Rpower 10 ((hi - lo) / INR (N - 1))). assert (Hr : 0 < r) by apply Rpower_pos. assert (Hr1 : r <> 1) by (apply ratio_neq1; auto; lia).
  destruct (kernel_exists g r N 0 Hr Hr1 ltac:(lia) ltac:(auto) ltac:(lia)) as [kappa HK]. exists kappa. intros su s k rho Hs Es.
  set (u := logspace lo hi N) in *. assert (Lu : length u = N) by apply logspace_len. unfold sk_numeric. cbv zeta. fold u. rewrite Es.
  set (f := map (fun i => nth i u 0 ^ 2 * nth i s 0) (seq 0 N)).
  assert (Ef : map (fun '(u, s) => nmul (Some (u ^ 2)) s) (combine u (map Some s)) = map Some f).
  { apply (list_eq_nth None); [unfold f; rewrite !map_length, combine_length, map_length, seq_length; lia|]. intros i Hi. rewrite map_length, combine_length, map_length in Hi.
    rewrite (nth_map_lt _ _ i (0, None)) by (rewrite combine_length, map_length; lia). rewrite combine_nth_lt by (rewrite ?map_length; lia). rewrite (nth_map_lt Some s i 0) by lia.
    unfold f. rewrite map_map. rewrite (nth_map_lt _ _ i O) by (rewrite seq_length; lia). rewrite seq_nth by lia. reflexivity. }
  rewrite Ef. assert (Eu : u = rgeom (Rpower 10 lo) r N) by apply logspace_geom.
  pose proof (HK (Rpower 10 lo) f (Rpower_pos _ _)) as E. rewrite <- Eu in E. cbv zeta in E. rewrite E by (unfold f; rewrite map_length, seq_length; auto).
  set (q := rgeom (0.5 / (Rpower 10 lo * Rpower r (INR (N - 1)))) r N). assert (Lq : length q = N) by apply rgeom_len.
  assert (Q : forall i, (i < N)%nat -> nth i q 0 = 0.5 / nth (N - 1 - i) u 0).
  { intros i Hi. unfold q. rewrite rgeom_at by auto. rewrite Eu, rgeom_at by lia. symmetry. apply y_grid; [apply Rpower_pos|auto]. }
  set (h := fun y => sumR (map (fun i => nth i f 0 * kappa (nth i u 0 * y)) (seq 0 N))).
  assert (Eh : forall y, h y = numeric_sum kappa u s y).
  { intros y. unfold h, numeric_sum. rewrite Lu. apply sumR_ext. intros i Hi. apply in_seq in Hi. unfold f. rewrite (nth_map_lt _ _ i O) by (rewrite seq_length; lia). rewrite seq_nth by lia. reflexivity. }
  apply (list_eq_nth None); [rewrite !map_length, seq_length; auto|]. intros i Hi. rewrite !map_length, Lq in Hi.
  rewrite (nth_map_lt _ _ i None) by (rewrite !map_length; lia). rewrite (nth_map_lt _ (seq 0 N) i O) by (rewrite seq_length; lia). rewrite seq_nth by lia. cbn [Nat.add].
  assert (V : forall j, (j < N)%nat -> nth j (map Some (map h q)) None = Some (numeric_sum kappa u s (0.5 / nth (N - 1 - j) u 0))).
  { intros j Hj. rewrite (nth_map_lt Some _ j 0) by (rewrite map_length; lia). rewrite (nth_map_lt h q j 0) by lia. rewrite Eh, Q by auto. reflexivity. }
  fold h. rewrite (V i Hi), (V O) by lia. rewrite Nat.sub_0_r. reflexivity.
Qed.
