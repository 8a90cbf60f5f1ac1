(** Source profiles in Fourier space: property C65. *)
From Coq Require Import Reals List Bool Arith ZArith Lia Lra.
From Coquelicot Require Import Coquelicot.
From Verif Require Import Base_R Base_C Base_List M_Fftlog M_Special M_MagFft M_MagCurve S_Fftlog S_MagCurve P_Fftlog P_FftConv P_HankelConv P_MagCurve S_Profile P_Profile P_MagSamples P_Profile2 M_Bessel S_Bessel P_BesselSeries P_BesselSmall P_BesselPoisson Thm_Bessel.
Import ListNotations.
Local Open Scope R_scope.

Lemma per_k_vals (f : R -> num) (h : R -> R) (k : list R) rho : (forall q, In q k -> f (q * rho) = Some (h q)) -> per_k f (map Some k) rho = map Some (map h k).
Proof. intros H. unfold per_k. rewrite !map_map. apply map_ext_in. intros q Hq. cbn. apply H. exact Hq. Qed.

Lemma Forall2_map_r {A B} (P : A -> B -> Prop) (f : A -> B) l : (forall a, In a l -> P a (f a)) -> Forall2 P l (map f l).
Proof. induction l as [|a l IH]; intros H; constructor; [apply H; left; auto|apply IH; intros; apply H; right; auto]. Qed.

(** ** C65: source profiles in Fourier space *)
(** at positive wavenumbers, with exact Bessel functions and [gamma 1.5 = sqrt pi / 2], [gamma 2 = 1]: numpy *)
Theorem C65_profiles : forall k rho, 0 < rho -> (forall q, In q k -> 0 < q) ->
  sk_disk bessel1 (map Some k) rho = map Some (map (transform (uniform rho) rho) k) /\
  sk_limb1 (sqrt PI / 2) (map Some k) rho = map Some (map (transform (root rho) rho) k) /\
  sk_limb2 bessel2 1 (map Some k) rho = map Some (map (transform (quadratic rho) rho) k).
Proof.
  intros k rho Hr Hk. pose proof PI_RGT_0 as Hpi. assert (P : forall q, In q k -> 0 < q * rho) by (intros; apply Rmult_lt_0_compat; auto).
  split; [|split]; apply per_k_vals; intros q Hq; specialize (P q Hq); (destruct (Rltb_spec 0 (q * rho)); [|lra]).
  - f_equal. rewrite uniform_transform by auto. unfold bessel1. set (x := q * rho) in *. field. lra.
  - rewrite root_value by auto. f_equal. rewrite root_transform by lra. pose proof (sqrt_lt_R0 PI Hpi). set (x := q * rho) in *. field. split; lra.
  - f_equal. rewrite quadratic_transform by auto. unfold bessel2. set (x := q * rho) in *. field. split; lra.
Qed.
Print Assumptions C65_profiles.
(** jax: [j1], [j2] and [gamma] are approximated; the disc is right at every positive wavenumber, the square-root profile is scaled by
    the approximate gamma value, and the quadratic profile is only as good as [j2] divided by the square of its argument *)
Definition j2v (x : R) : R := match j2_ x with Some v => v | None => 0 end.
Theorem C65_jax_partial : forall gam k rho, 0 < rho -> (forall q, In q k -> 0 < q) ->
  (exists v, sk_disk j1_ (map Some k) rho = map Some v /\ Forall2 (fun q v => Rabs (v - transform (uniform rho) rho q) <= 2.2e-14) k v) /\
  sk_limb1 gam (map Some k) rho = map Some (map (fun q => gam / (sqrt PI / 2) * transform (root rho) rho q) k) /\
  (exists v, sk_limb2 j2v gam (map Some k) rho = map Some v /\ Forall2 (fun q v => Rabs (v - gam * transform (quadratic rho) rho q) <= Rabs gam * 6e-13 / (q * rho) ^ 2) k v).
Proof.
  intros gam k rho Hr Hk. pose proof PI_RGT_0 as Hpi. assert (P : forall q, In q k -> 0 < q * rho) by (intros; apply Rmult_lt_0_compat; auto). split; [|split].
  - exists (map (fun q => 2 * j1_ (q * rho) / (q * rho)) k). split.
    + apply per_k_vals. intros q Hq. specialize (P q Hq). destruct (Rltb_spec 0 (q * rho)); [reflexivity|lra].
    + apply Forall2_map_r. intros q Hq. specialize (P q Hq). destruct (C67_values (q * rho)) as (_ & _ & H). rewrite (Rabs_pos_eq (q * rho)) in H by lra. rewrite uniform_transform by auto. pose proof (bessel1_series (q * rho)) as B. unfold bessel1 in B. set (x := q * rho) in *.
      replace (2 / PI * RInt (fun t => sqrt (1 - t ^ 2) * cos (x * t)) (-1) 1) with (2 * besselJ 1 x / x) by (rewrite <- B; field; lra). replace (2 * j1_ x / x - 2 * besselJ 1 x / x) with (2 * ((j1_ x - besselJ 1 x) * / x)) by (field; lra).
      rewrite !Rabs_mult, Rabs_inv, (Rabs_pos_eq 2), (Rabs_pos_eq x) by lra. assert (Rabs (j1_ x - besselJ 1 x) * / x <= 1.1e-14); [|lra]. apply (Rmult_le_reg_r x); auto. rewrite Rmult_assoc, Rinv_l; lra.
  - apply per_k_vals. intros q Hq. specialize (P q Hq). destruct (Rltb_spec 0 (q * rho)); [|lra]. rewrite root_value by auto. rewrite root_transform by lra. reflexivity.
  - exists (map (fun q => 2 ^ 2 * gam * j2v (q * rho) / (q * rho) ^ 2 * 2) k). split.
    + apply per_k_vals. intros q Hq. specialize (P q Hq). destruct (Rltb_spec 0 (q * rho)); [reflexivity|lra].
    + apply Forall2_map_r. intros q Hq. specialize (P q Hq). destruct (C67_j2_partial (q * rho) ltac:(lra)) as (v & Hv & H). unfold j2v. rewrite Hv, quadratic_transform by auto. pose proof (bessel2_series (q * rho)) as B. unfold bessel2 in B. set (x := q * rho) in *.
      replace (8 / (3 * PI) * RInt (fun t => sqrt (1 - t ^ 2) ^ 3 * cos (x * t)) (-1) 1) with (8 * besselJ 2 x / x ^ 2) by (rewrite <- B; field; lra). replace (2 ^ 2 * gam * v / x ^ 2 * 2 - gam * (8 * besselJ 2 x / x ^ 2)) with (gam * (8 * (v - besselJ 2 x)) / x ^ 2) by (field; lra).
      assert (X2 : 0 < x ^ 2) by nra. unfold Rdiv. rewrite !Rabs_mult, Rabs_inv, (Rabs_pos_eq 8), (Rabs_pos_eq (x ^ 2)) by lra. apply Rmult_le_compat_r; [left; apply Rinv_0_lt_compat; auto|]. apply Rmult_le_compat_l; [apply Rabs_pos|lra].
Qed.
Print Assumptions C65_jax_partial.
(** there it fails: the difference of the two approximations does not vanish with the square of the argument *)
Theorem C65_jax_refuted : forall k rho, 0 < rho -> k * rho = 1e-10 ->
  Rabs (transform (quadratic rho) rho k - 1) <= 1e-19 /\ exists v, sk_limb2 j2v 1 [Some k] rho = [Some v] /\ v < -800.
Proof.
  intros k rho Hr Hx. pose proof PI_RGT_0 as Hpi. split.
  - rewrite quadratic_transform by auto. rewrite Hx. pose proof (bessel2_series 1e-10) as B. unfold bessel2 in B. rewrite besselJ_G in B.
    replace (8 / (3 * PI) * RInt (fun t => sqrt (1 - t ^ 2) ^ 3 * cos (1e-10 * t)) (-1) 1) with (2 * G 2 (1e-10 ^ 2)).
    + pose proof (G_truncated 2 1 (1e-10 ^ 2) ltac:(simpl; lra)) as T. rewrite bc_abs in T. cbn [psum] in T. replace (bc 2 0) with (1 / 2) in T by (unfold bc; simpl; field). change (IZR (4 ^ Z.of_nat 1 * factZ 1 * factZ (1 + 2))) with 24 in T.
      apply Rabs_le_between in T. apply Rabs_le. lra.
    + set (I := RInt _ _ _) in *. assert (E : G 2 (1e-10 ^ 2) = 4 * (1 / (3 * PI) * I)). { apply (Rmult_eq_reg_l ((1e-10 / 2) ^ 2)); [|lra]. rewrite <- B. field. lra. } rewrite E. field. lra.
  - unfold sk_limb2. rewrite per_k_one, Hx. destruct (Rltb_spec 0 1e-10); [|lra]. eexists. split; [reflexivity|]. unfold j2v, j2_. destruct (Reqb_spec 1e-10 0); [lra|]. unfold j0_, j1_, sign. destruct (Rltb_spec 0 1e-10); [|lra]. rewrite Rabs_pos_eq by lra. destruct (Rltb_spec 1e-10 5); [|lra]. unfold j0_small. destruct (Rltb_spec 1e-10 1e-5); [|lra]. unfold j1_small. cbv zeta. unfold polyval, RP1, RQ1, Z1, Z2. cbn [fold_left]. lra.
Qed.
Print Assumptions C65_jax_refuted.
(** at wavenumber 0 the transform is 1; only the disc returns it *)
Theorem C65_zero_refuted : forall J1 J2 gam rho, 0 < rho ->
  transform (uniform rho) rho 0 = 1 /\ transform (root rho) rho 0 = 1 /\ transform (quadratic rho) rho 0 = 1 /\
  sk_disk J1 [Some 0] rho = [Some 1] /\ sk_limb1 gam [Some 0] rho = [Some (1 / 3)] /\ sk_limb2 J2 gam [Some 0] rho = [Some (1 / 4)].
Proof.
  intros J1 J2 gam rho Hr. pose proof PI_RGT_0 as Hpi. repeat split.
  - rewrite uniform_transform by auto. rewrite (rext _ (fun t => sqrt (1 - t ^ 2))); [|lra|intros; rewrite Rmult_0_l, Rmult_0_l, cos_0; ring]. rewrite W1. field. lra.
  - rewrite root_transform_int by auto. rewrite (rext _ (fun t => 1 - t ^ 2)); [|lra|intros; rewrite Rmult_0_l, Rmult_0_l, cos_0; ring]. rewrite W2. field.
  - rewrite quadratic_transform by auto. rewrite (rext _ (fun t => sqrt (1 - t ^ 2) ^ 3)); [|lra|intros; rewrite Rmult_0_l, Rmult_0_l, cos_0; ring]. rewrite W3. field. lra.
  - unfold sk_disk. rewrite per_k_one, Rmult_0_l. destruct (Rltb_spec 0 0); [lra|reflexivity].
  - unfold sk_limb1. rewrite per_k_one, Rmult_0_l. destruct (Rltb_spec 0 0); [lra|]. replace (1 / 3) with (1 / (1 + 2)) by field. reflexivity.
  - unfold sk_limb2. rewrite per_k_one, Rmult_0_l. destruct (Rltb_spec 0 0); [lra|]. replace (1 / 4) with (1 / (2 + 2)) by field. reflexivity.
Qed.
Print Assumptions C65_zero_refuted.
(** [mag_limb1.sk_] and [sk__]: not the transform of the linear law, whatever the coefficient *)
Theorem C65_linear_refuted : forall a1 k rho, 0 < a1 < 1 -> 0 < rho -> 0 < k -> k * rho <= 1 ->
  sk_linear__ bessel1 a1 [Some k] rho <> [Some (transform (linear a1 rho) rho k)] /\ sk_linear_ bessel1 (sqrt PI / 2) a1 [Some k] rho = sk_linear__ bessel1 a1 [Some k] rho.
Proof.
  intros a1 k rho Ha Hr Hk Hx. pose proof PI_RGT_0 as Hpi. assert (P : 0 < k * rho) by (apply Rmult_lt_0_compat; auto). unfold sk_linear__, sk_linear_. rewrite !per_k_one. destruct (Rltb_spec 0 (k * rho)); [|lra]. split.
  - assert (Nd : forall v, ndiv (Some v) (Some (1 - a1)) = Some (v / (1 - a1))) by (intros v; cbn; destruct (Reqb_spec (1 - a1) 0); [lra|reflexivity]). rewrite Nd. intros E. apply (f_equal (fun l => match l with [Some v] => v | _ => 0 end)) in E. cbv beta iota in E. rewrite linear_transform in E by lra. pose proof (differ rho k Hr ltac:(lra)) as Df.
    rewrite <- (root_transform rho k) in E by lra. rewrite (uniform_transform rho k) in * by auto. unfold bessel1 in E.
    set (I := RInt (fun t => sqrt (1 - t ^ 2) * cos (k * rho * t)) (-1) 1) in *. set (T := transform (root rho) rho k) in *. set (x := k * rho) in *. clearbody I T x.
    replace (2 * (x / PI * I) / x) with (2 / PI * I) in E by (field; lra). set (D := 2 / PI * I) in *. clearbody D.
    assert (E2 : (D - a1 * T) * (3 - a1) = (3 * (1 - a1) * D + 2 * a1 * T) * (1 - a1)).
    { replace (D - a1 * T) with ((D - a1 * T) / (1 - a1) * (1 - a1)) by (field; lra). rewrite E. field. lra. }
    assert (a1 * (T - D) * (5 - 3 * a1) = 0) by nra. assert (0 < a1 * (T - D) * (5 - 3 * a1)) by (repeat apply Rmult_lt_0_compat; lra). lra.
  - do 2 f_equal. pose proof (root_value (sqrt PI / 2) (k * rho) P) as V. unfold j1p5_ in *. destruct (Rltb_spec 0 (k * rho)); [|lra]. cbn [nmap option_map nbind] in *. injection V as V. rewrite V.
    pose proof (sqrt_lt_R0 PI Hpi). f_equal. set (x := k * rho) in *. field. lra.
Qed.
Print Assumptions C65_linear_refuted.
(** [mag_limb.sk] and [mag_limb1.sk]: the wavenumbers asked for are ignored.  The values are those at the frequencies of the
    transform, which suits [_A_for_large_rho]; the small-source table asks for the positions [logspace lo hi N], which are
    [2 * 10 ^ (lo + hi)] times the frequencies. *)
Theorem C65_numeric_refuted : forall g lo hi N, lo < hi -> Nat.even N = true -> (16 <= N)%nat ->
  exists kappa, forall su s k rho, length s = N -> su rho (logspace lo hi N) = map Some s ->
  let h q := sumR (map (fun i => nth i (logspace lo hi N) 0 ^ 2 * nth i s 0 * kappa (nth i (logspace lo hi N) 0 * q)) (seq 0 N)) in
  let q0 := 0.5 / Rpower 10 hi in
  sk_numeric g su lo hi N k rho = map (fun x => ndiv (Some (h (x / (2 * Rpower 10 (lo + hi))))) (Some (h q0))) (logspace lo hi N) /\
  sk_numeric g su lo hi N k rho = map (fun q => ndiv (Some (h q)) (Some (h q0))) (map (fun u => 0.5 / u) (rev (logspace lo hi N))).
Proof.
  intros g lo hi N H Ev HN. destruct (numeric_val g lo hi N H Ev HN) as [kappa V]. exists kappa. intros su s k rho Hs Es h q0.
  pose proof (V su s k rho Hs Es) as E. set (u := logspace lo hi N) in *. assert (Lu : length u = N) by apply logspace_len.
  assert (Eh : forall q, numeric_sum kappa u s q = h q) by (intros q; unfold numeric_sum; rewrite Lu; reflexivity).
  assert (E0 : 0.5 / nth (N - 1) u 0 = q0) by (unfold u; rewrite logspace_last by lia; reflexivity).
  rewrite E, E0. split.
  - apply (list_eq_nth None); [rewrite !map_length, seq_length; auto|]. intros i Hi. rewrite map_length, seq_length in Hi.
    rewrite (nth_map_lt _ _ i O) by (rewrite seq_length; lia). rewrite seq_nth by lia. rewrite (nth_map_lt _ u i 0) by lia. cbn [Nat.add]. rewrite !Eh. do 2 f_equal.
    f_equal. pose proof (freq_rgeom lo hi N ltac:(lia) i Hi) as F. fold u in F. rewrite <- F. rewrite rgeom_at by auto. unfold u. rewrite logspace_geom, rgeom_at by auto. rewrite Rpower_plus.
    pose proof (Rpower_pos 10 lo). pose proof (Rpower_pos 10 hi). replace 0.5 with (/ 2) by lra. field. split; lra.
  - apply (list_eq_nth None); [rewrite !map_length, rev_length, seq_length; auto|]. intros i Hi. rewrite map_length, seq_length in Hi.
    rewrite (nth_map_lt _ _ i O) by (rewrite seq_length; lia). rewrite seq_nth by lia. cbn [Nat.add]. rewrite (nth_map_lt _ _ i 0) by (rewrite map_length, rev_length; lia). rewrite (nth_map_lt _ _ i 0) by (rewrite rev_length; lia).
    rewrite rev_nth by lia. rewrite Lu, !Eh. do 4 f_equal. f_equal. lia.
Qed.
Print Assumptions C65_numeric_refuted.
(** a source of radius 0.1 at the wavenumber 31.4: the square-root profile gives [3 / PI ^ 2] at [k rho = PI]; for the default
    grid the small-source table takes the profile at 500 times the wavenumber *)
Example C65_case : sk_limb1 (sqrt PI / 2) [Some (10 * PI)] 0.1 = [Some (3 / PI ^ 2)] /\ 2 * Rpower 10 (-6 + 3) = 1 / 500 /\
  su_limb1 0.5 1 (logspace (-6) 3 1024) = map Some (map (fun v => v / su_linear 0.5 1 (Rpower 10 (-6))) (map (su_linear 0.5 1) (logspace (-6) 3 1024))).
Proof.
  pose proof PI_RGT_0 as Hpi. split; [|split].
  - pose proof (C65_profiles [10 * PI] 0.1 ltac:(lra) ltac:(intros q [<-|[]]; lra)) as (_ & E & _). cbn [map] in E. rewrite E. do 2 f_equal. rewrite root_transform by lra. replace (10 * PI * 0.1) with PI by lra. rewrite sin_PI, cos_PI. field. lra.
  - replace (-6 + 3) with (- (3)) by lra. rewrite Rpower_Ropp. replace (Rpower 10 3) with 1000; [lra|]. replace 3 with (INR 3) by (simpl; lra). rewrite Rpower_pow by lra. lra.
  - unfold su_limb1. rewrite (map_map _ Some). apply map_ext. intros v. rewrite (nth_map_lt _ _ O 0) by (rewrite logspace_len; lia). rewrite logspace_first by lia.
    assert (Hp : 0 < su_linear 0.5 1 (Rpower 10 (-6))).
    { unfold su_linear. assert (Rpower 10 (-6) < 1) by (rewrite <- (Rpower_O 10) by lra; apply Rpower_lt; lra). destruct (Rltb_spec (Rpower 10 (-6)) 1); [|lra]. pose proof (sqrt_pos (Rabs (1 - Rpower 10 (-6) ^ 2 / 1 ^ 2))). lra. }
    assert (Nd : forall c, c <> 0 -> ndiv (Some v) (Some c) = Some (v / c)) by (intros c Hc; cbn; destruct (Reqb_spec c 0); [lra|reflexivity]). apply Nd. lra.
Qed.
