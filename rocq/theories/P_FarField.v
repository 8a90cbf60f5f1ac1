(** Far from the lens one image dominates (C74). *)
From Coq Require Import Reals List Lra Lia Classical Permutation.
From Coquelicot Require Import Complex.
From Verif Require Import Base_R Base_List Base_C M_Coeffs M_PointSource S_PointSource S_Poly
  P_Utils P_Lens P_Poly P_PolyRoots P_PointSource P_Images P_AnySource P_Fermat.
Import ListNotations.
Local Open Scope R_scope.

Lemma dv_mod m p z : 0 < m -> z <> p -> Cmod (RtoC m / Cconj (z - p))%C = m / Cmod (z - p)%C.
Proof.
  intros Hm N. assert (N' : (z - p)%C <> RtoC 0) by (intros E; apply N; now apply Cminus_eq_0). rewrite Cmod_div by now apply Cconj_neq0.
  rewrite Cmod_conj, Cmod_R, Rabs_pos_eq by lra. reflexivity.
Qed.
Lemma sv_mod m p z : 0 < m -> z <> p -> Cmod (RtoC m / Cconj (z - p) ^ 2)%C = m / Cmod (z - p)%C ^ 2.
Proof.
  intros Hm N. assert (N' : (z - p)%C <> RtoC 0) by (intros E; apply N; now apply Cminus_eq_0). assert (N2 : Cconj (z - p)%C <> RtoC 0) by now apply Cconj_neq0.
  rewrite Cmod_div by (apply Cpow_neq0; auto). rewrite Cmod_pow, Cmod_conj, Cmod_R, Rabs_pos_eq by lra. reflexivity.
Qed.
Lemma dist_pos z p : z <> p -> 0 < Cmod (z - p)%C.
Proof. intros N. apply Cmod_gt_0. intros E. apply N. now apply Cminus_eq_0. Qed.

(** [z] is at least [B] away from every mass *)
Definition apart (B : R) (L : lens_system) (z : C) : Prop := forall m p, In (m, p) L -> B <= Cmod (z - p)%C.
Lemma apart_cons B m p L z : apart B ((m, p) :: L) z -> B <= Cmod (z - p)%C /\ apart B L z.
Proof. intros H. split; [apply (H m p); now left|]. intros m' p' H'. apply (H m' p'). now right. Qed.
Lemma apart_off B L z : 0 < B -> apart B L z -> off_masses L z.
Proof. intros HB H m p Hi E. specialize (H m p Hi). subst z. replace (p - p)%C with (RtoC 0) in H by ring. rewrite Cmod_0 in H. lra. Qed.
Lemma deflection_small B L z : positive L -> 0 < B -> apart B L z -> Cmod (deflection L z) <= mass L / B.
Proof.
  intros P HB. induction L as [|[m p] L IH]; intros A; [cbn; rewrite Cmod_0; lra|]. apply positive_cons in P as (Pm & P). pose proof (apart_off B _ z HB A) as O. apply off_cons in O as (O1 & _). apply apart_cons in A as (A1 & A2). specialize (IH P A2).
  rewrite deflection_cons. cbn [mass]. eapply Rle_trans; [apply Cmod_triangle|]. rewrite dv_mod by auto. assert (m / Cmod (z - p)%C <= m / B) by (apply Rmult_le_compat_l; [lra|now apply Rinv_le_contravar]). unfold Rdiv in *. lra.
Qed.
Lemma shear_small B L z : positive L -> 0 < B -> apart B L z -> Cmod (shear L z) <= mass L / B ^ 2.
Proof.
  intros P HB. induction L as [|[m p] L IH]; intros A; [cbn; rewrite Cmod_0; lra|]. apply positive_cons in P as (Pm & P). pose proof (apart_off B _ z HB A) as O. apply off_cons in O as (O1 & _). apply apart_cons in A as (A1 & A2). specialize (IH P A2).
  rewrite shear_cons. cbn [mass]. eapply Rle_trans; [apply Cmod_triangle|]. rewrite sv_mod by auto. assert (m / Cmod (z - p)%C ^ 2 <= m / B ^ 2) by (apply Rmult_le_compat_l; [lra|apply Rinv_le_contravar; [apply pow_lt; auto|apply pow_incr; lra]]). unfold Rdiv in *. lra.
Qed.
Lemma deflection_lip B L z y : positive L -> 0 < B -> apart B L z -> apart B L y ->
  Cmod (deflection L z - deflection L y)%C <= mass L / B ^ 2 * Cmod (z - y)%C.
Proof.
  intros P HB. induction L as [|[m p] L IH]; intros A A'; [cbn; replace (RtoC 0 - RtoC 0)%C with (RtoC 0) by ring; rewrite Cmod_0; unfold Rdiv; rewrite Rmult_0_l; lra|].
  apply positive_cons in P as (Pm & P). pose proof (apart_off B _ z HB A) as O. apply off_cons in O as (O1 & _). pose proof (apart_off B _ y HB A') as O'. apply off_cons in O' as (O1' & _).
  apply apart_cons in A as (A1 & A2). apply apart_cons in A' as (A1' & A2'). specialize (IH P A2 A2').
  rewrite !deflection_cons. cbn [mass].
  replace (RtoC m / Cconj (z - p) + deflection L z - (RtoC m / Cconj (y - p) + deflection L y))%C with ((RtoC m / Cconj (z - p) - RtoC m / Cconj (y - p)) + (deflection L z - deflection L y))%C by ring.
  eapply Rle_trans; [apply Cmod_triangle|].
  assert (N1 : (z - p)%C <> RtoC 0) by (intros E; apply O1; now apply Cminus_eq_0). assert (N2 : (y - p)%C <> RtoC 0) by (intros E; apply O1'; now apply Cminus_eq_0).
  assert (E : (RtoC m / Cconj (z - p) - RtoC m / Cconj (y - p))%C = (RtoC m * Cconj (y - z) / (Cconj (z - p) * Cconj (y - p)))%C).
  { replace (y - z)%C with ((y - p) - (z - p))%C by ring. rewrite (Cconj_minus (y - p)%C (z - p)%C). field. split; now apply Cconj_neq0. }
  rewrite E. rewrite Cmod_div by (apply Cmult_neq_0; now apply Cconj_neq0). rewrite !Cmod_mult, !Cmod_conj, Cmod_R, Rabs_pos_eq by lra.
  replace (Cmod (y - z)%C) with (Cmod (z - y)%C) by (rewrite <- Cmod_opp; f_equal; ring). pose proof (Cmod_ge_0 (z - y)%C) as G.
  assert (m * Cmod (z - y)%C / (Cmod (z - p)%C * Cmod (y - p)%C) <= m * Cmod (z - y)%C / B ^ 2).
  { apply Rmult_le_compat_l; [nra|]. apply Rinv_le_contravar; [apply pow_lt; auto|]. simpl pow. rewrite Rmult_1_r. apply Rmult_le_compat; lra. }
  replace ((m + mass L) / B ^ 2 * Cmod (z - y)%C) with (m * Cmod (z - y)%C / B ^ 2 + mass L / B ^ 2 * Cmod (z - y)%C) by (field; lra). lra.
Qed.

(** a large deflection comes from one mass, whose shear then dominates *)
Definition distinct (L : lens_system) : Prop := NoDup (map snd L).
Lemma gap_one (p : C) (L : lens_system) : ~ In p (map snd L) -> exists g, 0 < g /\ forall m' p', In (m', p') L -> g <= Cmod (p' - p)%C.
Proof.
  induction L as [|[m q] L IH]; intros N; [exists 1; split; [lra|]; intros m' p' []|]. cbn in N. destruct IH as (g & Hg & H); [tauto|]. assert (Q : 0 < Cmod (q - p)%C) by (apply dist_pos; intros E; apply N; now left).
  exists (Rmin g (Cmod (q - p)%C)). split; [now apply Rmin_glb_lt|]. intros m' p' [E|Hi]; [injection E as <- <-; apply Rmin_r|]. eapply Rle_trans; [apply Rmin_l|eauto].
Qed.
Lemma pigeon L z K : positive L -> off_masses L z -> 0 < K -> INR (length L) * K < Cmod (deflection L z) ->
  exists m p, In (m, p) L /\ K < m / Cmod (z - p)%C.
Proof.
  intros P. induction L as [|[m p] L IH]; intros O HK H; [cbn in H; rewrite Cmod_0 in H; lra|]. apply positive_cons in P as (Pm & P). apply off_cons in O as (O1 & O2).
  destruct (Rlt_dec K (m / Cmod (z - p)%C)) as [Hl|N]; [exists m, p; split; [now left|auto]|]. destruct (IH P O2 HK) as (m' & p' & Hi & Hl); [|exists m', p'; split; [now right|auto]].
  rewrite deflection_cons in H. pose proof (Cmod_triangle (RtoC m / Cconj (z - p))%C (deflection L z)) as T. rewrite dv_mod in T by auto. change (length ((m, p) :: L)) with (S (length L)) in H. rewrite S_INR in H. lra.
Qed.
Lemma split_in L (m : R) (p : C) : In (m, p) L -> exists L', Permutation L ((m, p) :: L') /\ length L = S (length L').
Proof. intros H. apply in_split in H as (l1 & l2 & ->). exists (l1 ++ l2). split; [symmetry; apply Permutation_middle|]. rewrite !app_length. cbn. lia. Qed.
Lemma perm_positive L L' : Permutation L L' -> positive L -> positive L'.
Proof. intros P H m p Hi. apply (H m p). apply Permutation_in with L'; auto. now symmetry. Qed.
Lemma perm_mass L L' : Permutation L L' -> mass L = mass L'.
Proof. induction 1 as [|[m p]|[m p] [m' p']|]; cbn; lra. Qed.
Lemma perm_distinct L L' : Permutation L L' -> distinct L -> distinct L'.
Proof. intros P H. unfold distinct in *. apply Permutation_NoDup with (map snd L); auto. now apply Permutation_map. Qed.
(** one mass at a time *)
Lemma near_one m p L Q : positive ((m, p) :: L) -> distinct ((m, p) :: L) ->
  exists K, 0 < K /\ forall z, off_masses ((m, p) :: L) z -> K < m / Cmod (z - p)%C -> Q <= Cmod (shear ((m, p) :: L) z).
Proof.
  intros P D. apply positive_cons in P as (Pm & P). inversion D as [|x y N D']; subst. cbn in N. destruct (gap_one p L N) as (g & Hg & G).
  pose proof (mass_nonneg L P) as M0. set (X := Rabs Q + mass L / (g / 2) ^ 2). assert (HX : 0 <= X).
  { unfold X. pose proof (Rabs_pos Q). assert (0 <= mass L / (g / 2) ^ 2) by (apply Rmult_le_pos; [lra|left; apply Rinv_0_lt_compat, pow_lt; lra]). lra. }
  exists (2 * m / g + m * X + 1). assert (0 < 2 * m / g) by (apply Rdiv_lt_0_compat; lra). assert (0 <= m * X) by nra. split; [lra|]. intros z O HK.
  apply off_cons in O as (O1 & O2). pose proof (dist_pos z p O1) as Pr. set (r := Cmod (z - p)%C) in *.
  assert (Hr : r < g / 2). { assert (2 * m / g < m / r) by lra. apply Rmult_lt_reg_r with (2 * m / (g * r)); [apply Rdiv_lt_0_compat; nra|]. replace (r * (2 * m / (g * r))) with (2 * m / g) by (field; lra). replace (g / 2 * (2 * m / (g * r))) with (m / r) by (field; lra). auto. }
  assert (A : apart (g / 2) L z). { intros m' p' Hi. specialize (G m' p' Hi). pose proof (Cmod_triangle (p' - z)%C (z - p)%C) as T. replace (p' - z + (z - p))%C with (p' - p)%C in T by ring. fold r in T. replace (Cmod (p' - z)%C) with (Cmod (z - p')%C) in T by (rewrite <- Cmod_opp; f_equal; ring). lra. }
  pose proof (shear_small (g / 2) L z P ltac:(lra) A) as S. rewrite shear_cons. set (own := (RtoC m / Cconj (z - p) ^ 2)%C). assert (Eo : Cmod own = m / r ^ 2) by (apply sv_mod; auto).
  pose proof (Cmod_triangle (own + shear L z)%C (- shear L z)%C) as T. replace (own + shear L z + - shear L z)%C with own in T by ring. rewrite Cmod_opp, Eo in T.
  assert (m / r ^ 2 >= X). { replace (m / r ^ 2) with ((m / r) * (m / r) / m) by (field; lra). assert (m * X + 1 <= m / r) by lra. assert (1 <= m / r) by lra. assert (m * X <= m / r * (m / r)) by nra. apply Rle_ge. apply Rmult_le_reg_r with m; auto. unfold Rdiv at 1. rewrite Rmult_assoc, Rinv_l by lra. lra. }
  pose proof (Rle_abs Q). unfold X in H1. lra.
Qed.
Lemma near_each L Q : positive L -> distinct L -> forall L0, incl L0 L ->
  exists K, 0 < K /\ forall z m p, off_masses L z -> In (m, p) L0 -> K < m / Cmod (z - p)%C -> Q <= Cmod (shear L z).
Proof.
  intros P D. induction L0 as [|[m p] L0 IH]; intros I; [exists 1; split; [lra|]; intros z m p _ []|]. destruct IH as (K & HK & H); [intros x Hx; apply I; now right|].
  assert (Hin : In (m, p) L) by (apply I; now left). destruct (split_in L m p Hin) as (L' & PL & _).
  destruct (near_one m p L' Q (perm_positive _ _ PL P) (perm_distinct _ _ PL D)) as (K' & HK' & H'). exists (K + K'). split; [lra|]. intros z m0 p0 O [E|Hi] Hk.
  - injection E as <- <-. rewrite (perm_shear _ _ z PL). apply H'; [apply (perm_off L); auto|lra].
  - apply (H z m0 p0); auto. lra.
Qed.
Theorem near_big L Q : positive L -> distinct L -> exists K, 0 < K /\ forall z, off_masses L z -> K < Cmod (deflection L z) -> Q <= Cmod (shear L z).
Proof.
  intros P D. destruct (near_each L Q P D L (incl_refl L)) as (K & HK & H). pose proof (pos_INR (length L)) as Hn. exists (INR (length L) * K + 1). split; [nra|]. intros z O Hz.
  destruct (pigeon L z K P O HK ltac:(lra)) as (m & p & Hi & Hm). eauto.
Qed.

Lemma mass_pos_bound L m p : In (m, p) L -> Cmod p <= 1 + spread L.
Proof.
  intros H. apply spread_in in H. pose proof (Cmod_sq p) as S. unfold d2 in H. cbn in H. pose proof (Cmod_ge_0 p). nra.
Qed.
(** the images and the spurious solutions of the eliminated lens equation, for a distant source *)
Theorem far_core L tol eta Q : positive L -> distinct L -> 0 < tol -> 0 < eta < 1 -> exists R0, forall w, R0 <= Cmod w ->
  exists zs, is_image L w zs /\ Cmod (shear L zs) <= eta /\
    forall z, off_masses L z ->
      (off_masses L (w + deflection L z)%C -> z = (w + deflection L (w + deflection L z))%C) ->
      Cmod (lens_map L z - w)%C < tol -> z = zs \/ Q <= Cmod (shear L z).
Proof.
  intros P D Ht He. pose proof (mass_nonneg L P) as M0. pose proof (spread_nonneg L) as S0. destruct (near_big L (Rmax Q 2) P D) as (K & HK & HQ).
  set (B := 1 + 2 * mass L / eta). assert (Q0 : 0 <= 2 * mass L / eta) by (apply Rmult_le_pos; [lra|left; apply Rinv_0_lt_compat; lra]). assert (HB : 1 <= B) by (unfold B; lra).
  assert (Hk : mass L / B ^ 2 <= eta / 2).
  { apply Rmult_le_reg_r with (B ^ 2); [apply pow_lt; lra|]. unfold Rdiv at 1. rewrite Rmult_assoc, Rinv_l, Rmult_1_r by (apply Rgt_not_eq, pow_lt; lra).
    assert (B <= B ^ 2) by nra. assert (mass L <= eta / 2 * B). { unfold B. replace (eta / 2 * (1 + 2 * mass L / eta)) with (eta / 2 + mass L) by (field; lra). lra. } nra. }
  assert (Hk0 : 0 <= mass L / B ^ 2) by (apply Rmult_le_pos; [lra|left; apply Rinv_0_lt_compat, pow_lt; lra]).
  assert (Hm : mass L / B <= mass L). { apply Rmult_le_reg_r with B; [lra|]. unfold Rdiv. rewrite Rmult_assoc, Rinv_l, Rmult_1_r by lra. nra. }
  set (P0 := 1 + spread L). exists (K + tol + B + P0 + mass L + B + 1). intros w Hw.
  (* close to a mass *)
  assert (Near : forall z, off_masses L z -> Cmod (lens_map L z - w)%C < tol -> apart B L z \/ Rmax Q 2 <= Cmod (shear L z)).
  { intros z O T. destruct (classic (apart B L z)) as [|N]; [now left|]. right. apply HQ; auto.
    assert (X : exists m p, In (m, p) L /\ Cmod (z - p)%C < B). { apply NNPP. intros N'. apply N. intros m p Hi. apply Rnot_lt_le. intros Hl. apply N'. exists m, p. auto. }
    destruct X as (m & p & Hi & Hl). apply mass_pos_bound in Hi. fold P0 in Hi.
    pose proof (Cmod_triangle (z - p)%C p) as T1. replace (z - p + p)%C with z in T1 by ring.
    pose proof (Cmod_triangle (z - (lens_map L z - w))%C (- deflection L z)%C) as T2. replace (z - (lens_map L z - w) + - deflection L z)%C with w in T2 by (unfold lens_map; ring).
    pose proof (Cmod_triangle z (- (lens_map L z - w))%C) as T3. rewrite Cmod_opp in T2, T3. unfold Cminus in T2 at 1. lra. }
  assert (Out : forall z, apart B L z -> apart B L (w + deflection L z)%C).
  { intros z A m p Hi. pose proof (deflection_small B L z P ltac:(lra) A) as Ds. apply mass_pos_bound in Hi. fold P0 in Hi.
    pose proof (Cmod_triangle (w + deflection L z - p)%C (p - deflection L z)%C) as T1. replace (w + deflection L z - p + (p - deflection L z))%C with w in T1 by ring.
    pose proof (Cmod_triangle p (- deflection L z)%C) as T2. rewrite Cmod_opp in T2. unfold Cminus in T1 at 2. lra. }
  destruct (minimum_image L w P) as (zs & (Oz & Ez) & Sz).
  assert (Az : apart B L zs). { destruct (Near zs Oz) as [|N]; auto. { rewrite Ez. replace (w - w)%C with (RtoC 0) by ring. rewrite Cmod_0. lra. } pose proof (Rmax_r Q 2). lra. }
  exists zs. split; [split; auto|]. split. { pose proof (shear_small B L zs P ltac:(lra) Az). lra. }
  intros z Oz' F T. destruct (Near z Oz' T) as [A|N]; [|right; pose proof (Rmax_l Q 2); lra]. left.
  assert (F' : z = (w + deflection L (w + deflection L z))%C) by (apply F; apply (apart_off B); auto; lra).
  assert (Es : zs = (w + deflection L zs)%C) by (rewrite <- Ez at 1; unfold lens_map; ring). assert (Fs : zs = (w + deflection L (w + deflection L zs))%C) by (rewrite <- Es; auto).
  pose proof (deflection_lip B L z zs P ltac:(lra) A Az) as L1. pose proof (deflection_lip B L (w + deflection L z)%C (w + deflection L zs)%C P ltac:(lra) (Out z A) (Out zs Az)) as L2.
  replace (w + deflection L z - (w + deflection L zs))%C with (deflection L z - deflection L zs)%C in L2 by ring.
  assert (E : (z - zs)%C = (deflection L (w + deflection L z) - deflection L (w + deflection L zs))%C) by (rewrite F' at 1; rewrite Fs at 1; ring).
  rewrite <- E in L2. pose proof (Cmod_ge_0 (z - zs)%C) as G. pose proof (Cmod_ge_0 (deflection L z - deflection L zs)%C) as G2.
  apply Cminus_eq_0. apply Cmod_eq_0. set (k := mass L / B ^ 2) in *. assert (k < 1) by lra. assert (k * Cmod (deflection L z - deflection L zs)%C <= k * (k * Cmod (z - zs)%C)) by (apply Rmult_le_compat_l; auto). assert (k * k < 1) by nra. nra.
Qed.

Lemma sum_le_const (f : C -> R) l e : (forall x, In x l -> f x <= e) -> sumR (map f l) <= INR (length l) * e.
Proof.
  induction l as [|a l IH]; intros H; [cbn; lra|]. change (length (a :: l)) with (S (length l)). rewrite S_INR. cbn [map sumR]. assert (f a <= e) by (apply H; now left). assert (sumR (map f l) <= INR (length l) * e) by (apply IH; intros x Hx; apply H; now right). lra.
Qed.
Lemma filter_length_le' {A} (f : A -> bool) l : (length (filter f l) <= length l)%nat.
Proof. induction l as [|a l IH]; cbn; [lia|]. destruct (f a); cbn; lia. Qed.

Theorem far_sum L tol N eps : positive L -> distinct L -> 0 < tol -> 0 < eps -> exists R0, forall w rs (mask : C -> bool) (det : C -> R), R0 <= Cmod w -> (length rs <= N)%nat ->
  (forall z, det z = 1 - Cmod (shear L z) * Cmod (shear L z)) ->
  (forall z, mask z = true <-> Cmod (lens_map L z - w)%C < tol) ->
  (forall z, is_image L w z -> In z rs) ->
  (forall z, In z rs -> off_masses L z /\ (off_masses L (w + deflection L z)%C -> z = (w + deflection L (w + deflection L z))%C)) ->
  (forall z, is_image L w z -> det z <> 0 -> ~ exists l1 l2, rs = l1 ++ z :: l2 /\ In z (l1 ++ l2)) ->
  1 <= sum_inv_det det (rs, map mask rs) <= 1 + eps.
Proof.
  intros P D Ht He. set (eta := Rmin (/ 2) (eps / 2)). assert (Heta : 0 < eta <= / 2 /\ eta <= eps / 2) by (unfold eta; split; [split; [apply Rmin_glb_lt; lra|apply Rmin_l]|apply Rmin_r]).
  pose proof (pos_INR N) as HN. set (Q := 2 + 2 * (INR N + 1) / eps). assert (HQ0 : 0 < 2 * (INR N + 1) / eps) by (apply Rdiv_lt_0_compat; lra). assert (HQ : 2 <= Q) by (unfold Q; lra).
  destruct (far_core L tol eta Q P D Ht ltac:(lra)) as (R0 & Core). exists R0. intros w rs mask det Hw Hl Hd Hm Ha Hr Ho.
  destruct (Core w Hw) as (zs & Iz & Sz & U). pose proof (Cmod_ge_0 (shear L zs)) as S0. assert (X2 : Cmod (shear L zs) * Cmod (shear L zs) <= eta * eta) by (apply Rmult_le_compat; lra).
  assert (X3 : eta * eta <= eps / 4 /\ eta * eta <= / 4) by (split; nra). assert (Hdz : / 2 <= det zs <= 1) by (rewrite Hd; nra).
  pose proof (Ha zs Iz) as Hin. specialize (Ho zs Iz ltac:(apply Rgt_not_eq; lra)). destruct (in_split zs rs Hin) as (l1 & l2 & E).
  assert (Nz : ~ In zs (l1 ++ l2)) by (intros H; apply Ho; exists l1, l2; auto).
  set (g := fun z => 1 / Rabs (det z)). assert (S1 : sum_inv_det det (rs, map mask rs) = sumR (map g (filter mask rs))) by (unfold sum_inv_det; simpl; apply (sum_masked g mask rs)). rewrite S1.
  assert (Mz : mask zs = true). { apply Hm. destruct Iz as (_ & Ez). rewrite Ez. replace (w - w)%C with (RtoC 0) by ring. now rewrite Cmod_0. }
  assert (S : sumR (map g (filter mask rs)) = g zs + sumR (map g (filter mask (l1 ++ l2)))). { rewrite E, !filter_app. cbn [filter]. rewrite Mz, !map_app, !sumR_app. cbn [map sumR]. lra. }
  rewrite S. assert (Gz : 1 <= g zs <= 1 + eps / 2).
  { unfold g. rewrite Rabs_pos_eq by lra. assert (Q1 : det zs * / det zs = 1) by (apply Rinv_r; lra). unfold Rdiv. rewrite Rmult_1_l. assert (P1 : 0 < / det zs) by (apply Rinv_0_lt_compat; lra). split; [nra|].
    apply Rmult_le_reg_r with (det zs); [lra|]. rewrite Rmult_comm, Q1. assert (1 - eps / 4 <= det zs) by (rewrite Hd; lra). destruct (Rle_lt_dec eps 1) as [|G1]; nra. }
  assert (T0 : 0 <= sumR (map g (filter mask (l1 ++ l2)))). { apply sumR_nonneg. intros x Hx. apply in_map_iff in Hx as (y & <- & _). apply inv_abs_nonneg. }
  assert (T1 : sumR (map g (filter mask (l1 ++ l2))) <= INR (length (filter mask (l1 ++ l2))) * (eps / (2 * (INR N + 1)))).
  { apply sum_le_const. intros x Hx. apply filter_In in Hx as (Hx & Mx). apply Hm in Mx. assert (Hx' : In x rs) by (rewrite E; apply in_app_or in Hx; apply in_or_app; cbn; tauto). destruct (Hr x Hx') as (Ox & Fx).
    destruct (U x Ox Fx Mx) as [->|Big]; [contradiction|]. unfold g. assert (Dx : Q <= - det x) by (rewrite Hd; nra). rewrite Rabs_left by lra.
    replace (eps / (2 * (INR N + 1))) with (1 / (2 * (INR N + 1) / eps)) by (field; lra). apply Rmult_le_compat_l; [lra|]. apply Rinv_le_contravar; [auto|]. unfold Q in Dx. lra. }
  assert (Ln : INR (length (filter mask (l1 ++ l2))) <= INR N). { apply le_INR. pose proof (filter_length_le' mask (l1 ++ l2)) as F. apply (f_equal (@length C)) in E. rewrite app_length in *. cbn in E. lia. }
  assert (INR (length (filter mask (l1 ++ l2))) * (eps / (2 * (INR N + 1))) <= eps / 2).
  { assert (0 < eps / (2 * (INR N + 1))) by (apply Rdiv_lt_0_compat; lra). apply Rle_trans with ((INR N + 1) * (eps / (2 * (INR N + 1)))); [apply Rmult_le_compat_r; lra|]. right. field. lra. }
  lra.
Qed.

(** ** two lenses *)
Lemma conj_deflection2 (a e1 : R) (w z : C) : zeta2 w a e1 z = Cconj (w + deflection (binary_mid a e1) z).
Proof.
  unfold zeta2, binary_mid. rewrite !deflection_cons. cbn [deflection]. autorewrite with cconj. rewrite RtoC_opp. replace (z - - RtoC a)%C with (z + a)%C by ring. ring.
Qed.
Lemma iterate2 (a e1 : R) (w z : C) : off_masses (binary_mid a e1) z -> peval (poly_coeffs_binary w a e1) z = RtoC 0 ->
  off_masses (binary_mid a e1) (w + deflection (binary_mid a e1) z)%C ->
  z = (w + deflection (binary_mid a e1) (w + deflection (binary_mid a e1) z))%C.
Proof.
  intros O E O'. apply off_binary in O as (N1 & N2). rewrite binary_poly_id in E by auto. rewrite conj_deflection2 in E. set (u := (w + deflection (binary_mid a e1) z)%C) in *.
  apply off_binary in O' as (M1 & M2). destruct (conj_pm _ _ M1 M2) as (K1 & K2).
  assert (Z : ((z ^ 2 - RtoC a ^ 2) ^ 2)%C <> RtoC 0). { apply Cpow_neq0. replace (z ^ 2 - RtoC a ^ 2)%C with ((z - a) * (z + a))%C by ring. now apply Cmult_neq_0. }
  match type of E with (?x * ?y)%C = _ => assert (E' : y = RtoC 0) by (apply Cmult_integral in E; destruct E; [contradiction|auto]) end.
  unfold binary_mid. rewrite !deflection_cons. cbn [deflection]. autorewrite with cconj. rewrite RtoC_opp. replace (Cconj u - - RtoC a)%C with (Cconj u + a)%C by ring.
  apply Cminus_eq_0. replace (z - (w + (RtoC e1 / (Cconj u - a) + (RtoC (1 - e1) / (Cconj u + a) + RtoC 0))))%C
    with (((z - w) * (Cconj u ^ 2 - RtoC a ^ 2) - e1 * (Cconj u + a) - (1 - e1)%R * (Cconj u - a)) / ((Cconj u - a) * (Cconj u + a)))%C by (field; auto).
  rewrite E'. field. auto.
Qed.
Lemma shear_det2 (a e1 : R) z : det_jac2 a e1 z = 1 - Cmod (shear (binary_mid a e1) z) * Cmod (shear (binary_mid a e1) z).
Proof. rewrite det_jac2_shear. apply det_jac_of. Qed.

Theorem binary_far s q eps : s <> 0 -> 0 < q -> 0 < eps -> exists R0, forall poly_roots w p, R0 <= Cmod w ->
  (let cs := poly_coeffs_binary (w - RtoC (x_cm (0.5 * s) q))%C (0.5 * s) (q / (1 + q)) in splits cs (poly_roots cs None)) ->
  p_s p = Some s -> p_q p = Some q -> exists A, mag_point_source poly_roots 2 p w = Ok A /\ 1 <= A <= 1 + eps.
Proof.
  intros Hs Hq He. set (a := 0.5 * s). set (e1 := q / (1 + q)). set (c := RtoC (x_cm a q)). pose proof (e1_range q Hq) as H1. fold e1 in H1. set (L := binary_mid a e1).
  assert (P : positive L). { intros m p0 [E|[E|[]]]; injection E as <- <-; lra. }
  assert (D : distinct L). { unfold distinct, L, binary_mid. cbn. constructor; [intros [E|[]]; apply RtoC_inj in E; unfold a in E; lra|]. constructor; [intros []|constructor]. }
  destruct (far_sum L 1e-6 5 eps P D ltac:(lra) He) as (R0 & F). destruct (P_ShootLimit.far_masses (binary_lens s q)) as (R1 & HR1 & Far).
  exists (R0 + Cmod c + R1 + Rabs R0). intros pr w p Hw Hsol Es Eq. cbv zeta in Hsol. fold a e1 c in Hsol. set (cs := poly_coeffs_binary (w - c)%C a e1) in *.
  pose proof (Cmod_ge_0 c) as C0. pose proof (Rabs_pos R0). pose proof (Rle_abs (- R0)) as AR. rewrite Rabs_Ropp in AR.
  assert (Hoff : off_lens_positions (binary_lens s q) w) by (apply Far; lra).
  assert (Hw' : R0 <= Cmod (w - c)%C). { pose proof (Cmod_triangle (w - c)%C c) as T. replace (w - c + c)%C with w in T by ring. lra. }
  assert (N0 : hd (RtoC 0) cs <> RtoC 0) by (apply (p0_neq s q w Hq Hoff)).
  unfold mag_point_source; simpl. rewrite Es, Eq; simpl. eexists. split; [reflexivity|]. fold a e1 c. unfold images2. fold cs.
  apply (F (w - c)%C (pr cs None) (fun z => Rltb (Cmod (lens_eq2 a e1 z - (w - c))%C) 1e-6) (det_jac2 a e1)); auto.
  - rewrite (splits_length cs (pr cs None) N0 Hsol). cbn. lia.
  - intros z. apply shear_det2.
  - intros z. rewrite Rltb_true, lens_eq2_map. reflexivity.
  - intros z Hz. apply (splits_root _ _ _ Hsol N0). now apply binary_image_is_root.
  - intros z Hz. assert (Oz : off_masses L z) by (apply (binary_roots_off pr s q w Hs Hq Hoff Hsol); exact Hz). split; auto. apply iterate2; auto. apply (splits_root _ _ _ Hsol N0). auto.
  - intros z Iz Nz. apply (binary_det_neq0 pr s q w Hsol z (det_jac2 a e1 z)); auto.
Qed.

(** ** three lenses *)
Lemma shear_det3 (a r3 psi e1 e2 : R) z : det_jac3 a r3 psi e1 e2 z = 1 - Cmod (shear (triple_mid a e1 e2 (third_lens r3 psi)) z) * Cmod (shear (triple_mid a e1 e2 (third_lens r3 psi)) z).
Proof. rewrite det_jac3_shear. apply det_jac_of. Qed.
Lemma iterate3 (a e1 e2 r3 psi : R) (w z : C) : let p3 := third_lens r3 psi in let L := triple_mid a e1 e2 p3 in let sh := triple_shift_cm a p3 e1 e2 in
  off_masses L z -> peval (triple_cm_body (w - sh)%C (- RtoC a - sh)%C (RtoC a - sh)%C (p3 - sh)%C e2 e1 (1 - e1 - e2)) (z - sh)%C = RtoC 0 ->
  off_masses L (w + deflection L z)%C -> z = (w + deflection L (w + deflection L z))%C.
Proof.
  intros p3 L sh O E O'. apply off_triple in O as (N1 & N2 & N3). set (u := (w + deflection L z)%C) in *. apply off_triple in O' as (M1 & M2 & M3).
  assert (K1 : Cconj (u - a)%C <> RtoC 0) by now apply Cconj_neq0. assert (K2 : Cconj (u + a)%C <> RtoC 0) by now apply Cconj_neq0. assert (K3 : Cconj (u - p3)%C <> RtoC 0) by now apply Cconj_neq0.
  assert (Z1 : (z - sh - (- RtoC a - sh))%C = (z + a)%C) by ring. assert (Z2 : (z - sh - (RtoC a - sh))%C = (z - a)%C) by ring. assert (Z3 : (z - sh - (p3 - sh))%C = (z - p3)%C) by ring.
  rewrite (triple_poly_zeta (w - sh)%C (- RtoC a - sh)%C (RtoC a - sh)%C (p3 - sh)%C e2 e1 (1 - e1 - e2) (triple_Hm e1 e2) (triple_Hcm a e1 e2 r3 psi) (z - sh)%C) in E by (rewrite ?Z1, ?Z2, ?Z3; auto).
  rewrite Z1, Z2, Z3 in E. rewrite polyH_fact, Z1, Z2, Z3 in E.
  set (t := (RtoC e2 / (z + a) + RtoC e1 / (z - a) + RtoC (1 - e1 - e2) / (z - p3))%C) in E.
  assert (Et : t = Cconj (deflection L z)).
  { unfold t, L, triple_mid. rewrite !deflection_cons. cbn [deflection]. autorewrite with cconj. rewrite RtoC_opp. replace (z - - RtoC a)%C with (z + a)%C by ring. ring. }
  assert (W1 : (Cconj (w - sh - (- RtoC a - sh)) + t)%C = Cconj (u + a)%C) by (replace (w - sh - (- RtoC a - sh))%C with (w + a)%C by ring; rewrite Et; unfold u; autorewrite with cconj; ring).
  assert (W2 : (Cconj (w - sh - (RtoC a - sh)) + t)%C = Cconj (u - a)%C) by (replace (w - sh - (RtoC a - sh))%C with (w - a)%C by ring; rewrite Et; unfold u; autorewrite with cconj; ring).
  assert (W3 : (Cconj (w - sh - (p3 - sh)) + t)%C = Cconj (u - p3)%C) by (replace (w - sh - (p3 - sh))%C with (w - p3)%C by ring; rewrite Et; unfold u; autorewrite with cconj; ring).
  rewrite W1, W2, W3 in E. replace (z - sh - (w - sh))%C with (z - w)%C in E by ring.
  apply Cmult_integral in E as [E|E]; [exfalso; revert E; apply Cpow_neq0; repeat apply Cmult_neq_0; auto|].
  assert (Ed : deflection L u = (RtoC e1 / Cconj (u - a)%C + RtoC e2 / Cconj (u + a)%C + RtoC (1 - e1 - e2) / Cconj (u - p3)%C)%C).
  { unfold L, triple_mid. rewrite !deflection_cons. cbn [deflection]. rewrite RtoC_opp. replace (u - - RtoC a)%C with (u + a)%C by ring. ring. }
  rewrite Ed. set (k1 := Cconj (u - a)%C) in *. set (k2 := Cconj (u + a)%C) in *. set (k3 := Cconj (u - p3)%C) in *. clearbody k1 k2 k3. apply Cminus_eq_0.
  match type of E with ?x = _ => replace (z - (w + (RtoC e1 / k1 + RtoC e2 / k2 + RtoC (1 - e1 - e2) / k3)))%C with (x / (k1 * k2 * k3))%C by (field; auto) end.
  rewrite E. field. auto.
Qed.
Theorem triple_far s q q3 r3 psi eps : s <> 0 -> 0 < q -> 0 < q3 -> from_midpoint s q r3 psi <> RtoC (- s * q / (1 + q)) -> from_midpoint s q r3 psi <> RtoC (s / (1 + q)) -> 0 < eps ->
  exists R0, forall poly_roots w p, R0 <= Cmod w ->
  (let cs := fst (poly_coeffs_triple_CM (w - RtoC (x_cm (0.5 * s) q))%C (0.5 * s) (third_lens r3 psi) (q / (1 + q + q3)) (1 / (1 + q + q3))) in splits cs (poly_roots cs None)) ->
  p_s p = Some s -> p_q p = Some q -> p_q3 p = Some q3 -> p_r3 p = Some r3 -> p_psi p = Some psi ->
  exists A, mag_point_source poly_roots 3 p w = Ok A /\ 1 <= A <= 1 + eps.
Proof.
  intros Hs Hq Hq3 Hp Hp' He. set (a := 0.5 * s). set (e1 := q / (1 + q + q3)). set (e2 := 1 / (1 + q + q3)). set (c := RtoC (x_cm a q)). set (p3 := third_lens r3 psi). destruct (te q q3 Hq Hq3) as (H1 & H2 & H3). fold e1 e2 in H1, H2, H3.
  destruct (tp3 s q r3 psi Hq Hp Hp') as (Q1 & Q2). fold a p3 in Q1, Q2. assert (Ha : a <> 0) by (unfold a; lra). set (L := triple_mid a e1 e2 p3).
  assert (P : positive L). { intros m p0 [E|[E|[E|[]]]]; injection E as <- <-; lra. }
  assert (D : distinct L).
  { unfold distinct, L, triple_mid. cbn. constructor; [intros [E|[E|[]]]|constructor; [intros [E|[]]|constructor; [intros []|constructor]]].
    - apply RtoC_inj in E. lra. - apply Q1. rewrite E. ring. - apply Q2. rewrite E, RtoC_opp. ring. }
  destruct (far_sum L 1e-3 10 eps P D ltac:(lra) He) as (R0 & F). destruct (P_ShootLimit.far_masses (triple_lens s q q3 (from_midpoint s q r3 psi))) as (R1 & HR1 & Far).
  exists (R0 + Cmod c + R1 + Rabs R0). intros pr w p Hw Hsol Es Eq E3 Er Ep. cbv zeta in Hsol. fold a e1 e2 c p3 in Hsol. set (cs := fst (poly_coeffs_triple_CM (w - c)%C a p3 e1 e2)) in *.
  pose proof (Cmod_ge_0 c) as C0. pose proof (Rabs_pos R0). pose proof (Rle_abs (- R0)) as AR. rewrite Rabs_Ropp in AR.
  assert (Hoff : off_lens_positions (triple_lens s q q3 (from_midpoint s q r3 psi)) w) by (apply Far; lra).
  assert (Hw' : R0 <= Cmod (w - c)%C). { pose proof (Cmod_triangle (w - c)%C c) as T. replace (w - c + c)%C with w in T by ring. lra. }
  assert (N0 : hd (RtoC 0) cs <> RtoC 0) by (apply (tp0 s q q3 r3 psi w Hq Hq3 Hoff)).
  set (sh := snd (poly_coeffs_triple_CM (w - c)%C a p3 e1 e2)). set (rs := map (fun r => (r + sh)%C) (pr cs None)).
  unfold mag_point_source; simpl. rewrite Es, Eq, E3, Er, Ep; simpl. eexists. split; [reflexivity|].
  change (images3 pr _ _ _ _ _ _) with (rs, map (fun zi => Rltb (Cmod (lens_eq3 a r3 psi e1 e2 zi - (w - c))%C) 1e-3) rs).
  apply (F (w - c)%C rs (fun z => Rltb (Cmod (lens_eq3 a r3 psi e1 e2 z - (w - c))%C) 1e-3) (det_jac3 a r3 psi e1 e2)); auto.
  - unfold rs. rewrite map_length, (splits_length cs (pr cs None) N0 Hsol). cbn. lia.
  - intros z. apply shear_det3.
  - intros z. rewrite Rltb_true, lens_eq3_map. reflexivity.
  - intros z Hz. apply (t_in pr s q q3 r3 psi w Hq Hq3 Hoff Hsol). now apply triple_image_root_body.
  - intros z Hz. assert (Oz : off_masses L z) by (apply (t_off pr s q q3 r3 psi w Hs Hq Hq3 Hp Hp' Hoff Hsol); exact Hz). split; auto.
    intros O'. apply iterate3; auto. apply (t_in pr s q q3 r3 psi w Hq Hq3 Hoff Hsol) in Hz. exact Hz.
  - intros z Iz Nz. apply (t_once pr s q q3 r3 psi w Hsol z (det_jac3 a r3 psi e1 e2 z)); auto.
Qed.
