(** Proofs: the derivative transforms are derivatives of the trigonometric interpolant. *)
From Coq Require Import Reals List Bool Arith ZArith Lia Lra.
From Coquelicot Require Import Coquelicot.
From Verif Require Import Base_R Base_C Base_List M_Fftlog M_Kernels S_Fftlog P_Fftlog P_FftConv P_Kernels.
Import ListNotations.
Local Open Scope R_scope.

(** ** derivative of a combination of powers *)
Lemma cpw_derive (a : C) p q y : 0 < y ->
  is_derive (fun y => Re (a * cpw y (p, q))%C) y (Re (a * (p, q) * cpw y (p - 1, q)%R)%C).
Proof.
  intros Hy. assert (E : forall y, Re (a * cpw y (p, q))%C = Rpower y p * (Re a * cos (q * ln y) - Im a * sin (q * ln y))) by (intros; destruct a; unfold cpw, cexpi; simpl; ring).
  apply (is_derive_ext (fun y => Rpower y p * (Re a * cos (q * ln y) - Im a * sin (q * ln y)))); [intros; symmetry; apply E|].
  assert (D : is_derive (fun y => Rpower y p) y (p * Rpower y (p - 1))) by (apply is_derive_Reals, derivable_pt_lim_power; auto).
  assert (Dl : is_derive ln y (/ y)) by (apply is_derive_Reals, derivable_pt_lim_ln; auto).
  assert (D2 : is_derive (fun y => Re a * cos (q * ln y) - Im a * sin (q * ln y)) y (- (Re a * sin (q * ln y) + Im a * cos (q * ln y)) * (q * / y))).
  { assert (Dq : is_derive (fun y => q * ln y) y (q * / y)) by (apply (is_derive_scal ln y q (/ y) Dl)).
    assert (Dc : is_derive (fun y => cos (q * ln y)) y (q * / y * - sin (q * ln y))) by (apply (is_derive_comp cos (fun y => q * ln y) y); auto; apply is_derive_Reals; apply derivable_pt_lim_cos).
    assert (Ds : is_derive (fun y => sin (q * ln y)) y (q * / y * cos (q * ln y))) by (apply (is_derive_comp sin (fun y => q * ln y) y); auto; apply is_derive_Reals; apply derivable_pt_lim_sin).
    replace (- (Re a * sin (q * ln y) + Im a * cos (q * ln y)) * (q * / y)) with (Re a * (q * / y * - sin (q * ln y)) - Im a * (q * / y * cos (q * ln y))) by ring.
    apply (is_derive_minus (fun y => Re a * cos (q * ln y)) (fun y => Im a * sin (q * ln y))).
    - apply (is_derive_scal (fun y => cos (q * ln y))); auto.
    - apply (is_derive_scal (fun y => sin (q * ln y))); auto. }
  pose proof (is_derive_mult (fun y => Rpower y p) (fun y => Re a * cos (q * ln y) - Im a * sin (q * ln y)) y _ _ D D2 ltac:(intros; apply Rmult_comm)) as M.
  replace (Re (a * (p, q) * cpw y (p - 1, q)%R)%C) with
    (p * Rpower y (p - 1) * (Re a * cos (q * ln y) - Im a * sin (q * ln y)) + Rpower y p * (- (Re a * sin (q * ln y) + Im a * cos (q * ln y)) * (q * / y))); [exact M|].
  assert (Ep : Rpower y p = y * Rpower y (p - 1)) by (rewrite <- (Rpower_1 y) at 2 by auto; rewrite <- Rpower_plus; f_equal; ring).
  rewrite Ep. destruct a as [a b]. unfold cpw, cexpi. simpl. field. lra.
Qed.
Lemma sum_derive {A} (f f' : A -> R -> R) l y : (forall a, is_derive (f a) y (f' a y)) ->
  is_derive (fun y => sumR (map (fun a => f a y) l)) y (sumR (map (fun a => f' a y) l)).
Proof.
  intros H. induction l as [|a l IH]; cbn [map sumR].
  - apply (is_derive_const 0 y).
  - apply (is_derive_plus (f a) (fun y => sumR (map (fun a => f a y) l))); auto.
Qed.
Lemma power_sum_derive a nu eta L y : 0 < y ->
  is_derive (power_sum a nu eta L) y (power_sum (fun m => - (nu, eta * INR m)%R * a m)%C (nu + 1) eta L y).
Proof.
  intros Hy. unfold power_sum.
  assert (Q : forall m, is_derive (fun y => Re (a m * cpw y (- nu, - (eta * INR m))%R)%C) y (Re (a m * (- nu, - (eta * INR m))%R * cpw y (- nu - 1, - (eta * INR m))%R)%C)) by (intros; apply cpw_derive; auto).
  pose proof (sum_derive (fun m y => Re (a m * cpw y (- nu, - (eta * INR m))%R)%C) (fun m y => Re (a m * (- nu, - (eta * INR m))%R * cpw y (- nu - 1, - (eta * INR m))%R)%C) (seq 0 (S L)) y Q) as D.
  cbv beta in D. rewrite (sumR_ext _ (fun m => Re (- (nu, eta * INR m)%R * a m * cpw y (- (nu + 1), - (eta * INR m))%R)%C)) in D; [exact D|].
  intros m _. f_equal. replace (- (nu + 1)) with (- nu - 1) by ring. f_equal. apply Ceq; simpl; ring.
Qed.

(** ** the output of a transform as a combination of powers *)
Definition weight (L m : nat) : R := (if ((m =? 0) || (m =? L))%nat%bool then 1 else 2) / INR (2 * L).
Lemma halfsum_weight L T : (0 < L)%nat -> halfsum L T = sumR (map (fun m => weight L m * T m) (seq 0 (S L))).
Proof.
  intros HL. assert (0 < INR (2 * L)) by (apply lt_0_INR; lia). unfold halfsum. rewrite seq_S, map_app, sumR_app. cbn [map sumR]. rewrite Nat.add_0_l.
  replace (seq 0 L) with (0%nat :: seq 1 (L - 1)) by (destruct L; [lia|]; simpl; rewrite Nat.sub_0_r; auto). cbn [map sumR].
  rewrite (sumR_ext (fun m => weight L m * T m) (fun m => 2 / INR (2 * L) * T m) (seq 1 (L - 1))).
  2: { intros m Hm. apply in_seq in Hm. unfold weight. destruct (Nat.eqb_spec m 0), (Nat.eqb_spec m L); try lia. reflexivity. }
  rewrite sumR_map_scal. unfold weight. rewrite !Nat.eqb_refl, orb_true_r. cbn [orb]. field. lra.
Qed.
Definition pcoef (g : C -> C) nu width x0 r L (F : list R) (m : nat) : C :=
  let eta := 2 * PI / (INR (2 * L) * ln r) * INR m in
  (RtoC (weight L m * (sqrt PI / 4) * match c_window L (cut_of width (2 * L)) m with Some w => w | None => 0 end) *
   rfft (fbv nu x0 r L F) m * cexpi (- (eta * ln x0)) * g (nu, eta))%C.
Lemma series_val g nu width ell x0 r L (F : list R) : 0 < x0 -> 0 < r -> r <> 1 -> 0 < ell + 1 -> (0 < L)%nat -> length F = (2 * L)%nat -> cut_of width (2 * L) <> 1%nat ->
  exists s Fo, fftlog_init (geom x0 r (2 * L)) (map Some F) 0 0 0 = Ok s /\ f_dlnx s = Some (ln r) /\ f_N s = (2 * L)%nat /\
  fftlog g nu width ell s = (slice s (y_array ell s), map Some Fo) /\ length Fo = (2 * L)%nat /\
  forall j, (j < 2 * L)%nat -> let yj := (ell + 1) / (x0 * Rpower r (INR (2 * L - 1 - j))) in
    0 < yj /\ nth j (slice s (y_array ell s)) None = Some yj /\ nth j Fo 0 = power_sum (pcoef g nu width x0 r L F) nu (2 * PI / (INR (2 * L) * ln r)) L yj.
Proof.
  intros Hx Hr Hr1 Hell HL HF Hcut. destruct (init_plain x0 r L F Hx Hr HL HF) as (s & E & Sx & Sf & SN & Sd & Sl).
  set (V := fun j => power_sum (pcoef g nu width x0 r L F) nu (2 * PI / (INR (2 * L) * ln r)) L ((ell + 1) / (x0 * Rpower r (INR (2 * L - 1 - j))))).
  assert (Ly : length (y_array ell s) = (2 * L)%nat) by (rewrite y_array_length, Sx, geom_length; auto).
  assert (LF : length (Fy_array g nu width ell s) = (2 * L)%nat) by (rewrite Fy_length; auto).
  exists s, (map V (seq 0 (2 * L))). repeat (split; [assumption|]).
  assert (HV : Fy_array g nu width ell s = map Some (map V (seq 0 (2 * L)))).
  { apply (list_eq_nth None); [rewrite LF, !map_length, seq_length; auto|]. intros j Hj. rewrite LF in Hj. rewrite (nth_map_lt Some _ j 0) by (rewrite map_length, seq_length; auto).
    rewrite (nth_map_lt V _ j O) by (rewrite seq_length; auto). rewrite seq_nth, Nat.add_0_l by auto.
    rewrite (Fy_val g nu width ell x0 r L F s) by auto. f_equal. unfold V, power_sum. rewrite irfft_halfsum, halfsum_weight by auto.
    rewrite Rmult_assoc, Rmult_comm, <- sumR_map_scal. apply sumR_ext. intros m Hm. apply in_seq in Hm.
    pose proof (xv_pos x0 r Hx (2 * L - 1 - j)) as X1. pose proof (xv_pos x0 r Hx (2 * L - 1 - 0)) as X0.
    set (yj := (ell + 1) / (x0 * Rpower r (INR (2 * L - 1 - j)))). set (y0 := (ell + 1) / (x0 * Rpower r (INR (2 * L - 1 - 0)))). fold y0 in X0 |- *.
    assert (Yj : 0 < yj) by (apply Rdiv_lt_0_compat; auto). assert (Y0 : 0 < y0) by (apply Rdiv_lt_0_compat; auto).
    unfold cpw. cbn [Re Im fst snd]. set (eta := 2 * PI / (INR (2 * L) * ln r) * INR m). unfold pcoef. fold eta.
    set (W := match c_window L (cut_of width (2 * L)) m with Some w => w | None => 0 end). set (rf := rfft (fbv nu x0 r L F) m). set (gz := g (nu, eta)).
    assert (EL : - eta * ln yj = - (eta * ln y0) - 2 * PI * INR m * INR j / INR (2 * L)).
    { unfold yj, y0, Rdiv. rewrite !ln_mult by (auto; apply Rinv_0_lt_compat; auto). rewrite !ln_Rinv by auto. rewrite !(ln_xv x0 r Hx).
      rewrite !minus_INR by lia. simpl (INR 0). unfold eta. pose proof (lnr_neq r Hr Hr1). assert (0 < INR (2 * L)) by (apply lt_0_INR; lia). field. lra. }
    rewrite EL. rewrite ln_mult by auto. set (th := 2 * PI * INR m * INR j / INR (2 * L)). set (P := Rpower yj (- nu)).
    rewrite <- (Re_conj (Cconj _ * cexpi th)%C). rewrite Cconj_mult, Cconj_conj, Cconj_cexpi.
    rewrite <- !Re_scal. f_equal. unfold Rminus. replace (- (eta * (ln x0 + ln y0))) with (- (eta * ln x0) + - (eta * ln y0)) by ring. rewrite !cexpi_add, !RtoC_mult. ring. }
  split; [unfold fftlog; rewrite !Sl, HV; auto; rewrite <- HV; auto|]. split; [rewrite map_length, seq_length; auto|].
  intros j Hj yj. split; [apply Rdiv_lt_0_compat; auto; apply xv_pos; auto|]. split.
  - rewrite Sl by auto. apply (yarr_nth width ell x0 r L F s); auto.
  - rewrite (nth_map_lt V _ j O) by (rewrite seq_length; auto). rewrite seq_nth, Nat.add_0_l by auto. reflexivity.
Qed.
Definition kval (K : C -> option C) (z : C) : C := match K z with Some v => v | None => RtoC 0 end.
Lemma with_val K nu width ell s : f_dlnx s <> Some 0 -> f_dlnx s <> None -> (forall t, K (nu, t) <> None) -> fftlog_with K nu width ell s = fftlog (kval K) nu width ell s.
Proof.
  intros H0 H1 HK. unfold fftlog_with. destruct (f_dlnx s) as [d|]; [|contradiction]. destruct (Reqb_spec d 0); [subst; contradiction|].
  rewrite all_c_some by (intros; apply HK). reflexivity.
Qed.
Lemma times_nth x f i : (i < length x)%nat -> length f = length x -> nth i (times x f) 0 = nth i x 0 * nth i f 0.
Proof.
  intros Hi Hl. unfold times. rewrite (nth_map_lt _ _ i (0, 0)) by (rewrite combine_length; lia). rewrite combine_nth by auto. reflexivity.
Qed.
Lemma times_length x f : length f = length x -> length (times x f) = length x.
Proof. intros H. unfold times. rewrite map_length, combine_length. lia. Qed.
Lemma geom_len x0 r n : length (rgeom x0 r n) = n. Proof. unfold rgeom. rewrite map_length, seq_length. reflexivity. Qed.
Lemma derivative K0 K1 nu width ell x0 r L (F : list R) : (forall t, K0 (nu, t) <> None) -> (forall t, K1 (nu + 1, t)%R = option_map (fun v => - (nu, t) * v)%C (K0 (nu, t))) ->
  0 < x0 -> 0 < r -> r <> 1 -> 0 < ell + 1 -> (0 < L)%nat -> length F = (2 * L)%nat -> cut_of width (2 * L) <> 1%nat ->
  exists s s1 y Fo F1 a, fftlog_init (geom x0 r (2 * L)) (map Some F) 0 0 0 = Ok s /\
    fftlog_init (geom x0 r (2 * L)) (map Some (times (rgeom x0 r (2 * L)) F)) 0 0 0 = Ok s1 /\
    fftlog_with K0 nu width ell s = (map Some y, map Some Fo) /\ fftlog_with K1 (nu + 1) width ell s1 = (map Some y, map Some F1) /\
    length y = (2 * L)%nat /\ length Fo = (2 * L)%nat /\ length F1 = (2 * L)%nat /\
    forall j, (j < 2 * L)%nat -> let phi := power_sum a nu (2 * PI / (INR (2 * L) * ln r)) L in
      nth j y 0 = (ell + 1) / (x0 * Rpower r (INR (2 * L - 1 - j))) /\ nth j Fo 0 = phi (nth j y 0) /\ is_derive phi (nth j y 0) (nth j F1 0).
Proof.
  intros HK H1 Hx Hr Hr1 Hell HL HF Hcut. set (X := rgeom x0 r (2 * L)). assert (LX : length X = (2 * L)%nat) by apply geom_len.
  assert (LX1 : length (times X F) = (2 * L)%nat) by (rewrite times_length; congruence).
  destruct (series_val (kval K0) nu width ell x0 r L F Hx Hr Hr1 Hell HL HF Hcut) as (s & Fo & E & Ed & EN & EF & LF & V).
  destruct (series_val (kval K1) (nu + 1) width ell x0 r L (times X F) Hx Hr Hr1 Hell HL LX1 Hcut) as (s1 & F1 & E1 & Ed1 & EN1 & EF1 & LF1 & V1).
  pose proof (lnr_neq r Hr Hr1) as Hln.
  assert (Z : forall q, f_dlnx q = Some (ln r) -> f_dlnx q <> Some 0 /\ f_dlnx q <> None) by (intros q ->; split; [congruence|discriminate]).
  assert (HK1 : forall t, K1 (nu + 1, t)%R <> None) by (intros t; rewrite H1; specialize (HK t); destruct (K0 (nu, t)); [discriminate|contradiction]).
  set (y := map (fun j => (ell + 1) / (x0 * Rpower r (INR (2 * L - 1 - j)))) (seq 0 (2 * L))).
  assert (Ny : forall j, (j < 2 * L)%nat -> nth j y 0 = (ell + 1) / (x0 * Rpower r (INR (2 * L - 1 - j)))) by (intros j Hj; unfold y; rewrite (nth_map_lt _ _ j O) by (rewrite seq_length; auto); rewrite seq_nth by auto; reflexivity).
  assert (Ly : length y = (2 * L)%nat) by (unfold y; rewrite map_length, seq_length; auto).
  assert (SY : forall q, f_N q = (2 * L)%nat -> length (slice q (y_array ell q)) = (2 * L)%nat -> (forall j, (j < 2 * L)%nat -> nth j (slice q (y_array ell q)) None = Some ((ell + 1) / (x0 * Rpower r (INR (2 * L - 1 - j))))) -> slice q (y_array ell q) = map Some y).
  { intros q HN Hq HV. apply (list_eq_nth None); [rewrite map_length; congruence|]. intros j Hj. rewrite Hq in Hj. rewrite HV by auto. rewrite (nth_map_lt Some y j 0) by congruence. rewrite Ny by auto. reflexivity. }
  assert (LS : forall F0 q, length F0 = (2 * L)%nat -> fftlog_init (geom x0 r (2 * L)) (map Some F0) 0 0 0 = Ok q -> length (slice q (y_array ell q)) = (2 * L)%nat).
  { intros F0 q HF0 Hq. destruct (init_plain x0 r L F0 Hx Hr HL HF0) as (q' & Eq & Sx & _ & _ & _ & Sl). rewrite Hq in Eq. injection Eq as <-.
    assert (length (y_array ell q) = (2 * L)%nat) by (rewrite y_array_length, Sx, geom_length; auto). rewrite Sl; auto. }
  exists s, s1, y, Fo, F1, (pcoef (kval K0) nu width x0 r L F). split; [exact E|]. split; [exact E1|]. split; [|split; [|split; [exact Ly|split; [exact LF|split; [exact LF1|]]]]].
  - rewrite with_val by (auto; apply Z; auto). rewrite EF. f_equal. apply SY; auto; [apply (LS F); auto|intros; apply V; auto].
  - rewrite with_val by (auto; apply Z; auto). rewrite EF1. f_equal. apply SY; auto; [apply (LS (times X F)); auto|intros; apply V1; auto].
  - intros j Hj phi. split; [apply Ny; auto|]. rewrite Ny by auto. destruct (V j Hj) as (Yp & _ & ->). split; [reflexivity|]. destruct (V1 j Hj) as (_ & _ & ->).
    set (yj := (ell + 1) / (x0 * Rpower r (INR (2 * L - 1 - j)))). fold yj in Yp.
    replace (power_sum (pcoef (kval K1) (nu + 1) width x0 r L (times X F)) (nu + 1) (2 * PI / (INR (2 * L) * ln r)) L yj) with
      (power_sum (fun m => - (nu, 2 * PI / (INR (2 * L) * ln r) * INR m)%R * pcoef (kval K0) nu width x0 r L F m)%C (nu + 1) (2 * PI / (INR (2 * L) * ln r)) L yj); [apply power_sum_derive; auto|].
    unfold power_sum. apply sumR_ext. intros m Hm. do 2 f_equal. unfold pcoef. cbv zeta.
    replace (fbv (nu + 1) x0 r L (times X F)) with (fbv nu x0 r L F).
    2: { unfold fbv. apply map_ext_in. intros i Hi. apply in_seq in Hi. rewrite times_nth by (rewrite ?LX; lia || congruence). unfold X, rgeom. rewrite (nth_map_lt _ _ i O) by (rewrite seq_length; lia). rewrite seq_nth by lia. rewrite Nat.add_0_l.
      assert (P : 0 < x0 * Rpower r (INR i)) by (apply xv_pos; auto). set (xi := x0 * Rpower r (INR i)) in *.
      replace (- (nu + 1)) with (- nu + - (1)) by ring. rewrite Rpower_plus, (Rpower_Ropp xi 1), Rpower_1 by auto. field. lra. }
    set (eta := 2 * PI / (INR (2 * L) * ln r) * INR m). unfold kval. rewrite H1. specialize (HK eta). destruct (K0 (nu, eta)) as [v|]; [|contradiction]. cbn [option_map]. ring.
Qed.
(** ** where the kernels are numbers *)
Lemma kernel_defined ell nu t : 0 < ell + nu -> nu < ell + 3 -> g_l gamma_ ell (nu, t) <> None.
Proof.
  intros H1 H2. unfold g_l. assert (Q : g_m_vals gamma_ (ell + 0.5) ((nu, t) - RtoC 1.5)%C <> None); [|destruct (g_m_vals gamma_ (ell + 0.5) ((nu, t) - RtoC 1.5)%C); [discriminate|contradiction]].
  unfold g_m_vals. cbv zeta. set (q := ((nu, t) - RtoC 1.5)%C).
  set (ap := ((RtoC (ell + 0.5 + 1) + q) / RtoC 2)%C). set (am := ((RtoC (ell + 0.5 + 1) - q) / RtoC 2)%C).
  assert (Ap : 0 < Re ap) by (unfold ap, q; simpl; lra). assert (Am : 0 < Re am) by (unfold am, q; simpl; lra).
  destruct (_ && _)%bool; [discriminate|]. destruct (Rltb 200 _).
  - unfold stirling_ratio. destruct (clog_some ap (Re_pos_neq0 ap Ap)) as (l & -> & _). destruct (clog_some am (Re_pos_neq0 am Am)) as (l' & -> & _). discriminate.
  - destruct (gamma_conj ap Ap) as (v & -> & _). destruct (gamma_conj am Am) as (v' & -> & _ & N). cbn [cbind]. rewrite cinv_some by auto. discriminate.
Qed.
Lemma parts_1 gamma ell nu t : g_l_1 gamma ell (nu + 1, t)%R = option_map (fun v => - (nu, t) * v)%C (g_l gamma ell (nu, t)).
Proof. rewrite g_l_1_parts. replace ((nu + 1, t)%R - RtoC 1)%C with ((nu, t) : C) by (apply Ceq; simpl; ring). reflexivity. Qed.
Lemma parts_2 gamma ell nu t : g_l_2 gamma ell (nu + 1, t)%R = option_map (fun v => - (nu, t) * v)%C (g_l_1 gamma ell (nu, t)).
Proof. rewrite g_l_2_parts. replace ((nu + 1, t)%R - RtoC 1)%C with ((nu, t) : C) by (apply Ceq; simpl; ring). reflexivity. Qed.
