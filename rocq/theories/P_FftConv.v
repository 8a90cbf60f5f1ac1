(** Window of the FFTLog transform, and the transform as a convolution on the logarithmic grid. *)
From Coq Require Import Reals List Bool Arith ZArith Lia Lra.
From Coquelicot Require Import Complex.
From Verif Require Import Base_R Base_C Base_List M_Fftlog S_Fftlog P_Fftlog.
Import ListNotations.
Local Open Scope R_scope.

(** ** the window *)
Definition taper (t : R) : R := t - 1 / (2 * PI) * sin (2 * PI * t).
Lemma sin_abs_le x : 0 <= x -> - x <= sin x <= x.
Proof.
  intros H. destruct (Req_dec x 0) as [->|H0]; [rewrite sin_0; lra|].
  pose proof (sin_lt_x x ltac:(lra)). split; [|lra]. destruct (Rle_dec x PI).
  - pose proof (sin_ge_0 x H r). lra.
  - pose proof (SIN_bound x). pose proof PI2_1. lra.
Qed.
Lemma taper_mono a b : a <= b -> taper a <= taper b.
Proof.
  intros H. unfold taper. assert (Hp := PI_RGT_0). 
  assert (E : sin (2 * PI * b) - sin (2 * PI * a) <= 2 * PI * (b - a)).
  { rewrite form4. destruct (sin_abs_le ((2 * PI * b - 2 * PI * a) / 2)) as [S1 S2]; [nra|]. pose proof (COS_bound ((2 * PI * b + 2 * PI * a) / 2)) as [C1 C2].
    set (s := sin _) in *. set (c := cos _) in *. set (d := (2 * PI * b - 2 * PI * a) / 2) in *. replace (2 * PI * (b - a)) with (2 * d) by (unfold d; field).
    assert (s * c <= d); [|nra]. destruct (Rle_dec 0 s); [|nra]. apply Rle_trans with (s * 1); [|lra]. apply Rmult_le_compat_l; auto. }
  assert (1 / (2 * PI) * (sin (2 * PI * b) - sin (2 * PI * a)) <= b - a).
  { apply (Rmult_le_reg_l (2 * PI)); [lra|]. replace (2 * PI * (1 / (2 * PI) * (sin (2 * PI * b) - sin (2 * PI * a)))) with (sin (2 * PI * b) - sin (2 * PI * a)) by (field; lra). lra. }
  lra.
Qed.
Lemma taper_0 : taper 0 = 0. Proof. unfold taper. rewrite Rmult_0_r, sin_0. lra. Qed.
Lemma taper_1 : taper 1 = 1. Proof. unfold taper. rewrite Rmult_1_r, sin_2PI. lra. Qed.
Lemma window_above L c m : (2 <= c)%nat -> (L < m + c)%nat -> c_window L c m = Some (taper (INR (L - m) / (INR c - 1))).
Proof.
  intros Hc H. unfold c_window. replace (L <? m + c)%nat with true by (symmetry; apply Nat.ltb_lt; auto). unfold ndiv, nmap2, nbind.
  assert (2 <= INR c) by (apply (le_INR 2); auto). destruct (Reqb_spec (INR c - 1) 0); [lra|]. reflexivity.
Qed.
Lemma window_below L c m : (m + c <= L)%nat -> c_window L c m = Some 1.
Proof. intros H. unfold c_window. replace (L <? m + c)%nat with false by (symmetry; apply Nat.ltb_ge; auto). reflexivity. Qed.
Lemma window_frac L c m : (2 <= c)%nat -> (L < m + c)%nat -> 0 <= INR (L - m) / (INR c - 1) <= 1.
Proof.
  intros Hc H. assert (2 <= INR c) by (apply (le_INR 2); auto). pose proof (pos_INR (L - m)).
  assert (INR (L - m) <= INR c - 1). { replace (INR c - 1) with (INR (c - 1)) by (rewrite minus_INR by lia; reflexivity). apply le_INR. lia. }
  split. apply Rmult_le_pos; auto. left; apply Rinv_0_lt_compat; lra.
  apply (Rmult_le_reg_r (INR c - 1)); [lra|]. unfold Rdiv. rewrite Rmult_assoc, Rinv_l by lra. lra.
Qed.
Lemma window_range L c m : (2 <= c)%nat -> exists w, c_window L c m = Some w /\ 0 <= w <= 1 /\ ((m + c <= L + 1)%nat -> w = 1) /\ ((L <= m)%nat -> w = 0).
Proof.
  intros Hc. destruct (Nat.lt_ge_cases L (m + c)) as [H|H].
  - rewrite window_above by auto. eexists. split; [reflexivity|]. pose proof (window_frac L c m Hc H) as [F1 F2].
    split; [pose proof (taper_mono _ _ F1) as T1; pose proof (taper_mono _ _ F2) as T2; rewrite taper_0 in T1; rewrite taper_1 in T2; lra|]. split.
    + intros H'. replace (L - m)%nat with (c - 1)%nat by lia. rewrite minus_INR by lia. simpl (INR 1).
      assert (2 <= INR c) by (apply (le_INR 2); auto). replace ((INR c - 1) / (INR c - 1)) with 1 by (field; lra). apply taper_1.
    + intros H'. replace (L - m)%nat with 0%nat by lia. simpl. unfold Rdiv. rewrite Rmult_0_l. apply taper_0.
  - rewrite window_below by auto. exists 1. split; [reflexivity|]. split; [lra|]. split; [auto|lia].
Qed.
Lemma window_mono L c m m' w w' : (2 <= c)%nat -> (m <= m')%nat -> c_window L c m = Some w -> c_window L c m' = Some w' -> w' <= w.
Proof.
  intros Hc Hm E E'. destruct (Nat.lt_ge_cases L (m + c)) as [H|H].
  - rewrite window_above in E, E' by (auto; lia). injection E as <-. injection E' as <-. apply taper_mono.
    assert (2 <= INR c) by (apply (le_INR 2); auto). apply Rmult_le_compat_r; [left; apply Rinv_0_lt_compat; lra|]. apply le_INR. lia.
  - rewrite window_below in E by auto. injection E as <-. destruct (window_range L c m' Hc) as (v & E2 & H2 & _). rewrite E' in E2. injection E2 as <-. lra.
Qed.
Lemma window_none L m : (m <= L)%nat -> (c_window L 1 m = None <-> m = L).
Proof.
  intros H. unfold c_window. destruct (Nat.ltb_spec L (m + 1)) as [H1|H1].
  - split; [lia|]. intros _. unfold ndiv, nmap2, nbind. destruct (Reqb_spec (INR 1 - 1) 0) as [_|n]; [reflexivity|]. exfalso. apply n. simpl. lra.
  - split; [discriminate|lia].
Qed.
Lemma window_some L c m : c <> 1%nat -> (m <= L)%nat -> exists w, c_window L c m = Some w.
Proof.
  intros Hc Hm. destruct c as [|[|c]]; [|lia|].
  - exists 1. apply window_below. lia.
  - destruct (window_range L (S (S c)) m ltac:(lia)) as (w & E & _). eauto.
Qed.
Lemma Int_part_spec x z : IZR z <= x < IZR z + 1 -> z = Int_part x.
Proof.
  intros [H1 H2]. destruct (base_Int_part x) as [H3 H4]. assert (IZR z < IZR (Int_part x) + 1) by lra. assert (IZR (Int_part x) < IZR z + 1) by lra.
  rewrite <- plus_IZR in *. apply lt_IZR in H. apply lt_IZR in H0. lia.
Qed.
Lemma cut_default N : cut_of 0.25 N = (N / 8)%nat.
Proof.
  unfold cut_of. rewrite <- (Nat2Z.id (N / 8)). f_equal. symmetry. apply Int_part_spec.
  rewrite <- INR_IZR_INZ. pose proof (Nat.div_mod N 8 ltac:(lia)) as E. pose proof (Nat.mod_upper_bound N 8 ltac:(lia)) as Hm.
  apply (f_equal INR) in E. rewrite plus_INR, mult_INR in E. replace (INR 8) with 8 in E by (simpl; lra).
  pose proof (pos_INR (N mod 8)). assert (INR (N mod 8) <= 7) by (replace 7 with (INR 7) by (simpl; lra); apply le_INR; lia). lra.
Qed.
Lemma all_c_none f n k : (k < n)%nat -> f k = None -> all_c f n = false.
Proof. revert k; induction n as [|n IH]; intros k H E; [lia|]. simpl. destruct (f n) eqn:En; [|reflexivity]. apply (IH k); auto. destruct (Nat.eq_dec k n); [subst; congruence|lia]. Qed.
Lemma all_c_some f n : (forall k, (k < n)%nat -> f k <> None) -> all_c f n = true.
Proof. induction n as [|n IH]; intros H; [reflexivity|]. simpl. destruct (f n) eqn:En; [apply IH; intros; apply H; lia|]. exfalso. exact (H n ltac:(lia) En). Qed.
Lemma one_cut_nan g nu width ell s : cut_of width (f_N s) = 1%nat -> Fy_array g nu width ell s = repeat None (f_N s).
Proof.
  intros H. unfold Fy_array. destruct (all_num _); [|reflexivity]. destruct (f_dlnx s); [|reflexivity].
  cbv zeta. match goal with |- context [nmul ?a ?b] => destruct (nmul a b) end; [|reflexivity].
  rewrite (all_c_none _ _ (f_N s / 2)); [reflexivity|lia|]. unfold h_m. rewrite H. rewrite (proj2 (window_none _ _ (Nat.le_refl _))); reflexivity.
Qed.

(** ** sums *)
Lemma sumR_ext {A} (f g : A -> R) l : (forall x, In x l -> f x = g x) -> sumR (map f l) = sumR (map g l).
Proof. intros H. f_equal. apply map_ext_in. exact H. Qed.
Lemma sumR_zero {A} (f : A -> R) l : (forall x, In x l -> f x = 0) -> sumR (map f l) = 0.
Proof. induction l as [|a l IH]; intros H; simpl; [reflexivity|]. rewrite H, IH by (simpl; auto; intros; apply H; simpl; auto). lra. Qed.
Lemma sumR_swap {A B} (f : A -> B -> R) l l' :
  sumR (map (fun a => sumR (map (fun b => f a b) l')) l) = sumR (map (fun b => sumR (map (fun a => f a b) l)) l').
Proof.
  induction l as [|a l IH]; simpl.
  - symmetry. apply sumR_zero. reflexivity.
  - rewrite IH, <- sumR_map_plus. reflexivity.
Qed.
Lemma sumR_single (f : nat -> R) n k : (k < n)%nat -> (forall i, (i < n)%nat -> i <> k -> f i = 0) -> sumR (map f (seq 0 n)) = f k.
Proof.
  induction n as [|n IH]; intros Hk H; [lia|]. rewrite seq_S, map_app, sumR_app. simpl. destruct (Nat.eq_dec k n) as [->|Hn].
  - rewrite sumR_zero. lra. intros i Hi. apply in_seq in Hi. apply H; lia.
  - rewrite IH; [|lia|intros; apply H; lia]. rewrite (H n) by lia. lra.
Qed.
Lemma Re_sumC l : Re (sumC l) = sumR (map Re l).
Proof. induction l as [|a l IH]; simpl; [reflexivity|]. rewrite <- IH. reflexivity. Qed.
Lemma Re_plus (a b : C) : Re (a + b)%C = Re a + Re b. Proof. reflexivity. Qed.
Lemma Re_scal (r : R) (z : C) : Re (RtoC r * z)%C = r * Re z. Proof. unfold Re. simpl. ring. Qed.
Lemma Re_conj (z : C) : Re (Cconj z) = Re z. Proof. reflexivity. Qed.
Lemma sumC_mult_r (l : list C) (z : C) : (sumC l * z)%C = sumC (map (fun a => a * z)%C l).
Proof. induction l as [|a l IH]; cbn [sumC map]; [ring|]. rewrite <- IH. ring. Qed.
Lemma Cconj_sumC (l : list C) : Cconj (sumC l) = sumC (map Cconj l).
Proof. induction l as [|a l IH]; cbn [sumC map]; [apply Ceq; simpl; ring|]. rewrite Cconj_plus, IH. reflexivity. Qed.
Lemma sumC_ext {A} (f g : A -> C) l : (forall x, In x l -> f x = g x) -> sumC (map f l) = sumC (map g l).
Proof. intros H. f_equal. apply map_ext_in. exact H. Qed.

(** ** the transform as a sum over harmonics *)
Definition halfsum (L : nat) (T : nat -> R) : R := (T 0%nat + 2 * sumR (map T (seq 1 (L - 1))) + T L) / INR (2 * L).
Lemma sin_PI_nat j : sin (PI * INR j) = 0.
Proof. replace (PI * INR j) with (INR j * PI) by ring. rewrite INR_IZR_INZ. apply sin_eq_0_1. eauto. Qed.
Lemma irfft_halfsum c L j : (0 < L)%nat -> irfft c L j = halfsum L (fun m => Re (c m * cexpi (2 * PI * INR m * INR j / INR (2 * L)))%C).
Proof.
  intros HL. unfold irfft, halfsum. assert (0 < INR (2 * L)) by (apply lt_0_INR; lia). assert (0 < INR L) by (apply lt_0_INR; lia).
  f_equal. f_equal; [f_equal|].
  - simpl (INR 0). replace (2 * PI * 0 * INR j / INR (2 * L)) with 0 by (field; lra). rewrite cexpi_0. unfold Re. simpl. ring.
  - replace (2 * PI * INR L * INR j / INR (2 * L)) with (PI * INR j) by (rewrite mult_INR; simpl (INR 2); field; lra).
    unfold Re, cexpi. simpl. rewrite sin_PI_nat. ring.
Qed.
Lemma halfsum_ext L T T' : (forall m, (m <= L)%nat -> T m = T' m) -> halfsum L T = halfsum L T'.
Proof. intros H. unfold halfsum. rewrite !H by lia. do 3 f_equal. f_equal. apply sumR_ext. intros m Hm. apply in_seq in Hm. apply H. lia. Qed.
Lemma halfsum_sum {A} L (T : A -> nat -> R) l : halfsum L (fun m => sumR (map (fun a => T a m) l)) = sumR (map (fun a => halfsum L (T a)) l).
Proof.
  symmetry. rewrite (sumR_ext (fun a => halfsum L (T a)) (fun a => / INR (2 * L) * (T a 0%nat + 2 * sumR (map (T a) (seq 1 (L - 1))) + T a L)) l).
  2: { intros; unfold halfsum, Rdiv; ring. }
  rewrite (sumR_map_scal _ (fun a => T a 0%nat + 2 * sumR (map (T a) (seq 1 (L - 1))) + T a L)).
  rewrite (sumR_map_plus (fun a => T a 0%nat + 2 * sumR (map (T a) (seq 1 (L - 1)))) (fun a => T a L)).
  rewrite (sumR_map_plus (fun a => T a 0%nat) (fun a => 2 * sumR (map (T a) (seq 1 (L - 1))))).
  rewrite (sumR_map_scal 2 (fun a => sumR (map (T a) (seq 1 (L - 1))))). unfold halfsum.
  assert (SW : sumR (map (fun m => sumR (map (fun a => T a m) l)) (seq 1 (L - 1))) = sumR (map (fun a => sumR (map (T a) (seq 1 (L - 1)))) l))
    by exact (sumR_swap (fun m a => T a m) (seq 1 (L - 1)) l).
  rewrite SW. unfold Rdiv. ring.
Qed.
Lemma halfsum_scal L T c : halfsum L (fun m => c * T m) = c * halfsum L T.
Proof. unfold halfsum. rewrite (sumR_map_scal c T). unfold Rdiv. ring. Qed.

(** the convolution kernel: one harmonic per frequency, tapered *)
Definition kern (g : C -> C) (nu width : R) (L : nat) (d t : R) : R :=
  sqrt PI / 4 * Rpower t (- nu) *
  halfsum L (fun m => let eta := 2 * PI / (INR (2 * L) * d) * INR m in
     match c_window L (cut_of width (2 * L)) m with Some w => w | None => 0 end * Re (cexpi (eta * ln t) * Cconj (g (nu, eta)))%C).

Lemma all_num_map (l : list R) : all_num (map Some l) = Some l.
Proof. induction l as [|a l IH]; simpl; [reflexivity|]. rewrite IH. reflexivity. Qed.
Lemma combine_nth_lt {A B} (l : list A) (l' : list B) i d d' : length l = length l' -> nth i (combine l l') (d, d') = (nth i l d, nth i l' d').
Proof. intros H. apply combine_nth. exact H. Qed.

Lemma geom_rev_nth a r n j : (j < n)%nat -> nth j (rev (geom a r n)) None = Some (a * Rpower r (INR (n - 1 - j))).
Proof. intros H. rewrite rev_nth by (rewrite geom_length; auto). rewrite geom_length. rewrite geom_nth by lia. do 4 f_equal. lia. Qed.
(** ** sums of roots of unity *)
Lemma geo_cexpi t n : ((cexpi t - RtoC 1) * sumC (map (fun i => cexpi (t * INR i)) (seq 0 n)) = cexpi (t * INR n) - RtoC 1)%C.
Proof.
  assert (Happ : forall l l', sumC (l ++ l') = (sumC l + sumC l')%C) by (intros l l'; induction l as [|a l IH]; cbn [sumC app]; [ring|rewrite IH; ring]).
  induction n as [|n IH].
  - cbn [seq map sumC INR]. rewrite Rmult_0_r, cexpi_0. ring.
  - rewrite seq_S, map_app, Happ, Nat.add_0_l. cbn [map sumC]. rewrite S_INR.
    replace (t * (INR n + 1)) with (t * INR n + t) by ring. rewrite cexpi_add.
    transitivity ((cexpi t - RtoC 1) * sumC (map (fun i => cexpi (t * INR i)) (seq 0 n)) + (cexpi t - RtoC 1) * cexpi (t * INR n))%C; [ring|]. rewrite IH. ring.
Qed.
Lemma cos_lt1 t : 0 < t < 2 * PI -> cos t < 1.
Proof.
  intros H. replace t with (2 * (t / 2)) by field. rewrite cos_2a_sin. assert (0 < sin (t / 2)) by (apply sin_gt_0; lra). nra.
Qed.
Lemma cexpi_neq1 t : 0 < Rabs t < 2 * PI -> (cexpi t - RtoC 1)%C <> RtoC 0.
Proof.
  intros H E. apply (f_equal Re) in E. unfold Re, cexpi in E. simpl in E. assert (cos t < 1); [|lra].
  destruct (Rle_dec 0 t). rewrite Rabs_pos_eq in H by auto. apply cos_lt1; auto. rewrite Rabs_left in H by lra. rewrite <- cos_neg. apply cos_lt1; lra.
Qed.
Lemma cexpi_2PI p : cexpi (2 * PI * IZR p) = RtoC 1.
Proof.
  apply Ceq; simpl.
  - replace (2 * PI * IZR p) with (2 * (IZR p * PI)) by ring. rewrite cos_2a_sin. rewrite sin_eq_0_1 by eauto. ring.
  - apply sin_eq_0_1. exists (2 * p)%Z. rewrite mult_IZR. ring.
Qed.
Lemma root_sum N p : (0 < N)%nat -> (0 < Z.abs p < Z.of_nat N)%Z ->
  sumC (map (fun i => cexpi (2 * PI * IZR p / INR N * INR i)) (seq 0 N)) = RtoC 0.
Proof.
  intros HN Hp. set (t := 2 * PI * IZR p / INR N). pose proof (lt_0_INR N HN) as HNp. pose proof PI_RGT_0.
  assert (Ht : 0 < Rabs t < 2 * PI).
  { unfold t, Rdiv. rewrite !Rabs_mult. rewrite (Rabs_pos_eq 2), (Rabs_pos_eq PI), (Rabs_pos_eq (/ INR N)) by (try lra; left; apply Rinv_0_lt_compat; auto).
    rewrite <- abs_IZR. destruct Hp as [P1 P2]. apply IZR_lt in P1. apply IZR_lt in P2. rewrite <- INR_IZR_INZ in P2. pose proof (Rinv_0_lt_compat _ HNp).
    split; [apply Rmult_lt_0_compat; [nra|auto]|]. apply (Rmult_lt_reg_r (INR N)); auto. rewrite Rmult_assoc, Rinv_l by lra. nra. }
  pose proof (geo_cexpi t N) as G. replace (t * INR N) with (2 * PI * IZR p) in G by (unfold t; field; lra). rewrite cexpi_2PI in G.
  replace (RtoC 1 - RtoC 1)%C with (RtoC 0) in G by ring. apply Cmult_integral in G. destruct G as [G|G]; auto. exfalso. exact (cexpi_neq1 t Ht G).
Qed.
Lemma root_sum_0 N : sumC (map (fun i => RtoC 1) (seq 0 N)) = RtoC (INR N).
Proof.
  assert (H : forall a, sumC (map (fun _ : nat => RtoC 1) (seq a N)) = RtoC (INR N)); [|apply H].
  induction N as [|n IH]; intros a; [reflexivity|]. cbn [seq map sumC]. rewrite IH. rewrite S_INR. rewrite RtoC_plus. ring.
Qed.
Lemma sumC_plus {A} (f h : A -> C) l : sumC (map (fun a => f a + h a)%C l) = (sumC (map f l) + sumC (map h l))%C.
Proof. induction l as [|a l IH]; cbn [map sumC]; [ring|]. rewrite IH. ring. Qed.
Lemma sumC_scal {A} (c : C) (f : A -> C) l : sumC (map (fun a => c * f a)%C l) = (c * sumC (map f l))%C.
Proof. induction l as [|a l IH]; cbn [map sumC]; [ring|]. rewrite IH. ring. Qed.
Lemma Re_half (z : C) : RtoC (Re z) = ((z + Cconj z) * RtoC (1 / 2))%C.
Proof. apply Ceq; unfold Re; simpl; field. Qed.
(** the DFT of a sampled real harmonic *)
Lemma rfft_harmonic (f : list R) L k m (u : C) : length f = (2 * L)%nat -> (0 < k < L)%nat -> (m <= L)%nat ->
  (forall i, (i < 2 * L)%nat -> nth i f 0 = Re (u * cexpi (2 * PI * INR k / INR (2 * L) * INR i))%C) ->
  rfft f m = if (m =? k)%nat then (RtoC (INR L) * u)%C else RtoC 0.
Proof.
  intros Hl Hk Hm Hf. assert (HN : 0 < INR (2 * L)) by (apply lt_0_INR; lia). unfold rfft. rewrite Hl.
  rewrite (sumC_ext _ (fun i => u * RtoC (1 / 2) * cexpi (2 * PI * IZR (Z.of_nat k - Z.of_nat m) / INR (2 * L) * INR i) +
     Cconj u * RtoC (1 / 2) * cexpi (2 * PI * IZR (- (Z.of_nat k + Z.of_nat m)) / INR (2 * L) * INR i))%C).
  2: { intros i Hi. apply in_seq in Hi. rewrite Hf by lia. rewrite Re_half, Cconj_mult, Cconj_cexpi.
       replace (2 * PI * IZR (Z.of_nat k - Z.of_nat m) / INR (2 * L) * INR i) with (2 * PI * INR k / INR (2 * L) * INR i + - (2 * PI * INR i * INR m / INR (2 * L)))
         by (rewrite minus_IZR, <- !INR_IZR_INZ; field; lra).
       replace (2 * PI * IZR (- (Z.of_nat k + Z.of_nat m)) / INR (2 * L) * INR i) with (- (2 * PI * INR k / INR (2 * L) * INR i) + - (2 * PI * INR i * INR m / INR (2 * L)))
         by (rewrite opp_IZR, plus_IZR, <- !INR_IZR_INZ; field; lra).
       rewrite !cexpi_add. ring. }
  rewrite sumC_plus, !sumC_scal. rewrite (root_sum (2 * L) (- (Z.of_nat k + Z.of_nat m))) by lia.
  destruct (Nat.eqb_spec m k) as [->|Hne].
  - rewrite (sumC_ext _ (fun i : nat => RtoC 1)). rewrite root_sum_0. rewrite mult_INR, RtoC_mult. simpl (INR 2). apply Ceq; simpl; field.
    intros i Hi. rewrite Z.sub_diag. replace (2 * PI * 0 / INR (2 * L) * INR i) with 0 by (field; lra). apply cexpi_0.
  - rewrite (root_sum (2 * L) (Z.of_nat k - Z.of_nat m)) by lia. ring.
Qed.
Lemma rfft_constant (f : list R) L m v : length f = (2 * L)%nat -> (0 < L)%nat -> (m <= L)%nat -> (forall i, (i < 2 * L)%nat -> nth i f 0 = v) ->
  rfft f m = if (m =? 0)%nat then RtoC (INR (2 * L) * v) else RtoC 0.
Proof.
  intros Hl HL Hm Hf. assert (HN : 0 < INR (2 * L)) by (apply lt_0_INR; lia). unfold rfft. rewrite Hl.
  rewrite (sumC_ext _ (fun i => RtoC v * cexpi (2 * PI * IZR (- Z.of_nat m) / INR (2 * L) * INR i))%C).
  2: { intros i Hi. apply in_seq in Hi. rewrite Hf by lia. do 2 f_equal. rewrite opp_IZR, <- INR_IZR_INZ. field. lra. }
  rewrite sumC_scal. destruct (Nat.eqb_spec m 0) as [->|Hne].
  - rewrite (sumC_ext _ (fun i : nat => RtoC 1)). rewrite root_sum_0. rewrite RtoC_mult. ring.
    intros i Hi. simpl (- Z.of_nat 0)%Z. replace (2 * PI * 0 / INR (2 * L) * INR i) with 0 by (field; lra). apply cexpi_0.
  - rewrite (root_sum (2 * L) (- Z.of_nat m)) by lia. ring.
Qed.
Section Conv.
Variables (g : C -> C) (nu width ell x0 r : R) (L : nat) (F : list R) (s : fft).
Hypotheses (Hx0 : 0 < x0) (Hr : 0 < r) (Hr1 : r <> 1) (Hell : 0 < ell + 1) (HL : (0 < L)%nat) (HF : length F = (2 * L)%nat)
  (Sx : f_x s = geom x0 r (2 * L)) (Sf : f_fx s = map Some F) (SN : f_N s = (2 * L)%nat) (Sd : f_dlnx s = Some (ln r))
  (Hcut : cut_of width (2 * L) <> 1%nat).
Let xv i := x0 * Rpower r (INR i).
Let yv j := (ell + 1) / xv (2 * L - 1 - j).
Lemma xv_pos i : 0 < xv i. Proof. apply Rmult_lt_0_compat; auto. apply Rpower_pos. Qed.
Lemma yv_pos j : 0 < yv j. Proof. apply Rmult_lt_0_compat; auto. apply Rinv_0_lt_compat, xv_pos. Qed.
Lemma lnr_neq : ln r <> 0.
Proof. intros H. apply Hr1. apply ln_inv; auto; [lra|]. rewrite H, ln_1. reflexivity. Qed.
Lemma yarr_nth j : (j < 2 * L)%nat -> nth j (y_array ell s) None = Some (yv j).
Proof.
  intros H. rewrite y_array_nth; rewrite Sx, geom_length; auto. rewrite geom_nth by lia. unfold ndiv, nmap2. fold (xv (2 * L - 1 - j)).
  pose proof (xv_pos (2 * L - 1 - j)). destruct (Reqb_spec (xv (2 * L - 1 - j)) 0); [lra|]. reflexivity.
Qed.
Lemma ln_xv i : ln (xv i) = ln x0 + INR i * ln r.
Proof. unfold xv. rewrite ln_mult by (auto; apply Rpower_pos). unfold Rpower. rewrite ln_exp. reflexivity. Qed.
Lemma ln_xy i j : (i < 2 * L)%nat -> (j < 2 * L)%nat -> ln (xv i * yv j) = ln (x0 * yv 0) + (INR i + INR j) * ln r.
Proof.
  intros Hi Hj. pose proof (yv_pos j). pose proof (yv_pos 0). pose proof (xv_pos i). pose proof (xv_pos (2 * L - 1 - j)). pose proof (xv_pos (2 * L - 1 - 0)).
  rewrite !ln_mult by auto. unfold yv, Rdiv. rewrite !ln_mult by (auto; apply Rinv_0_lt_compat; auto). rewrite !ln_Rinv by auto. rewrite !ln_xv.
  rewrite !minus_INR by lia. simpl (INR 0). ring.
Qed.
Definition fbv : list R := map (fun i => nth i F 0 * Rpower (xv i) (- nu)) (seq 0 (2 * L)).
Lemma fbv_length : length fbv = (2 * L)%nat. Proof. unfold fbv. rewrite map_length, seq_length. reflexivity. Qed.
Lemma fbv_nth i : (i < 2 * L)%nat -> nth i fbv 0 = nth i F 0 * Rpower (xv i) (- nu).
Proof. intros H. unfold fbv. rewrite (nth_map_lt _ _ i O) by (rewrite seq_length; auto). rewrite seq_nth by auto. reflexivity. Qed.
Lemma fb_val : fb_array nu s = map Some fbv.
Proof.
  unfold fb_array. rewrite Sx, Sf. apply (list_eq_nth None).
  - rewrite !map_length, combine_length, map_length, geom_length, fbv_length. lia.
  - intros i Hi. rewrite map_length, combine_length, map_length, geom_length, HF, Nat.min_id in Hi.
    rewrite (nth_map_lt _ _ i (None, None)) by (rewrite combine_length, map_length, geom_length; lia).
    rewrite combine_nth_lt by (rewrite map_length, geom_length; auto). rewrite geom_nth by auto. fold (xv i).
    rewrite (nth_map_lt Some F i 0) by lia. rewrite (nth_map_lt Some fbv i 0) by (rewrite fbv_length; auto). rewrite fbv_nth by auto.
    unfold nmul, npow, nbind, nmap2. pose proof (xv_pos i). destruct (Rltb_spec 0 (xv i)); [reflexivity|lra].
Qed.
Let eta m := 2 * PI / (INR (2 * L) * ln r) * INR m.
Let W m := match c_window L (cut_of width (2 * L)) m with Some w => w | None => 0 end.
Let hval m := Cconj (rfft fbv m * RtoC (W m) * cexpi (- (eta m * ln (x0 * yv 0))) * g (nu, eta m))%C.
Lemma N_pos : 0 < INR (2 * L). Proof. apply lt_0_INR. lia. Qed.
Lemma half : (2 * L / 2 = L)%nat. Proof. rewrite Nat.mul_comm. apply Nat.div_mul. lia. Qed.
Lemma h_val m : (m <= L)%nat -> h_m g nu width (2 * L) (ln r) (x0 * yv 0) fbv m = Some (hval m).
Proof.
  intros Hm. unfold h_m. rewrite half. unfold hval, W. destruct (window_some L (cut_of width (2 * L)) m Hcut Hm) as [w ->]. reflexivity.
Qed.
Lemma Fy_val j : (j < 2 * L)%nat ->
  nth j (Fy_array g nu width ell s) None = Some (irfft hval L j * Rpower (yv j) (- nu) * (sqrt PI / 4)).
Proof.
  intros Hj. unfold Fy_array. cbv zeta. rewrite fb_val, all_num_map, Sd, SN. rewrite Sx, geom_nth, yarr_nth by lia.
  unfold nmul at 1, nmap2 at 1. simpl (INR 0). rewrite Rpower_O by auto. rewrite Rmult_1_r. rewrite half.
  rewrite all_c_some. 2: { intros k Hk. rewrite h_val by lia. discriminate. }
  pose proof lnr_neq. destruct (Reqb_spec (ln r) 0); [contradiction|]. assert (0 < x0 * yv 0) by (apply Rmult_lt_0_compat; auto; apply yv_pos).
  destruct (Rltb_spec 0 (x0 * yv 0)); [|lra]. cbn [negb andb]. rewrite (nth_map_lt _ _ j O) by (rewrite seq_length; auto). rewrite seq_nth by auto. rewrite Nat.add_0_l.
  rewrite yarr_nth by auto. unfold nmul, npow, nbind, nmap2. pose proof (yv_pos j). destruct (Rltb_spec 0 (yv j)); [|lra]. do 3 f_equal.
  rewrite !irfft_halfsum by auto. apply halfsum_ext. intros m Hm. rewrite h_val by auto. reflexivity.
Qed.
Lemma h_term m j : (m <= L)%nat -> (j < 2 * L)%nat ->
  Re (hval m * cexpi (2 * PI * INR m * INR j / INR (2 * L)))%C =
  sumR (map (fun i => nth i fbv 0 * (W m * Re (cexpi (eta m * ln (xv i * yv j)) * Cconj (g (nu, eta m)))%C)) (seq 0 (2 * L))).
Proof.
  intros Hm Hj. unfold hval, rfft. rewrite !Cconj_mult, Cconj_sumC, !sumC_mult_r, !map_map, Re_sumC, map_map, fbv_length.
  apply sumR_ext. intros i Hi. apply in_seq in Hi. rewrite !Cconj_mult, !Cconj_RtoC, !Cconj_cexpi.
  rewrite <- !Re_scal. f_equal. rewrite ln_xy by lia.
  replace (eta m * (ln (x0 * yv 0) + (INR i + INR j) * ln r))
    with (- - (2 * PI * INR i * INR m / INR (2 * L)) + (- - (eta m * ln (x0 * yv 0)) + 2 * PI * INR m * INR j / INR (2 * L))).
  2: { unfold eta. pose proof N_pos. pose proof lnr_neq. field. lra. }
  rewrite !cexpi_add. ring.
Qed.
Lemma conv_val j : (j < 2 * L)%nat ->
  nth j (Fy_array g nu width ell s) None = Some (sumR (map (fun i => nth i F 0 * kern g nu width L (ln r) (xv i * yv j)) (seq 0 (2 * L)))).
Proof.
  intros Hj. rewrite Fy_val by auto. f_equal. rewrite irfft_halfsum by auto.
  rewrite (halfsum_ext L _ (fun m => sumR (map (fun i => nth i fbv 0 * (W m * Re (cexpi (eta m * ln (xv i * yv j)) * Cconj (g (nu, eta m)))%C)) (seq 0 (2 * L)))))
    by (intros m Hm; apply h_term; auto).
  rewrite (halfsum_sum L (fun i m => nth i fbv 0 * (W m * Re (cexpi (eta m * ln (xv i * yv j)) * Cconj (g (nu, eta m)))%C))).
  rewrite Rmult_assoc, Rmult_comm, <- sumR_map_scal. apply sumR_ext. intros i Hi. apply in_seq in Hi.
  rewrite (halfsum_scal L (fun m => W m * Re (cexpi (eta m * ln (xv i * yv j)) * Cconj (g (nu, eta m)))%C)). rewrite fbv_nth by lia.
  unfold kern. rewrite <- (Rpower_mult_distr (xv i) (yv j)) by (apply xv_pos || apply yv_pos). fold W. fold eta. unfold W, eta. ring.
Qed.

Lemma halfsum_single T k : (0 < k < L)%nat -> (forall m, (m <= L)%nat -> m <> k -> T m = 0) -> halfsum L T = 2 * T k / INR (2 * L).
Proof.
  intros Hk H. unfold halfsum. rewrite (H 0%nat), (H L) by lia. rewrite <- seq_shift, map_map.
  rewrite (sumR_single (fun i => T (S i)) (L - 1) (k - 1)); [|lia|intros i Hi Hne; apply H; lia]. replace (S (k - 1)) with k by lia. f_equal. ring.
Qed.
Lemma harmonic_val (c : C) k j : (0 < k < L)%nat -> (j < 2 * L)%nat ->
  (forall i, (i < 2 * L)%nat -> nth i F 0 = Re (c * cpw (xv i) (nu, eta k))%C) ->
  nth j (Fy_array g nu width ell s) None = Some (W k * Re (c * (RtoC (sqrt PI / 4) * g (nu, eta k)) * cpw (yv j) ((- nu)%R, (- eta k)%R))%C).
Proof.
  intros Hk Hj Hf. rewrite Fy_val by auto. f_equal. rewrite irfft_halfsum by auto. pose proof N_pos as HNp. pose proof lnr_neq as Hlr.
  set (u := (c * cexpi (eta k * ln x0))%C).
  assert (Hfb : forall m, (m <= L)%nat -> rfft fbv m = if (m =? k)%nat then (RtoC (INR L) * u)%C else RtoC 0).
  { intros m Hm. apply rfft_harmonic; auto. apply fbv_length. intros i Hi. rewrite fbv_nth, Hf by auto. unfold cpw. cbn [Re Im fst snd].
    replace (c * (RtoC (Rpower (xv i) nu) * cexpi (eta k * ln (xv i))))%C with (RtoC (Rpower (xv i) nu) * (u * cexpi (2 * PI * INR k / INR (2 * L) * INR i)))%C.
    - rewrite Re_scal. rewrite Rpower_Ropp. pose proof (Rpower_pos (xv i) nu). field. lra.
    - rewrite ln_xv. replace (eta k * (ln x0 + INR i * ln r)) with (eta k * ln x0 + 2 * PI * INR k / INR (2 * L) * INR i) by (unfold eta; field; lra).
      rewrite cexpi_add. unfold u. ring. }
  rewrite (halfsum_single _ k Hk).
  2: { intros m Hm Hne. unfold hval. rewrite Hfb by auto. destruct (Nat.eqb_spec m k); [contradiction|].
       replace (RtoC 0 * RtoC (W m) * cexpi (- (eta m * ln (x0 * yv 0))) * g (nu, eta m))%C with (RtoC 0) by ring. rewrite Cconj_RtoC. rewrite Re_scal. ring. }
  unfold hval. rewrite Hfb by lia. rewrite Nat.eqb_refl.
  match goal with |- context [Re (Cconj ?z * cexpi ?t)%C] => replace (Re (Cconj z * cexpi t)%C) with (Re (z * cexpi (- t))%C) by (rewrite <- (Re_conj (z * cexpi (- t))%C), Cconj_mult, Cconj_cexpi, Ropp_involutive; reflexivity) end.
  unfold cpw. cbn [Re Im fst snd].
  assert (Ly : ln (yv j) = ln (yv 0) + INR j * ln r).
  { pose proof (ln_xy 0 j ltac:(lia) Hj) as E. rewrite !ln_mult, ln_xv in E by (apply xv_pos || apply yv_pos || auto). simpl (INR 0) in E. lra. }
  replace (- eta k * ln (yv j)) with (- (eta k * ln (yv 0)) + - (2 * PI * INR k * INR j / INR (2 * L))).
  2: { rewrite Ly. unfold eta. field. lra. }
  rewrite !ln_mult by (auto; apply yv_pos).
  replace (- (eta k * (ln x0 + ln (yv 0)))) with (- (eta k * ln x0) + - (eta k * ln (yv 0))) by ring. rewrite !cexpi_add.
  set (A := cexpi (- (eta k * ln (yv 0)))). set (B := cexpi (- (2 * PI * INR k * INR j / INR (2 * L)))). unfold u.
  replace (RtoC (INR L) * (c * cexpi (eta k * ln x0)) * RtoC (W k) * (cexpi (- (eta k * ln x0)) * A) * g (nu, eta k) * B)%C
    with (RtoC (INR L * W k) * (c * g (nu, eta k) * (A * B)))%C.
  2: { rewrite RtoC_mult. assert (E1 : (cexpi (eta k * ln x0) * cexpi (- (eta k * ln x0)) = RtoC 1)%C) by (rewrite <- cexpi_add, Rplus_opp_r; apply cexpi_0).
       ring [E1]. }
  rewrite Re_scal.
  replace (c * (RtoC (sqrt PI / 4) * g (nu, eta k)) * (RtoC (Rpower (yv j) (- nu)) * (A * B)))%C
    with (RtoC (sqrt PI / 4 * Rpower (yv j) (- nu)) * (c * g (nu, eta k) * (A * B)))%C by (rewrite RtoC_mult; ring).
  rewrite Re_scal. rewrite mult_INR. simpl (INR 2). assert (0 < INR L) by (apply lt_0_INR; lia). field. lra.
Qed.
Lemma power_val v j : (j < 2 * L)%nat -> (forall i, (i < 2 * L)%nat -> nth i F 0 = v * Rpower (xv i) nu) ->
  nth j (Fy_array g nu width ell s) None = Some (W 0 * (v * (sqrt PI / 4 * Re (g (RtoC nu))) * Rpower (yv j) (- nu))).
Proof.
  intros Hj Hf. rewrite Fy_val by auto. f_equal. rewrite irfft_halfsum by auto. pose proof N_pos as HNp.
  assert (Hfb : forall m, (m <= L)%nat -> rfft fbv m = if (m =? 0)%nat then RtoC (INR (2 * L) * v) else RtoC 0).
  { intros m Hm. apply rfft_constant; auto. apply fbv_length. intros i Hi. rewrite fbv_nth, Hf, Rpower_Ropp by auto. pose proof (Rpower_pos (xv i) nu). field. lra. }
  rewrite (halfsum_ext L _ (fun m => if (m =? 0)%nat then INR (2 * L) * v * (W 0 * Re (g (RtoC nu))) else 0)).
  2: { intros m Hm. unfold hval. rewrite Hfb by auto. destruct (Nat.eqb_spec m 0) as [->|Hne].
    - simpl (INR 0). unfold eta. simpl (INR 0). rewrite Rmult_0_r, Rmult_0_l, Ropp_0. unfold Rdiv at 1. rewrite Rmult_0_r, !Rmult_0_l, cexpi_0.
      change (nu, 0) with (RtoC nu).
      replace (Cconj (RtoC (INR (2 * L) * v) * RtoC (W 0) * RtoC 1 * g (RtoC nu)) * RtoC 1)%C with (Cconj (RtoC (INR (2 * L) * v * W 0) * g (RtoC nu))%C)
        by (rewrite (RtoC_mult (INR (2 * L) * v) (W 0)); apply Ceq; simpl; ring).
      rewrite Re_conj, Re_scal. ring.
    - replace (RtoC 0 * RtoC (W m) * cexpi (- (eta m * ln (x0 * yv 0))) * g (nu, eta m))%C with (RtoC 0) by ring. rewrite Cconj_RtoC, Re_scal. ring. }
  unfold halfsum. cbn [Nat.eqb]. rewrite (sumR_zero _ (seq 1 (L - 1))). replace (L =? 0)%nat with false by (symmetry; apply Nat.eqb_neq; lia). field. lra.
  intros m Hm. apply in_seq in Hm. destruct (Nat.eqb_spec m 0); [lia|reflexivity].
Qed.
End Conv.

(** ** stated for the constructor *)
Lemma map_Some_inj (l l' : list R) : map Some l = map Some l' -> l = l'.
Proof. revert l'; induction l as [|a l IH]; intros [|b l'] H; try discriminate; [reflexivity|]. simpl in H. injection H as -> H. f_equal. auto. Qed.
Lemma sum_combine (f : R -> R -> R) X F n : length X = n -> length F = n ->
  sumR (map (fun '(x, v) => f x v) (combine X F)) = sumR (map (fun i => f (nth i X 0) (nth i F 0)) (seq 0 n)).
Proof.
  intros HX HF. f_equal. apply (list_eq_nth 0).
  - rewrite !map_length, seq_length, combine_length. lia.
  - intros i Hi. rewrite map_length, combine_length in Hi. rewrite (nth_map_lt _ _ i (0, 0)) by (rewrite combine_length; auto). rewrite combine_nth by lia.
    rewrite (nth_map_lt _ _ i O) by (rewrite seq_length; lia). rewrite seq_nth by lia. reflexivity.
Qed.
Lemma convolution g nu width ell r N : 0 < r -> r <> 1 -> 0 < ell + 1 -> cut_of width N <> 1%nat ->
  exists kappa : R -> R, forall x0 n fx nl nh npad s X F y Fo, 0 < x0 -> (2 <= n)%nat -> length fx = n ->
  fftlog_init (geom x0 r n) fx nl nh npad = Ok s -> f_N s = N -> f_x s = map Some X -> f_fx s = map Some F -> fftlog g nu width ell s = (y, Fo) ->
  length Fo = length y /\ forall j, (j < length y)%nat -> exists yj, 0 < yj /\ nth j y None = Some yj /\
    nth j Fo None = Some (sumR (map (fun '(x, f) => f * kappa (x * yj)) (combine X F))).
Proof.
  intros Hr Hr1 Hell Hcut. exists (kern g nu width (N / 2) (ln r)). intros x0 n fx nl nh npad s X F y Fo Hx0 Hn Hf Hs SN SX SF Hy.
  assert (Lx : length (geom x0 r n) = n) by apply geom_length.
  destruct (init_lengths (geom x0 r n) fx nl nh npad s) as (Ev & L1 & L2 & LT); [lia|lia|auto|].
  destruct (init_geom x0 r n fx nl nh npad s) as [G1 G2]; auto; [lra|]. rewrite SN in G1.
  apply Nat.even_spec in Ev. destruct Ev as [L EL]. rewrite SN in EL. 
  destruct (init_slice (geom x0 r n) fx nl nh npad s) as (S1 & S2 & S3); [lia|lia|auto|]. rewrite Lx in *.
  assert (Hsl : (f_low s + f_high s <= f_N s)%nat).
  { destruct (Nat.even (n + nl + nh)) eqn:Ee. specialize (S2 (or_introl eq_refl)). lia.
    destruct (Nat.eq_dec npad 0) as [->|Hp]. rewrite <- Nat.negb_even, Ee in S3. specialize (S3 eq_refl eq_refl). lia. specialize (S2 (or_intror (proj1 (Nat.neq_0_lt_0 npad) Hp))). lia. }
  assert (LF : length F = N) by (rewrite <- (map_length Some), <- SF; lia). assert (LX : length X = N) by (rewrite <- (map_length Some), <- SX; lia).
  unfold fftlog in Hy. injection Hy as <- <-. rewrite !slice_length by (rewrite ?y_array_length, ?Fy_length; lia). split; [reflexivity|]. intros j Hj.
  rewrite !slice_nth by auto. set (a := x0 * Rpower r (- INR (nl + npad))) in *.
  assert (Ha : 0 < a) by (apply Rmult_lt_0_compat; auto; apply Rpower_pos). rewrite EL in SN, G1, Hcut, LF, LX |- *. clear EL.
  assert (HL : (0 < L)%nat) by lia.
  exists ((ell + 1) / (a * Rpower r (INR (2 * L - 1 - (f_high s + j))))).
  split; [apply yv_pos; auto|]. split; [apply (yarr_nth width ell a r L F s); auto; lia|].
  rewrite (conv_val g nu width ell a r L F s) by (auto; lia). f_equal.
  rewrite (sum_combine (fun x f => f * kern g nu width (2 * L / 2) (ln r) (x * ((ell + 1) / (a * Rpower r (INR (2 * L - 1 - (f_high s + j))))))) X F (2 * L)) by auto.
  apply sumR_ext. intros i Hi. apply in_seq in Hi.
  assert (EX : nth i X 0 = a * Rpower r (INR i)).
  { pose proof (f_equal (fun l => nth i l None) G1) as E. cbv beta in E. rewrite SX in E. rewrite (nth_map_lt Some X i 0) in E by lia. rewrite geom_nth in E by lia. injection E as ->. reflexivity. }
  rewrite EX. replace (2 * L / 2)%nat with L by (rewrite Nat.mul_comm, Nat.div_mul; lia). reflexivity.
Qed.
(** without extension *)
Lemma init_plain x0 r L (F : list R) : 0 < x0 -> 0 < r -> (0 < L)%nat -> length F = (2 * L)%nat -> exists s,
  fftlog_init (geom x0 r (2 * L)) (map Some F) 0 0 0 = Ok s /\ f_x s = geom x0 r (2 * L) /\ f_fx s = map Some F /\ f_N s = (2 * L)%nat /\ f_dlnx s = Some (ln r) /\
  (forall A (l : list A), length l = (2 * L)%nat -> slice s l = l).
Proof.
  intros Hx Hr HL HF. assert (Lx : length (geom x0 r (2 * L)) = (2 * L)%nat) by apply geom_length.
  destruct (init_ok (geom x0 r (2 * L)) (map Some F) 0 0 0) as (s & x1 & f1 & px1 & px2 & low & high & flow & fhigh & E & Ex & E1 & E2 & E3 & E4 & Ef & E5 & E6 & EF & EX & Ed & El & HT);
    [lia|rewrite map_length; lia|].
  exists s. split; auto. destruct (init_geom x0 r (2 * L) (map Some F) 0 0 0 s) as [G1 G2]; auto; [lra|lia|rewrite map_length; lia|].
  rewrite Lx in HT. replace (2 * L + 0 + 0 + 2 * 0)%nat with (2 * L)%nat in HT by lia.
  replace (Nat.odd (2 * L)) with false in HT by (symmetry; rewrite Nat.odd_mul; reflexivity).
  destruct HT as (A & B & C & D). rewrite C in *. split; [rewrite G1; f_equal; simpl; rewrite Ropp_0, Rpower_O by auto; ring|].
  destruct flow, fhigh, low, high, px1, px2; try discriminate. cbn [repeat app] in Ef. rewrite !app_nil_r in Ef. split; [congruence|]. split; [auto|]. split; [auto|].
  intros T l Hl. unfold slice. rewrite El, D, C. cbn [skipn Nat.add]. rewrite !Nat.sub_0_r. rewrite <- Hl. apply firstn_all.
Qed.

Lemma harmonic_exact g nu width ell x0 r L (F : list R) (c : C) k : 0 < x0 -> 0 < r -> r <> 1 -> 0 < ell + 1 -> (0 < k < L)%nat ->
  cut_of width (2 * L) <> 1%nat -> length F = (2 * L)%nat ->
  let eta := 2 * PI * INR k / (INR (2 * L) * ln r) in
  (forall i, (i < 2 * L)%nat -> nth i F 0 = Re (c * cpw (x0 * Rpower r (INR i)) (nu, eta))%C) ->
  exists s y Fo w, fftlog_init (geom x0 r (2 * L)) (map Some F) 0 0 0 = Ok s /\ fftlog g nu width ell s = (y, Fo) /\
  c_window L (cut_of width (2 * L)) k = Some w /\
  forall j, (j < 2 * L)%nat -> let yj := (ell + 1) / (x0 * Rpower r (INR (2 * L - 1 - j))) in nth j y None = Some yj /\
    nth j Fo None = Some (w * Re (c * (RtoC (sqrt PI / 4) * g (nu, eta)) * cpw yj ((- nu)%R, (- eta)%R))%C).
Proof.
  intros Hx Hr Hr1 Hell Hk Hcut HF eta Hf. destruct (init_plain x0 r L F Hx Hr ltac:(lia) HF) as (s & E & Sx & Sf & SN & Sd & Sl).
  destruct (window_some L (cut_of width (2 * L)) k Hcut ltac:(lia)) as [w Hw].
  exists s, (y_array ell s), (Fy_array g nu width ell s), w. split; auto.
  split; [unfold fftlog; rewrite !Sl; auto; rewrite ?Fy_length, ?y_array_length, ?Sx, ?geom_length; auto|]. split; auto.
  assert (Ee : 2 * PI / (INR (2 * L) * ln r) * INR k = eta).
  { unfold eta. pose proof (lnr_neq r Hr Hr1). assert (0 < INR (2 * L)) by (apply lt_0_INR; lia). field. lra. }
  intros j Hj yj. split; [apply (yarr_nth width ell x0 r L F s); auto; lia|].
  rewrite (harmonic_val g nu width ell x0 r L F s) with (c := c) (k := k); auto; [|lia|rewrite Ee; exact Hf]. rewrite Hw, Ee. reflexivity.
Qed.
Lemma power_exact g nu width ell x0 r L (F : list R) v : 0 < x0 -> 0 < r -> r <> 1 -> 0 < ell + 1 -> (0 < L)%nat ->
  cut_of width (2 * L) <> 1%nat -> (cut_of width (2 * L) <= L)%nat -> length F = (2 * L)%nat ->
  (forall i, (i < 2 * L)%nat -> nth i F 0 = v * Rpower (x0 * Rpower r (INR i)) nu) ->
  exists s y Fo, fftlog_init (geom x0 r (2 * L)) (map Some F) 0 0 0 = Ok s /\ fftlog g nu width ell s = (y, Fo) /\
  forall j, (j < 2 * L)%nat -> let yj := (ell + 1) / (x0 * Rpower r (INR (2 * L - 1 - j))) in nth j y None = Some yj /\
    nth j Fo None = Some (v * (sqrt PI / 4 * Re (g (RtoC nu))) * Rpower yj (- nu)).
Proof.
  intros Hx Hr Hr1 Hell HL Hcut Hc2 HF Hf. destruct (init_plain x0 r L F Hx Hr HL HF) as (s & E & Sx & Sf & SN & Sd & Sl).
  exists s, (y_array ell s), (Fy_array g nu width ell s). split; auto.
  split; [unfold fftlog; rewrite !Sl; auto; rewrite ?Fy_length, ?y_array_length, ?Sx, ?geom_length; auto|].
  intros j Hj yj. split; [apply (yarr_nth width ell x0 r L F s); auto; lia|].
  rewrite (power_val g nu width ell x0 r L F s) with (v := v); auto. rewrite window_below by auto. rewrite Rmult_1_l. reflexivity.
Qed.
