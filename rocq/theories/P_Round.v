(** Inversion of the discrete transforms, and the Hankel transform applied twice. *)
From Coq Require Import Reals List Bool Arith ZArith Lia Lra.
From Coquelicot Require Import Complex.
From Verif Require Import Base_R Base_C Base_List M_Fftlog S_Fftlog P_Fftlog P_FftConv.
Import ListNotations.
Local Open Scope R_scope.

Definition dft (N : nat) (f : nat -> R) (m : nat) : C :=
  sumC (map (fun n => RtoC (f n) * cexpi (- (2 * PI * INR n * INR m / INR N)))%C (seq 0 N)).
Lemma rfft_dft f m : rfft f m = dft (length f) (fun n => nth n f 0) m.
Proof. reflexivity. Qed.
Lemma dft_ext N f h m : (forall n, (n < N)%nat -> f n = h n) -> dft N f m = dft N h m.
Proof. intros H. unfold dft. apply sumC_ext. intros n Hn. apply in_seq in Hn. rewrite H by lia. reflexivity. Qed.
Lemma dft_map N f m : rfft (map f (seq 0 N)) m = dft N f m.
Proof.
  rewrite rfft_dft, map_length, seq_length. apply dft_ext. intros n Hn. rewrite (nth_map_lt _ _ n O) by (rewrite seq_length; auto). rewrite seq_nth by auto. reflexivity.
Qed.
Lemma dft_plus N f h m : dft N (fun n => f n + h n) m = (dft N f m + dft N h m)%C.
Proof. unfold dft. rewrite <- sumC_plus. apply sumC_ext. intros n _. rewrite RtoC_plus. ring. Qed.
Lemma dft_scal N c f m : dft N (fun n => c * f n) m = (RtoC c * dft N f m)%C.
Proof. unfold dft. rewrite <- sumC_scal. apply sumC_ext. intros n _. rewrite RtoC_mult. ring. Qed.
Lemma dft_zero N m : dft N (fun _ => 0) m = RtoC 0.
Proof. unfold dft. induction (seq 0 N) as [|a l IH]; [reflexivity|]. cbn [map sumC]. rewrite IH. ring. Qed.
Lemma dft_sum {A} N (T : A -> nat -> R) l m : dft N (fun n => sumR (map (fun a => T a n) l)) m = sumC (map (fun a => dft N (T a) m) l).
Proof.
  induction l as [|a l IH]; cbn [map sumR sumC]; [apply dft_zero|]. rewrite <- IH. apply (dft_plus N (T a) (fun n => sumR (map (fun a => T a n) l))).
Qed.
Lemma dft_harmonic L k m (u : C) : (0 < k < L)%nat -> (m <= L)%nat ->
  dft (2 * L) (fun j => Re (u * cexpi (2 * PI * INR k * INR j / INR (2 * L)))%C) m = if (m =? k)%nat then (RtoC (INR L) * u)%C else RtoC 0.
Proof.
  intros Hk Hm. rewrite <- dft_map. apply rfft_harmonic; auto; [rewrite map_length, seq_length; auto|].
  intros i Hi. rewrite (nth_map_lt _ _ i O) by (rewrite seq_length; auto). rewrite seq_nth by auto. cbn [Nat.add]. do 3 f_equal. assert (0 < INR (2 * L)) by (apply lt_0_INR; lia). field. lra.
Qed.
Lemma dft_constant L m v : (0 < L)%nat -> (m <= L)%nat -> dft (2 * L) (fun _ => v) m = if (m =? 0)%nat then RtoC (INR (2 * L) * v) else RtoC 0.
Proof.
  intros HL Hm. rewrite <- dft_map. apply rfft_constant; auto; [rewrite map_length, seq_length; auto|].
  intros i Hi. rewrite (nth_map_lt _ _ i O) by (rewrite seq_length; auto). reflexivity.
Qed.
Lemma dft_nyquist L m v : (0 < L)%nat -> (m <= L)%nat -> dft (2 * L) (fun j => v * cos (PI * INR j)) m = if (m =? L)%nat then RtoC (INR (2 * L) * v) else RtoC 0.
Proof.
  intros HL Hm. assert (HN : 0 < INR (2 * L)) by (apply lt_0_INR; lia). assert (HLp : 0 < INR L) by (apply lt_0_INR; lia). unfold dft.
  rewrite (sumC_ext _ (fun i => RtoC v * cexpi (2 * PI * IZR (Z.of_nat L - Z.of_nat m) / INR (2 * L) * INR i))%C).
  2: { intros i _. rewrite RtoC_mult. replace (RtoC (cos (PI * INR i))) with (cexpi (PI * INR i)) by (unfold cexpi, RtoC; rewrite sin_PI_nat; reflexivity).
       rewrite <- Cmult_assoc, <- cexpi_add. do 2 f_equal. rewrite minus_IZR, <- !INR_IZR_INZ, mult_INR. simpl (INR 2). field. lra. }
  rewrite sumC_scal. destruct (Nat.eqb_spec m L) as [->|Hne].
  - rewrite (sumC_ext _ (fun i : nat => RtoC 1)). rewrite root_sum_0. rewrite RtoC_mult. ring.
    intros i Hi. rewrite Z.sub_diag. replace (2 * PI * 0 / INR (2 * L) * INR i) with 0 by (field; lra). apply cexpi_0.
  - rewrite (root_sum (2 * L) (Z.of_nat L - Z.of_nat m)) by lia. ring.
Qed.
Lemma sumC_single (f : nat -> C) a n k : (a <= k < a + n)%nat -> (forall i, (a <= i < a + n)%nat -> i <> k -> f i = RtoC 0) -> sumC (map f (seq a n)) = f k.
Proof.
  revert a. induction n as [|n IH]; intros a Hk H; [lia|]. cbn [seq map sumC]. destruct (Nat.eq_dec a k) as [->|Hne].
  - assert (Z : sumC (map f (seq (S k) n)) = RtoC 0).
    { clear IH Hk. assert (Q : forall i, In i (seq (S k) n) -> f i = RtoC 0) by (intros i Hi; apply in_seq in Hi; apply H; lia).
      induction (seq (S k) n) as [|b l IHl]; [reflexivity|]. cbn [map sumC]. rewrite Q, IHl by (simpl; auto; intros; apply Q; simpl; auto). ring. }
    rewrite Z. ring.
  - rewrite IH by (try lia; intros; apply H; lia). rewrite (H a) by lia. ring.
Qed.
Lemma sumC_zero {A} (f : A -> C) l : (forall a, In a l -> f a = RtoC 0) -> sumC (map f l) = RtoC 0.
Proof. induction l as [|b l IHl]; intros Q; [reflexivity|]. cbn [map sumC]. rewrite Q, IHl by (simpl; auto; intros; apply Q; simpl; auto). ring. Qed.
(** numpy: the real transform of the inverse real transform *)
Lemma rfft_irfft (c : nat -> C) L m : (0 < L)%nat -> (m <= L)%nat ->
  dft (2 * L) (irfft c L) m = if ((m =? 0) || (m =? L))%nat%bool then RtoC (Re (c m)) else c m.
Proof.
  intros HL Hm. assert (HN : 0 < INR (2 * L)) by (apply lt_0_INR; lia). assert (HLp : 0 < INR L) by (apply lt_0_INR; lia).
  rewrite (dft_ext _ _ (fun j => / INR (2 * L) * (Re (c 0%nat) + 2 * sumR (map (fun k => Re (c k * cexpi (2 * PI * INR k * INR j / INR (2 * L)))%C) (seq 1 (L - 1))) + Re (c L) * cos (PI * INR j))))
    by (intros j _; unfold irfft, Rdiv; ring).
  rewrite dft_scal. rewrite (dft_plus _ (fun j => Re (c 0%nat) + 2 * sumR (map (fun k => Re (c k * cexpi (2 * PI * INR k * INR j / INR (2 * L)))%C) (seq 1 (L - 1)))) (fun j => Re (c L) * cos (PI * INR j))).
  rewrite (dft_plus _ (fun _ => Re (c 0%nat)) (fun j => 2 * sumR (map (fun k => Re (c k * cexpi (2 * PI * INR k * INR j / INR (2 * L)))%C) (seq 1 (L - 1))))).
  rewrite (dft_scal _ 2 (fun j => sumR (map (fun k => Re (c k * cexpi (2 * PI * INR k * INR j / INR (2 * L)))%C) (seq 1 (L - 1))))).
  rewrite (dft_sum (2 * L) (fun k j => Re (c k * cexpi (2 * PI * INR k * INR j / INR (2 * L)))%C)).
  rewrite dft_constant, dft_nyquist by auto.
  assert (HI : (RtoC (/ INR (2 * L)) * RtoC (INR (2 * L)) = RtoC 1)%C) by (rewrite <- RtoC_mult, Rinv_l by lra; reflexivity).
  destruct (Nat.eqb_spec m 0) as [->|H0].
  - rewrite sumC_zero. 2: { intros k Hk. apply in_seq in Hk. rewrite dft_harmonic by lia. destruct (Nat.eqb_spec 0 k); [lia|reflexivity]. }
    destruct (Nat.eqb_spec 0 L); [lia|]. cbn [orb]. rewrite RtoC_mult. rewrite <- (Cmult_1_l (RtoC (Re (c 0%nat)))) at 2. rewrite <- HI. ring.
  - destruct (Nat.eqb_spec m L) as [->|H1]; cbn [orb].
    + rewrite sumC_zero. 2: { intros k Hk. apply in_seq in Hk. rewrite dft_harmonic by lia. destruct (Nat.eqb_spec L k); [lia|reflexivity]. }
      rewrite RtoC_mult. rewrite <- (Cmult_1_l (RtoC (Re (c L)))) at 2. rewrite <- HI. ring.
    + rewrite (sumC_single _ 1 (L - 1) m).
      * rewrite dft_harmonic by lia. rewrite Nat.eqb_refl. replace (RtoC (INR (2 * L))) with (RtoC 2 * RtoC (INR L))%C in HI by (rewrite <- RtoC_mult, mult_INR; reflexivity). rewrite <- (Cmult_1_l (c m)) at 2. rewrite <- HI. ring.
      * lia.
      * intros i Hi Hne. rewrite dft_harmonic by lia. destruct (Nat.eqb_spec m i); [congruence|reflexivity].
Qed.
(** the inverse real transform of the real transform *)
Lemma seq_rev_sum (f : nat -> R) n a : sumR (map f (seq a n)) = sumR (map (fun m => f (a + a + n - 1 - m)%nat) (seq a n)).
Proof.
  revert a. induction n as [|n IH]; intros a; [reflexivity|]. rewrite seq_S at 1. rewrite map_app, sumR_app. cbn [map sumR seq]. rewrite IH. rewrite <- seq_shift, map_map.
  rewrite (sumR_ext (fun x => f (a + a + S n - 1 - S x)%nat) (fun m => f (a + a + n - 1 - m)%nat)) by (intros; f_equal; lia).
  replace (a + a + S n - 1 - a)%nat with (a + n)%nat by lia. ring.
Qed.
Lemma seq_shift_by k a n : map (fun i => (k + i)%nat) (seq a n) = seq (k + a) n.
Proof. revert a; induction n as [|n IH]; intros a; [reflexivity|]. cbn [seq map]. rewrite IH. do 2 f_equal. lia. Qed.
Lemma cos_turns x p : cos (x + 2 * PI * IZR p) = cos x.
Proof. pose proof (cexpi_add x (2 * PI * IZR p)) as E. rewrite cexpi_2PI in E. apply (f_equal fst) in E. unfold cexpi in E. simpl in E. rewrite E. ring. Qed.
Lemma cos_delta L p : (0 < L)%nat -> (Z.abs p < Z.of_nat (2 * L))%Z ->
  halfsum L (fun m => cos (2 * PI * INR m * IZR p / INR (2 * L))) = if (p =? 0)%Z then 1 else 0.
Proof.
  intros HL Hp. assert (HN : 0 < INR (2 * L)) by (apply lt_0_INR; lia). assert (HLp : 0 < INR L) by (apply lt_0_INR; lia).
  set (T := fun m : nat => cos (2 * PI * INR m * IZR p / INR (2 * L))).
  assert (Full : sumR (map T (seq 0 (2 * L))) = T 0%nat + 2 * sumR (map T (seq 1 (L - 1))) + T L).
  { assert (ES : seq 0 (2 * L) = (0 :: seq 1 (L - 1) ++ L :: seq (S L) (L - 1))%nat).
    { destruct L as [|n]; [lia|]. replace (2 * S n)%nat with (S (n + S n)) by lia. cbn [seq]. f_equal. rewrite seq_app. replace (S n - 1)%nat with n by lia. f_equal. }
    rewrite ES. cbn [map]. rewrite map_app. cbn [map sumR]. rewrite sumR_app. cbn [sumR].
    replace (sumR (map T (seq (S L) (L - 1)))) with (sumR (map T (seq 1 (L - 1)))); [ring|].
    rewrite (seq_rev_sum T). replace (S L) with (L + 1)%nat by lia. rewrite <- seq_shift_by. 
    rewrite map_map. apply sumR_ext. intros m Hm. apply in_seq in Hm. unfold T. replace (1 + 1 + (L - 1) - 1 - m)%nat with (L - m)%nat by lia. rewrite plus_INR, minus_INR by lia.
    rewrite <- (cos_neg (2 * PI * (INR L - INR m) * IZR p / INR (2 * L))), <- (cos_turns (- (2 * PI * (INR L - INR m) * IZR p / INR (2 * L))) p). f_equal.
    rewrite mult_INR. simpl (INR 2). field. lra. }
  unfold halfsum. fold (T 0%nat) (T L). rewrite <- Full. destruct (Z.eqb_spec p 0) as [->|Hne].
  - rewrite (sumR_ext T (fun _ => 1)). 2: { intros m _. unfold T. replace (2 * PI * INR m * 0 / INR (2 * L)) with 0 by (field; lra). apply cos_0. }
    replace (sumR (map (fun _ => 1) (seq 0 (2 * L)))) with (INR (2 * L)); [field; lra|]. pose proof (f_equal Re (root_sum_0 (2 * L))) as E. rewrite Re_sumC, map_map in E. exact (eq_sym E).
  - replace (sumR (map T (seq 0 (2 * L)))) with 0; [field; lra|]. pose proof (f_equal Re (root_sum (2 * L) p ltac:(lia) ltac:(lia))) as E. rewrite Re_sumC, map_map in E. cbn [Re RtoC fst] in E. rewrite <- E.
    apply sumR_ext. intros m _. unfold T. unfold cexpi. cbn [Re fst]. f_equal. field. lra.
Qed.
Lemma irfft_rfft (f : nat -> R) L i : (i < 2 * L)%nat -> irfft (dft (2 * L) f) L i = f i.
Proof.
  intros Hi. assert (HL : (0 < L)%nat) by lia. assert (HN : 0 < INR (2 * L)) by (apply lt_0_INR; lia). rewrite irfft_halfsum by auto.
  rewrite (halfsum_ext L _ (fun m => sumR (map (fun n => f n * cos (2 * PI * INR m * IZR (Z.of_nat i - Z.of_nat n) / INR (2 * L))) (seq 0 (2 * L))))).
  2: { intros m _. unfold dft. rewrite sumC_mult_r, map_map, Re_sumC, map_map. apply sumR_ext. intros n _. rewrite <- Cmult_assoc, <- cexpi_add, Re_scal. f_equal. unfold cexpi. cbn [Re fst].
       f_equal. rewrite minus_IZR, <- !INR_IZR_INZ. field. lra. }
  rewrite (halfsum_sum L (fun n m => f n * cos (2 * PI * INR m * IZR (Z.of_nat i - Z.of_nat n) / INR (2 * L)))).
  rewrite (sumR_single _ (2 * L) i Hi).
  - rewrite (halfsum_scal L (fun m => cos (2 * PI * INR m * IZR (Z.of_nat i - Z.of_nat i) / INR (2 * L)))). rewrite cos_delta by lia. rewrite Z.sub_diag. cbn. ring.
  - intros n Hn Hne. rewrite (halfsum_scal L (fun m => cos (2 * PI * INR m * IZR (Z.of_nat i - Z.of_nat n) / INR (2 * L)))). rewrite cos_delta by lia.
    destruct (Z.eqb_spec (Z.of_nat i - Z.of_nat n) 0); [lia|ring].
Qed.

(** ** the order-zero Hankel transform on a geometric grid *)
Lemma rgeom_length a r n : length (rgeom a r n) = n.
Proof. unfold rgeom. rewrite map_length, seq_length. reflexivity. Qed.
Lemma rgeom_nth a r n i : (i < n)%nat -> nth i (rgeom a r n) 0 = a * Rpower r (INR i).
Proof. intros H. unfold rgeom. rewrite (nth_map_lt _ _ i O) by (rewrite seq_length; auto). rewrite seq_nth by auto. reflexivity. Qed.
Lemma rgeom_geom a r n : map Some (rgeom a r n) = geom a r n.
Proof. unfold rgeom, geom. rewrite map_map. reflexivity. Qed.
Definition window (width : R) (L m : nat) : R := match c_window L (cut_of width (2 * L)) m with Some w => w | None => 0 end.
Definition hcoef (g : C -> C) (width d lxy : R) (L : nat) (phi : nat -> R) (m : nat) : C :=
  let eta := 2 * PI / (INR (2 * L) * d) * INR m in
  Cconj (dft (2 * L) phi m * RtoC (window width L m) * cexpi (- (eta * lxy)) * g (1.5%R, eta))%C.
Lemma hankel_geom g width x0 r L (f : list R) : 0 < x0 -> 0 < r -> r <> 1 -> (0 < L)%nat -> length f = (2 * L)%nat -> cut_of width (2 * L) <> 1%nat ->
  let y0 := 0.5 / (x0 * Rpower r (INR (2 * L - 1))) in
  hankel g 1.5 width 0 (geom x0 r (2 * L)) (map Some f) 0 0 0 =
  Ok (geom y0 r (2 * L), map (fun j => Some (irfft (hcoef g width (ln r) (ln (x0 * y0)) L (fun i => nth i f 0 / (x0 * Rpower r (INR i)))) L j * (sqrt 2 / 4) / (y0 * Rpower r (INR j)))) (seq 0 (2 * L))).
Proof.
  intros Hx Hr Hr1 HL Hf Hcut y0. pose proof PI_RGT_0 as Hpi. set (F := map (fun '(x, v) => sqrt x * v) (combine (rgeom x0 r (2 * L)) f)).
  assert (LF : length F = (2 * L)%nat) by (unfold F; rewrite map_length, combine_length, rgeom_length, Hf; lia).
  assert (xpos : forall i, 0 < x0 * Rpower r (INR i)) by (intros; apply Rmult_lt_0_compat; auto; apply Rpower_pos).
  assert (EF : map (fun '(x, f) => nmul (nsqrt x) f) (combine (geom x0 r (2 * L)) (map Some f)) = map Some F).
  { unfold F. rewrite map_map. rewrite <- rgeom_geom. assert (Q : forall l l', (forall x, In x l -> 0 < x) -> map (fun '(x, f) => nmul (nsqrt x) f) (combine (map Some l) (map Some l')) = map (fun x => Some (let '(x, v) := x in sqrt x * v)) (combine l l')).
    { induction l as [|a l IH]; intros [|b l'] Hp; try reflexivity. cbn [map combine]. rewrite IH by (intros; apply Hp; simpl; auto). f_equal. unfold nmul, nsqrt, nbind, nmap2.
      pose proof (Hp a (or_introl eq_refl)). destruct (Rltb_spec a 0); [lra|reflexivity]. }
    apply Q. intros x Hi. unfold rgeom in Hi. apply in_map_iff in Hi. destruct Hi as (i & <- & _). apply xpos. }
  unfold hankel. rewrite EF. destruct (init_plain x0 r L F Hx Hr HL LF) as (s & E & Sx & Sf & SN & Sd & Sl). rewrite E. cbn [bind].
  replace (0 - 0.5) with (-0.5) by lra. unfold fftlog. rewrite !Sl by (rewrite ?Fy_length, ?y_array_length, ?Sx, ?geom_length; auto). cbn [bind].
  assert (Hell : 0 < -0.5 + 1) by lra.
  assert (Yv : forall j, (j < 2 * L)%nat -> nth j (y_array (-0.5) s) None = Some (y0 * Rpower r (INR j))).
  { intros j Hj. rewrite (yarr_nth width (-0.5) x0 r L F s) by (auto; lia). f_equal. unfold y0. replace (-0.5 + 1) with 0.5 by lra. generalize 0.5 as q; intros q. rewrite !minus_INR by lia. unfold Rminus. rewrite !Rpower_plus, !Rpower_Ropp.
    pose proof (Rpower_pos r (INR j)). pose proof (Rpower_pos r (INR (2 * L))). pose proof (Rpower_pos r (INR 1)). field. repeat split; lra. }
  assert (EY : y_array (-0.5) s = geom y0 r (2 * L)).
  { apply (list_eq_nth None). rewrite y_array_length, Sx, !geom_length; auto. intros j Hj. rewrite y_array_length, Sx, geom_length in Hj. rewrite Yv, geom_nth by auto. reflexivity. }
  rewrite EY. do 2 f_equal. assert (LFy : length (Fy_array g 1.5 width (-0.5) s) = (2 * L)%nat) by (rewrite Fy_length; auto). apply (list_eq_nth None).
  - rewrite !map_length, combine_length, LFy, geom_length, seq_length. lia.
  - intros j Hj. rewrite map_length, combine_length, LFy, geom_length, Nat.min_id in Hj.
    rewrite (nth_map_lt _ _ j (None, None)) by (rewrite combine_length, LFy, geom_length; lia). rewrite combine_nth_lt by (rewrite LFy, geom_length; auto).
    rewrite (nth_map_lt _ (seq 0 (2 * L)) j O) by (rewrite seq_length; auto). rewrite seq_nth by auto. cbn [Nat.add].
    rewrite geom_nth by auto. rewrite (Fy_val g 1.5 width (-0.5) x0 r L F s) by (auto; lia).
    assert (Ey : (-0.5 + 1) / (x0 * Rpower r (INR (2 * L - 1 - j))) = y0 * Rpower r (INR j)).
    { pose proof (Yv j Hj) as Q. rewrite (yarr_nth width (-0.5) x0 r L F s) in Q by (auto; lia). injection Q as Q. exact Q. }
    assert (Ey0 : (-0.5 + 1) / (x0 * Rpower r (INR (2 * L - 1 - 0))) = y0) by (unfold y0; rewrite Nat.sub_0_r; f_equal; lra).
    rewrite Ey, Ey0. assert (y0pos : 0 < y0) by (unfold y0; apply Rdiv_lt_0_compat; [lra|apply xpos]).
    assert (yp : 0 < y0 * Rpower r (INR j)) by (apply Rmult_lt_0_compat; auto; apply Rpower_pos). set (y := y0 * Rpower r (INR j)) in *.
    unfold nsqrt, nbind, nmul, nmap2. destruct (Rltb_spec (2 * y / PI) 0) as [Hn|_]; [exfalso; assert (0 < 2 * y / PI) by (apply Rdiv_lt_0_compat; lra); lra|]. f_equal.
    rewrite !irfft_halfsum by auto.
    rewrite (halfsum_ext L _ (fun m => Re (hcoef g width (ln r) (ln (x0 * y0)%R) L (fun i => (nth i f 0 / (x0 * Rpower r (INR i)))%R) m * cexpi (2 * PI * INR m * INR j / INR (2 * L)))%C)).
    2: { intros m Hm. unfold hcoef, window. cbv zeta. do 5 f_equal. rewrite rfft_dft, fbv_length. f_equal. apply dft_ext. intros i Hi. rewrite fbv_nth by auto. unfold F.
         rewrite (nth_map_lt _ _ i (0, 0)) by (rewrite combine_length, rgeom_length; lia). rewrite combine_nth_lt by (rewrite rgeom_length; auto). rewrite rgeom_nth by auto.
         set (x := x0 * Rpower r (INR i)). assert (0 < x) by apply xpos. rewrite Rpower_Ropp. replace 1.5 with (1 + / 2) by lra. rewrite Rpower_plus, Rpower_1, Rpower_sqrt by auto.
         assert (0 < sqrt x) by (apply sqrt_lt_R0; auto). field. lra. }
    rewrite Rpower_Ropp. replace 1.5 with (1 + / 2) by lra. rewrite Rpower_plus, Rpower_1, Rpower_sqrt by auto.
    replace (2 * y / PI) with (2 * y * / PI) by reflexivity. rewrite sqrt_mult by (try lra; left; apply Rinv_0_lt_compat; auto). rewrite sqrt_mult by lra. rewrite sqrt_inv by auto || idtac.
    assert (0 < sqrt y) by (apply sqrt_lt_R0; auto). assert (0 < sqrt PI) by (apply sqrt_lt_R0; auto). field. repeat split; lra.
Qed.

Lemma dft_real_0 N f : exists d, dft N f 0 = RtoC d.
Proof.
  exists (Re (dft N f 0)). apply Ceq; [reflexivity|]. cbn [snd RtoC]. change (Im (dft N f 0) = 0). unfold dft.
  assert (Q : forall l, Im (sumC (map (fun n : nat => RtoC (f n) * cexpi (- (2 * PI * INR n * INR 0 / INR N)))%C l)) = 0); [|apply Q].
  induction l as [|a l IH]; [reflexivity|]. cbn [map sumC]. rewrite <- (Rplus_0_r 0). rewrite <- IH at 3 || idtac.
  change (Im (RtoC (f a) * cexpi (- (2 * PI * INR a * INR 0 / INR N)))%C + Im (sumC (map (fun n : nat => RtoC (f n) * cexpi (- (2 * PI * INR n * INR 0 / INR N)))%C l)) = 0 + 0). rewrite IH.
  simpl (INR 0). unfold Rdiv. rewrite Rmult_0_r, Rmult_0_l, Ropp_0, cexpi_0. simpl. ring.
Qed.
Lemma dft_real_L L f : (0 < L)%nat -> exists d, dft (2 * L) f L = RtoC d.
Proof.
  intros HL. assert (HN : 0 < INR (2 * L)) by (apply lt_0_INR; lia). assert (HLp : 0 < INR L) by (apply lt_0_INR; lia).
  exists (Re (dft (2 * L) f L)). apply Ceq; [reflexivity|]. cbn [snd RtoC]. change (Im (dft (2 * L) f L) = 0). unfold dft.
  assert (Q : forall l, Im (sumC (map (fun n : nat => RtoC (f n) * cexpi (- (2 * PI * INR n * INR L / INR (2 * L))))%C l)) = 0); [|apply Q].
  induction l as [|a l IH]; [reflexivity|]. cbn [map sumC].
  change (Im (RtoC (f a) * cexpi (- (2 * PI * INR a * INR L / INR (2 * L))))%C + Im (sumC (map (fun n : nat => RtoC (f n) * cexpi (- (2 * PI * INR n * INR L / INR (2 * L))))%C l)) = 0). rewrite IH.
  replace (2 * PI * INR a * INR L / INR (2 * L)) with (PI * INR a) by (rewrite mult_INR; simpl (INR 2); field; lra).
  unfold cexpi. simpl. rewrite sin_neg, sin_PI_nat. ring.
Qed.
Lemma spectrum_dft x f N m : length x = N -> spectrum x f m = dft N (fun i => nth i x 0 * nth i f 0) m.
Proof. intros <-. reflexivity. Qed.
Lemma x2_times_length x f : length x = length f -> length (x2_times x f) = length f.
Proof. intros H. unfold x2_times. rewrite map_length, combine_length. lia. Qed.
Lemma x2_times_nth x f i : length x = length f -> (i < length f)%nat -> nth i (x2_times x f) 0 = nth i x 0 ^ 2 * nth i f 0.
Proof. intros H Hi. unfold x2_times. rewrite (nth_map_lt _ _ i (0, 0)) by (rewrite combine_length; lia). rewrite combine_nth_lt by auto. reflexivity. Qed.

Lemma round_trip (g : C -> C) width x0 r L (f : list R) : 0 < x0 -> 0 < r -> r <> 1 -> (0 < L)%nat -> length f = (2 * L)%nat -> cut_of width (2 * L) <> 1%nat ->
  (forall t, (Cmod (g (1.5%R, t)) * Cmod (g (1.5%R, t)) = 8)%R) -> Im (g (1.5%R, 0)) = 0 ->
  let x := rgeom x0 r (2 * L) in
  exists k F f' kappa, hankel g 1.5 width 0 (map Some x) (map Some (x2_times x f)) 0 0 0 = Ok (map Some k, map Some F) /\
    hankel g 1.5 width 0 (map Some k) (map Some (x2_times k F)) 0 0 0 = Ok (map Some x, map Some f') /\ length f' = length x /\ 0 <= kappa <= 1 /\
    forall m, (m <= L)%nat -> spectrum x f' m = (RtoC (window width L m ^ 2 * if (m =? L)%nat then kappa else 1) * spectrum x f m)%C.
Proof.
  intros Hx Hr Hr1 HL Hf Hcut Hg Hg0 x. set (y0 := 0.5 / (x0 * Rpower r (INR (2 * L - 1)))).
  assert (xpos : forall i, 0 < x0 * Rpower r (INR i)) by (intros; apply Rmult_lt_0_compat; auto; apply Rpower_pos).
  assert (y0pos : 0 < y0) by (unfold y0; apply Rdiv_lt_0_compat; [lra|apply xpos]).
  assert (ypos : forall i, 0 < y0 * Rpower r (INR i)) by (intros; apply Rmult_lt_0_compat; auto; apply Rpower_pos).
  assert (Lx : length x = (2 * L)%nat) by apply rgeom_length. assert (Lx2 : length (x2_times x f) = (2 * L)%nat) by (rewrite x2_times_length; lia).
  set (phi := fun i => nth i x 0 * nth i f 0). set (lxy := ln (x0 * y0)). set (h1 := hcoef g width (ln r) lxy L phi).
  set (F := map (fun j => irfft h1 L j * (sqrt 2 / 4) / (y0 * Rpower r (INR j))) (seq 0 (2 * L))).
  assert (LF : length F = (2 * L)%nat) by (unfold F; rewrite map_length, seq_length; auto). set (k := rgeom y0 r (2 * L)). assert (Lk : length k = (2 * L)%nat) by apply rgeom_length.
  set (psi := fun j => irfft h1 L j * (sqrt 2 / 4)). set (h2 := hcoef g width (ln r) lxy L psi).
  set (f' := map (fun j => irfft h2 L j * (sqrt 2 / 4) / (x0 * Rpower r (INR j))) (seq 0 (2 * L))).
  set (q := fun m => let eta := 2 * PI / (INR (2 * L) * ln r) * INR m in (cexpi (- (eta * lxy)) * g (1.5%R, eta))%C).
  assert (S2 : sqrt 2 * sqrt 2 = 2) by (apply sqrt_sqrt; lra).
  assert (hext : forall w d l LL a b, (forall i, (i < 2 * LL)%nat -> a i = b i) -> forall m, hcoef g w d l LL a m = hcoef g w d l LL b m).
  { intros. unfold hcoef. cbv zeta. rewrite (dft_ext _ a b) by auto. reflexivity. }
  assert (iext : forall a b LL j, (0 < LL)%nat -> (forall m, a m = b m) -> irfft a LL j = irfft b LL j).
  { intros a b LL j HLL Hab. rewrite !irfft_halfsum by auto. apply halfsum_ext. intros m _. rewrite Hab. reflexivity. }
  assert (qmod : forall m, (fst (q m) * fst (q m) + snd (q m) * snd (q m) = 8)%R).
  { intros m. rewrite <- Cmod_sq. unfold q. cbv zeta. rewrite Cmod_mult, Cmod_cexpi, Rmult_1_l. apply Hg. }
  exists k, F, f', (Re (q L) * Re (q L) / 8). split.
  { unfold x. rewrite rgeom_geom. rewrite hankel_geom by auto. fold y0. fold lxy. f_equal. f_equal; [unfold k; rewrite rgeom_geom; reflexivity|].
    unfold F. rewrite map_map. apply map_ext_in. intros j Hj. apply in_seq in Hj. do 3 f_equal. apply iext; auto. intros m. apply hext. intros i Hi. fold x. rewrite x2_times_nth by lia. unfold x. rewrite rgeom_nth by auto. unfold phi. unfold x. rewrite rgeom_nth by auto.
    pose proof (xpos i). field. repeat split; try lra; apply Rgt_not_eq, Rpower_pos. }
  assert (U0 : 0.5 / (y0 * Rpower r (INR (2 * L - 1))) = x0).
  { unfold y0. pose proof (Rpower_pos r (INR (2 * L - 1))). assert (Q : forall c a b, c <> 0 -> a <> 0 -> b <> 0 -> c / (c / (a * b) * b) = a) by (intros; field; auto). apply Q; lra. }
  split.
  { unfold k at 1. rewrite rgeom_geom. rewrite hankel_geom by (auto; rewrite x2_times_length; lia). rewrite U0. replace (y0 * x0) with (x0 * y0) by ring. fold lxy. unfold x at 1. rewrite rgeom_geom. do 2 f_equal.
    unfold f'. rewrite map_map. apply map_ext_in. intros j Hj. apply in_seq in Hj. do 3 f_equal. apply iext; auto. intros m. apply hext. intros i Hi. rewrite x2_times_nth by lia. unfold k. rewrite rgeom_nth by auto.
    unfold F. rewrite (nth_map_lt _ _ i O) by (rewrite seq_length; auto). rewrite seq_nth by auto. cbn [Nat.add]. unfold psi. pose proof (ypos i). field. split; [apply Rgt_not_eq, Rpower_pos|lra]. }
  split; [unfold f'; rewrite map_length, seq_length; auto|]. split.
  { pose proof (qmod L). unfold Re. split; [assert (0 <= fst (q L) * fst (q L)) by nra; lra|nra]. }
  intros m Hm. rewrite !(spectrum_dft x _ (2 * L)) by auto. fold phi.
  rewrite (dft_ext _ _ (fun j => sqrt 2 / 4 * irfft h2 L j)).
  2: { intros i Hi. unfold x, f'. rewrite rgeom_nth by auto. rewrite (nth_map_lt _ _ i O) by (rewrite seq_length; auto). rewrite seq_nth by auto. cbn [Nat.add]. pose proof (xpos i). field. split; [apply Rgt_not_eq, Rpower_pos|lra]. }
  rewrite dft_scal, rfft_irfft by auto.
  assert (Psi : dft (2 * L) psi m = (RtoC (sqrt 2 / 4) * if ((m =? 0) || (m =? L))%nat%bool then RtoC (Re (h1 m)) else h1 m)%C).
  { unfold psi. rewrite (dft_ext _ _ (fun j => sqrt 2 / 4 * irfft h1 L j)) by (intros; ring). rewrite dft_scal, rfft_irfft by auto. reflexivity. }
  assert (E1 : h1 m = Cconj (dft (2 * L) phi m * RtoC (window width L m) * q m)%C) by (unfold h1, hcoef, q; cbv zeta; f_equal; ring).
  assert (E2 : h2 m = Cconj (dft (2 * L) psi m * RtoC (window width L m) * q m)%C) by (unfold h2, hcoef, q; cbv zeta; f_equal; ring).
  assert (Iq : snd (q 0%nat) = 0). { unfold q. simpl (INR 0). rewrite Rmult_0_r, Rmult_0_l, Ropp_0, cexpi_0. rewrite Cmult_1_l. exact Hg0. } clearbody q.
  set (w := window width L m) in *. set (D := dft (2 * L) phi m) in *. pose proof (qmod m) as Qm.
  assert (S8 : (RtoC (sqrt 2 / 4) * RtoC (sqrt 2 / 4) * RtoC 8 = RtoC 1)%C) by (rewrite <- !RtoC_mult; f_equal; nra).
  destruct (Nat.eqb_spec m 0) as [E0|N0].
  - cbn [orb] in *. destruct (Nat.eqb_spec m L); [lia|]. subst m. destruct (dft_real_0 (2 * L) phi) as [d Ed]. fold D in Ed.
    rewrite E2, Psi, E1, Ed. unfold Re. apply Ceq; simpl; rewrite ?Iq; [|ring]. rewrite Iq in Qm. simpl in Qm.
    transitivity (d * w * w * (fst (q 0%nat) * fst (q 0%nat)) * (sqrt 2 * sqrt 2) * / 16); [field|]. rewrite S2. replace (fst (q 0%nat) * fst (q 0%nat)) with 8 by lra. field.
  - destruct (Nat.eqb_spec m L) as [EL|NL]; cbn [orb] in *.
    + subst m. destruct (dft_real_L L phi HL) as [d Ed]. fold D in Ed. rewrite E2, Psi, E1, Ed. unfold Re. apply Ceq; simpl; [|ring].
      transitivity (d * w * w * (fst (q L) * fst (q L)) * (sqrt 2 * sqrt 2) * / 16); [field|]. rewrite S2. field.
    + rewrite E2, Psi, E1. rewrite !Cconj_mult, !Cconj_conj, !Cconj_RtoC. 
      transitivity ((RtoC (sqrt 2 / 4) * RtoC (sqrt 2 / 4) * (q m * Cconj (q m))) * (D * RtoC w * RtoC w))%C; [ring|].
      rewrite Cmult_conj, Cmod_sq, Qm, S8. rewrite !RtoC_mult, RtoC_pow. cbn [Cpow]. ring.
Qed.

Lemma irfft_ext a b L j : (forall m, (m <= L)%nat -> a m = b m) -> irfft a L j = irfft b L j.
Proof.
  intros H. unfold irfft. rewrite !H by lia. do 3 f_equal. f_equal. apply sumR_ext. intros m Hm. apply in_seq in Hm. rewrite H by lia. reflexivity.
Qed.
Lemma spectrum_inj x0 r L (f f' : list R) : 0 < x0 -> length f = (2 * L)%nat -> length f' = (2 * L)%nat ->
  (forall m, (m <= L)%nat -> spectrum (rgeom x0 r (2 * L)) f' m = spectrum (rgeom x0 r (2 * L)) f m) -> f' = f.
Proof.
  intros Hx Hf Hf' H. apply (list_eq_nth 0); [lia|]. intros i Hi. rewrite Hf' in Hi.
  assert (E : nth i (rgeom x0 r (2 * L)) 0 * nth i f' 0 = nth i (rgeom x0 r (2 * L)) 0 * nth i f 0).
  { rewrite <- (irfft_rfft (fun i => nth i (rgeom x0 r (2 * L)) 0 * nth i f' 0) L i Hi), <- (irfft_rfft (fun i => nth i (rgeom x0 r (2 * L)) 0 * nth i f 0) L i Hi).
    apply irfft_ext. intros m Hm. specialize (H m Hm). rewrite !(spectrum_dft _ _ (2 * L)) in H by apply rgeom_length. exact H. }
  rewrite rgeom_nth in E by auto. apply Rmult_eq_reg_l in E; auto. apply Rgt_not_eq. apply Rmult_lt_0_compat; auto. apply Rpower_pos.
Qed.
