(** Sectors that contain every point just once: their areas add up. *)
From Coq Require Import Reals List Bool Arith ZArith Lia Lra Classical_Prop.
From Coquelicot Require Import Coquelicot.
From Verif Require Import Base_R Base_List Base_C S_PointSource S_Inverse P_RowLimit P_AreaLimit P_ShootLimit.
Import ListNotations.
Local Open Scope R_scope.

Definition between (a b t : R) : R := if Rlt_dec a t then if Rlt_dec t b then 1 else 0 else 0.
Lemma between_in a b t : a < t < b -> between a b t = 1.
Proof. intros H. unfold between. destruct (Rlt_dec a t), (Rlt_dec t b); lra. Qed.
Lemma between_out a b t : ~ a < t < b -> between a b t = 0.
Proof. intros H. unfold between. destruct (Rlt_dec a t), (Rlt_dec t b); lra. Qed.
Lemma is_RInt_eq (f : R -> R) a b I J : I = J -> is_RInt f a b I -> is_RInt f a b J.
Proof. intros ->. auto. Qed.
Lemma is_RInt_zero a b : is_RInt (fun _ : R => 0) a b 0.
Proof. pose proof (is_RInt_const (V := R_NormedModule) a b 0) as Q. unfold scal in Q; simpl in Q; unfold mult in Q; simpl in Q. rewrite Rmult_0_r in Q. exact Q. Qed.
(** extension by zero *)
Lemma extend (f : R -> R) a b x y I : x <= a -> a <= b -> b <= y -> is_RInt f a b I -> is_RInt (fun t => between a b t * f t) x y I.
Proof.
  intros H1 H2 H3 H. assert (Z : forall c d, c <= d -> d <= a \/ b <= c -> is_RInt (fun t => between a b t * f t) c d 0).
  { intros c d Hcd O. apply is_RInt_ext with (f := fun _ => 0); [|apply is_RInt_zero]. rewrite Rmin_left, Rmax_right by auto. intros t Ht. rewrite between_out by lra. symmetry. apply Rmult_0_l. }
  apply (is_RInt_eq _ _ _ (plus (plus 0 I) 0)); [unfold plus; simpl; ring|].
  apply (is_RInt_Chasles (V := R_NormedModule) (fun t => between a b t * f t) x b y); [|apply Z; lra]. apply (is_RInt_Chasles (V := R_NormedModule) (fun t => between a b t * f t) x a b); [apply Z; lra|]. apply is_RInt_ext with (f := f); auto. rewrite Rmin_left, Rmax_right by auto. intros t Ht. rewrite between_in by lra. symmetry. apply Rmult_1_l.
Qed.
(** folding onto one period *)
Lemma fold_period (F : R -> R) p : 0 < p -> forall n x I, is_RInt F x (x + INR n * p) I -> is_RInt (fun t => sumn n (fun j => F (x + t + INR j * p))) 0 p I.
Proof.
  intros Hp. induction n as [|n IH]; intros x I H.
  - simpl in H. rewrite Rmult_0_l, Rplus_0_r in H. assert (E : I = 0). { rewrite <- (is_RInt_unique _ _ _ _ H). apply is_RInt_unique. apply (is_RInt_point (V := R_NormedModule)). } rewrite E. apply is_RInt_ext with (f := fun _ => 0); [intros; rewrite sumn_0; reflexivity|apply is_RInt_zero].
  - assert (P : 0 <= INR n * p) by (apply Rmult_le_pos; [apply pos_INR|lra]). rewrite S_INR, Rmult_plus_distr_r, Rmult_1_l in H.
    assert (E : ex_RInt F x (x + (INR n * p + p))) by (exists I; auto). assert (E1 : ex_RInt F x (x + INR n * p)) by (apply (ex_RInt_Chasles_1 F x _ (x + (INR n * p + p))); [lra|auto]). assert (E2 : ex_RInt F (x + INR n * p) (x + (INR n * p + p))) by (apply (ex_RInt_Chasles_2 F x _ (x + (INR n * p + p))); [lra|auto]).
    rewrite <- (is_RInt_unique _ _ _ _ H), <- (RInt_Chasles F _ _ _ E1 E2). set (I2 := RInt F (x + INR n * p) (x + (INR n * p + p))).
    assert (S2 : is_RInt (fun t => F (x + t + INR n * p)) 0 p I2).
    { assert (Q : is_RInt F (1 * 0 + (x + INR n * p)) (1 * p + (x + INR n * p)) I2). { replace (1 * 0 + (x + INR n * p)) with (x + INR n * p) by ring. replace (1 * p + (x + INR n * p)) with (x + (INR n * p + p)) by ring. apply (RInt_correct (V := R_CompleteNormedModule)); auto. }
      apply is_RInt_comp_lin in Q. eapply is_RInt_ext; [|exact Q]. intros t _. unfold scal; simpl; unfold mult; simpl. rewrite Rmult_1_l. f_equal. ring. }
    pose proof (is_RInt_plus _ _ _ _ _ _ (IH x _ (RInt_correct (V := R_CompleteNormedModule) F _ _ E1)) S2) as Q. eapply is_RInt_ext; [|exact Q]. intros t _. rewrite sumn_S. reflexivity.
Qed.
Definition turns (M : nat) (a b t : R) : R := sumn (2 * M + 1) (fun j => between a b (t + 2 * PI * (INR j - INR M))).
Lemma one_turn (f : R -> R) (M : nat) a b I : (forall t (k : Z), f (t + 2 * PI * IZR k) = f t) -> - (2 * PI * INR M) <= a -> a <= b -> b <= 2 * PI * (INR M + 1) -> is_RInt f a b I -> is_RInt (fun t => turns M a b t * f t) 0 (2 * PI) I.
Proof.
  intros Hf H1 H2 H3 H. pose proof PI_RGT_0 as HP. pose proof (extend f a b (- (2 * PI * INR M)) (2 * PI * (INR M + 1)) I H1 H2 H3 H) as Q.
  replace (2 * PI * (INR M + 1)) with (- (2 * PI * INR M) + INR (2 * M + 1) * (2 * PI)) in Q by (rewrite plus_INR, mult_INR; simpl; ring). apply fold_period in Q; [|lra]. eapply is_RInt_ext; [|exact Q].
  intros t _. unfold turns. rewrite (Rmult_comm (sumn _ _)), <- sumn_scal. apply sumn_ext. intros j _. replace (- (2 * PI * INR M) + t + INR j * (2 * PI)) with (t + 2 * PI * (INR j - INR M)) by ring.
  rewrite (INR_IZR_INZ j), (INR_IZR_INZ M), <- minus_IZR, Hf. ring.
Qed.
Lemma sumn_one n x i : (i < n)%nat -> x i = 1 -> (forall j, (j < n)%nat -> j <> i -> x j = 0) -> sumn n x = 1.
Proof.
  revert i. induction n as [|n IH]; intros i Hi E N; [lia|]. rewrite sumn_S. destruct (Nat.eq_dec i n) as [->|D].
  - rewrite E, (sumn_ext _ _ (fun _ => 0)) by (intros j Hj; apply N; lia). rewrite sumn_const. ring.
  - rewrite (N n) by lia. rewrite (IH i); [ring|lia|auto|]. intros j Hj Dj. apply N; lia.
Qed.
Lemma sumn_RInt n (f : nat -> R -> R) (I : nat -> R) a b : (forall i, (i < n)%nat -> is_RInt (f i) a b (I i)) -> is_RInt (fun t => sumn n (fun i => f i t)) a b (sumn n I).
Proof.
  induction n as [|n IH]; intros H.
  - apply is_RInt_ext with (f := fun _ => 0); [intros; rewrite sumn_0; reflexivity|apply is_RInt_zero].
  - rewrite sumn_S. pose proof (is_RInt_plus _ _ _ _ _ _ (IH ltac:(intros; apply H; lia)) (H n ltac:(lia))) as Q. eapply is_RInt_ext; [|exact Q]. intros t _. rewrite sumn_S. reflexivity.
Qed.

Lemma turn_sin x k : sin (x + 2 * IZR k * PI) = sin x.
Proof.
  destruct (Z_le_gt_dec 0 k).
  - rewrite <- (Z2Nat.id k) by lia. rewrite <- INR_IZR_INZ. apply sin_period.
  - rewrite <- (sin_period (x + 2 * IZR k * PI) (Z.to_nat (- k))). rewrite INR_IZR_INZ, Z2Nat.id, opp_IZR by lia. f_equal. ring.
Qed.
Lemma turn_cos x k : cos (x + 2 * IZR k * PI) = cos x.
Proof.
  destruct (Z_le_gt_dec 0 k).
  - rewrite <- (Z2Nat.id k) by lia. rewrite <- INR_IZR_INZ. apply cos_period.
  - rewrite <- (cos_period (x + 2 * IZR k * PI) (Z.to_nat (- k))). rewrite INR_IZR_INZ, Z2Nat.id, opp_IZR by lia. f_equal. ring.
Qed.
Lemma polar_turn r t (k : Z) : polar r (t + 2 * PI * IZR k) = polar r t.
Proof. replace (t + 2 * PI * IZR k) with (t + 2 * IZR k * PI) by ring. unfold polar. rewrite turn_cos, turn_sin. reflexivity. Qed.

Lemma sumn_nth (l : list R) : sumR l = sumn (length l) (fun i => nth i l 0).
Proof. induction l as [|x l IH]; [reflexivity|]. cbn [length sumR]. rewrite sumn_shift, IH. reflexivity. Qed.
Definition rlo (g : sector) := fst (fst g).
Definition rhi (g : sector) := snd (fst g).
Definition tlo (g : sector) := fst (snd g).
Definition thi (g : sector) := snd (snd g).
Lemma bounds (gs : list sector) : exists R0 (M : nat), 0 < R0 /\ forall i, (i < length gs)%nat -> let g := nth i gs no_sector in rhi g <= R0 /\ - (2 * PI * INR M) <= tlo g /\ thi g <= 2 * PI * (INR M + 1).
Proof.
  pose proof PI_RGT_0 as HP. assert (H1 : 1 <= 2 * PI) by (pose proof PI2_3_2; unfold PI2 in *; lra). induction gs as [|g gs (R0 & M & HR & H)]; [exists 1, O; split; [lra|]; intros i Hi; cbn in Hi; lia|].
  destruct (nfloor_ex (Rabs (tlo g) + Rabs (thi g))) as (N & _ & HN). { pose proof (Rabs_pos (tlo g)). pose proof (Rabs_pos (thi g)). lra. }
  exists (Rmax R0 (rhi g)), (M + N + 1)%nat. pose proof (Rmax_l R0 (rhi g)). pose proof (Rmax_r R0 (rhi g)). split; [lra|]. intros [|i] Hi; cbn [nth length] in *.
  - split; [auto|]. rewrite !plus_INR. simpl (INR 1). pose proof (pos_INR M). pose proof (Rle_abs (thi g)). pose proof (Rle_abs (- tlo g)). rewrite Rabs_Ropp in *. pose proof (Rabs_pos (tlo g)). pose proof (Rabs_pos (thi g)). split; nra.
  - destruct (H i ltac:(lia)) as (A & B & C0). rewrite !plus_INR. simpl (INR 1). pose proof (pos_INR N). split; [lra|]. split; nra.
Qed.
Lemma count_once (gs : list sector) M r t : 0 < t < 2 * PI -> (forall i, (i < length gs)%nat -> let g := nth i gs no_sector in - (2 * PI * INR M) <= tlo g /\ thi g <= 2 * PI * (INR M + 1)) -> once gs r t ->
  sumn (length gs) (fun i => let g := nth i gs no_sector in between (rlo g) (rhi g) r * turns M (tlo g) (thi g) t) = 1.
Proof.
  intros Ht HM ((i & k) & (Hi & Hin) & HU). cbn [fst snd] in *. pose proof PI_RGT_0 as HP.
  assert (HU' : forall i' k', (i' < length gs)%nat -> inside_sector (nth i' gs no_sector) r (t + 2 * PI * IZR k') -> i' = i /\ k' = k). { intros i' k' A B. specialize (HU (i', k') (conj A B)). injection HU as <- <-. auto. }
  assert (IN : forall i' k', inside_sector (nth i' gs no_sector) r (t + 2 * PI * IZR k') <-> rlo (nth i' gs no_sector) < r < rhi (nth i' gs no_sector) /\ tlo (nth i' gs no_sector) < t + 2 * PI * IZR k' < thi (nth i' gs no_sector)).
  { intros i' k'. destruct (nth i' gs no_sector) as [[a b] [c d]]. unfold inside_sector, rlo, rhi, tlo, thi. cbn. tauto. }
  apply (sumn_one _ _ i); auto; cbv zeta.
  - apply IN in Hin. destruct Hin as [A B]. rewrite between_in by auto. rewrite Rmult_1_l. destruct (HM i Hi) as [C1 C2]. cbv zeta in C1, C2.
    assert (K1 : (- Z.of_nat M <= k)%Z). { assert (- Z.of_nat M - 1 < k)%Z; [|lia]. apply lt_IZR. rewrite minus_IZR, opp_IZR, <- INR_IZR_INZ. nra. }
    assert (K2 : (k <= Z.of_nat M)%Z). { assert (k < Z.of_nat M + 1)%Z; [|lia]. apply lt_IZR. rewrite plus_IZR, <- INR_IZR_INZ. nra. }
    assert (J : forall j : nat, INR j - INR M = IZR (Z.of_nat j - Z.of_nat M)) by (intros j; rewrite minus_IZR, <- !INR_IZR_INZ; auto).
    unfold turns. apply (sumn_one _ _ (Z.to_nat (k + Z.of_nat M))); [lia| |].
    + apply between_in. rewrite J. replace (Z.of_nat (Z.to_nat (k + Z.of_nat M)) - Z.of_nat M)%Z with k by lia. auto.
    + intros j Hj Nj. apply between_out. intros Q. rewrite J in Q. destruct (HU' i (Z.of_nat j - Z.of_nat M)%Z Hi) as [_ E]; [apply IN; auto|]. lia.
  - intros i' Hi' Ni. destruct (classic (rlo (nth i' gs no_sector) < r < rhi (nth i' gs no_sector))) as [A|A]; [|rewrite between_out by auto; ring].
    unfold turns. rewrite (sumn_ext _ _ (fun _ => 0)); [rewrite sumn_const; ring|]. intros j Hj. apply between_out. intros Q. rewrite (INR_IZR_INZ j), (INR_IZR_INZ M), <- minus_IZR in Q. destruct (HU' i' _ Hi' (proj2 (IN i' _) (conj A Q))) as [E _]. auto.
Qed.
