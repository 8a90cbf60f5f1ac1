(** The integrals over sectors, as one integral over the plane in which each point counts as often as sectors contain it. *)
From Coq Require Import Reals List Bool Arith ZArith Lia Lra Classical_Prop.
From Coquelicot Require Import Coquelicot.
From Verif Require Import Base_R Base_List Base_C M_ExtSource S_PointSource S_Inverse P_RowLimit P_AreaLimit P_ShootLimit P_PlaneSum P_WholeImage.
Import ListNotations.
Local Open Scope R_scope.

(** in how many ways the sectors contain the point at distance [r] and angle [t], up to [M] turns *)
Definition count (gs : list sector) (M : nat) (r t : R) : R := sumn (length gs) (fun i => let g := nth i gs no_sector in between (rlo g) (rhi g) r * turns M (tlo g) (thi g) t).
Definition turns_enough (gs : list sector) (M : nat) : Prop := forall i, (i < length gs)%nat -> let g := nth i gs no_sector in - (2 * PI * INR M) <= tlo g /\ thi g <= 2 * PI * (INR M + 1).

Lemma is_RInt_le_off (f g : R -> R) Z a b I J : a <= b -> is_RInt f a b I -> is_RInt g a b J -> (forall u, a < u < b -> ~ In u Z -> f u <= g u) -> I <= J.
Proof.
  intros Hab Hf Hg H. pose (f' := fun u => if in_dec Req_EM_T u Z then g u else f u). assert (Hf' : is_RInt f' a b I). { apply (is_RInt_off f' f Z); auto. intros u _ N. unfold f'. destruct (in_dec _ _ _); [contradiction|reflexivity]. }
  apply (is_RInt_le f' g a b); auto. intros u Hu. unfold f'. destruct (in_dec _ _ _); [lra|auto].
Qed.
Lemma between_pos a b t : 0 <= between a b t.
Proof. unfold between. destruct (Rlt_dec a t); [destruct (Rlt_dec t b)|]; lra. Qed.
Lemma sumn_pos n f : (forall i, (i < n)%nat -> 0 <= f i) -> 0 <= sumn n f.
Proof. intros H. rewrite <- (Rmult_0_r (INR n)), <- (sumn_const n 0). apply sumn_le. exact H. Qed.
Lemma sumn_term n f i : (i < n)%nat -> (forall j, (j < n)%nat -> 0 <= f j) -> f i <= sumn n f.
Proof.
  intros Hi Hf. replace n with (i + 1 + (n - (i + 1)))%nat by lia. rewrite !sumn_split. rewrite sumn_S, sumn_0, Nat.add_0_r. pose proof (sumn_pos i f ltac:(intros; apply Hf; lia)). pose proof (sumn_pos (n - (i + 1)) (fun j => f (i + 1 + j)%nat) ltac:(intros; apply Hf; lia)). lra.
Qed.
Lemma turns_pos M a b t : 0 <= turns M a b t.
Proof. apply sumn_pos. intros. apply between_pos. Qed.
Lemma inside_iff g r t : inside_sector g r t <-> rlo g < r < rhi g /\ tlo g < t < thi g.
Proof. destruct g as [[a b] [c d]]. unfold inside_sector, rlo, rhi, tlo, thi. cbn. tauto. Qed.
Lemma count_none gs M r t : (forall i (k : Z), (i < length gs)%nat -> ~ inside_sector (nth i gs no_sector) r (t + 2 * PI * IZR k)) -> count gs M r t = 0.
Proof.
  intros H. unfold count. rewrite (sumn_ext _ _ (fun _ => 0)); [rewrite sumn_const; ring|]. intros i Hi. cbv zeta. destruct (classic (rlo (nth i gs no_sector) < r < rhi (nth i gs no_sector))) as [A|A]; [|rewrite between_out by auto; ring].
  unfold turns. rewrite (sumn_ext _ _ (fun _ => 0)); [rewrite sumn_const; ring|]. intros j Hj. apply between_out. intros Q. rewrite (INR_IZR_INZ j), (INR_IZR_INZ M), <- minus_IZR in Q. apply (H i (Z.of_nat j - Z.of_nat M)%Z Hi). apply inside_iff. auto.
Qed.
Lemma count_most gs M r t : 0 < t < 2 * PI -> turns_enough gs M -> at_most_once gs r t -> count gs M r t <= 1.
Proof.
  intros Ht HM H. destruct (classic (exists ik : nat * Z, (fst ik < length gs)%nat /\ inside_sector (nth (fst ik) gs no_sector) r (t + 2 * PI * IZR (snd ik)))) as [(ik & Hik)|N].
  - apply Req_le. apply (count_once gs M r t Ht HM). exists ik. split; [exact Hik|]. intros ik' Hik'. apply H; tauto.
  - rewrite count_none; [lra|]. intros i k Hi Q. apply N. exists (i, k). auto.
Qed.
Lemma count_pos gs M r t : 0 <= count gs M r t.
Proof. apply sumn_pos. intros i _. apply Rmult_le_pos; [apply between_pos|apply turns_pos]. Qed.
Lemma count_least gs M r t : 0 < t < 2 * PI -> turns_enough gs M -> scanned gs r t -> 1 <= count gs M r t.
Proof.
  intros Ht HM ((i & k) & Hi & Hin). cbn [fst snd] in *. pose proof PI_RGT_0 as HP. apply inside_iff in Hin. destruct Hin as [A B]. destruct (HM i Hi) as [C1 C2].
  assert (K1 : (- Z.of_nat M <= k)%Z). { assert (- Z.of_nat M - 1 < k)%Z; [|lia]. apply lt_IZR. rewrite minus_IZR, opp_IZR, <- INR_IZR_INZ. nra. }
  assert (K2 : (k <= Z.of_nat M)%Z). { assert (k < Z.of_nat M + 1)%Z; [|lia]. apply lt_IZR. rewrite plus_IZR, <- INR_IZR_INZ. nra. }
  set (T := fun i => let g := nth i gs no_sector in between (rlo g) (rhi g) r * turns M (tlo g) (thi g) t). apply Rle_trans with (T i); [|apply (sumn_term (length gs) T i Hi); intros j _; apply Rmult_le_pos; [apply between_pos|apply turns_pos]].
  unfold T. cbv zeta. rewrite (between_in (rlo _)) by exact A. rewrite Rmult_1_l. set (U := fun j => between (tlo (nth i gs no_sector)) (thi (nth i gs no_sector)) (t + 2 * PI * (INR j - INR M))).
  apply Rle_trans with (U (Z.to_nat (k + Z.of_nat M))); [|apply (sumn_term _ U); [lia|intros; apply between_pos]]. unfold U. rewrite between_in; [lra|]. rewrite (INR_IZR_INZ M), (INR_IZR_INZ (Z.to_nat _)), <- minus_IZR. replace (Z.of_nat (Z.to_nat (k + Z.of_nat M)) - Z.of_nat M)%Z with k by lia. exact B.
Qed.

Lemma plane_fold (phi : C -> R) L w rho gs areas : 0 < rho -> (forall g, summable phi g) -> List.Forall ordered_sector gs -> Forall2 (plane_integral phi) gs areas ->
  exists R0 M Zt row full A, 0 < R0 /\ (forall z, off_masses L z -> R0 <= Cmod z -> ~ seen L w rho z) /\ turns_enough gs M /\
    is_RInt row 0 (2 * PI) (sumR areas) /\ is_RInt full 0 (2 * PI) A /\ (forall t, is_RInt (fun r => r * phi (polar r t)) 0 R0 (full t)) /\
    forall t, 0 < t < 2 * PI -> ~ In t Zt -> exists Z, is_RInt (fun r => (r * phi (polar r t)) * count gs M r t) 0 R0 (row t) /\ forall r, ~ In r Z -> off_edges gs r t /\ off_masses L (polar r t).
Proof.
  intros Hrho HS HO HA. pose proof PI_RGT_0 as HP. destruct (far_dark L w rho Hrho) as (R1 & HR1 & HD). destruct (bounds gs) as (R2 & M & HR2 & HB). set (R0 := R1 + R2).
  destruct (summable_integral phi _ (HS ((0, R0), (0, 2 * PI)))) as (full & F1 & F2).
  assert (Elen : length areas = length gs) by (clear - HA; induction HA; cbn [length]; congruence).
  set (f := fun r t => phi (polar r t)). pose (G := fun i => nth i gs no_sector). pose (A := fun i t => RInt (fun r => r * f r t) (rlo (G i)) (rhi (G i))).
  assert (Hper : forall i t (k : Z), A i (t + 2 * PI * IZR k) = A i t) by (intros i t k; unfold A; apply RInt_ext; intros r _; unfold f; rewrite polar_turn; reflexivity).
  assert (ord : forall i, (i < length gs)%nat -> 0 <= rlo (G i) <= rhi (G i) /\ tlo (G i) <= thi (G i)).
  { intros i Hi. rewrite Forall_forall in HO. specialize (HO (G i) (nth_In gs no_sector Hi)). destruct (G i) as [[x y] [c d]]. exact HO. }
  assert (HAi : forall i, (i < length gs)%nat -> (forall t, is_RInt (fun r => r * f r t) (rlo (G i)) (rhi (G i)) (A i t)) /\ is_RInt (A i) (tlo (G i)) (thi (G i)) (nth i areas 0)).
  { intros i Hi. assert (Q : plane_integral phi (G i) (nth i areas 0)). { unfold G. clear - HA Hi. revert i Hi. induction HA as [|g b gs areas H _ IH]; intros i Hi; cbn [length] in Hi; [lia|]. destruct i as [|i]; cbn [nth]; [auto|apply IH; lia]. }
    unfold A. destruct (G i) as [[x y] [c d]]. unfold rlo, rhi, tlo, thi in *. cbn [fst snd] in *. destruct Q as (ray & G1 & G2).
    assert (E : forall t, RInt (fun r => r * f r t) x y = ray t) by (intros t; apply is_RInt_unique, G1). split; [intros t; rewrite E; apply G1|].
    eapply is_RInt_ext; [|exact G2]. intros t _. simpl. rewrite E. reflexivity. }
  assert (S1 : is_RInt (fun t => sumn (length gs) (fun i => turns M (tlo (G i)) (thi (G i)) t * A i t)) 0 (2 * PI) (sumR areas)).
  { rewrite sumn_nth, Elen. apply (sumn_RInt (length gs) (fun i t => turns M (tlo (G i)) (thi (G i)) t * A i t) (fun i => nth i areas 0)).
    intros i Hi. destruct (ord i Hi) as [O1 O2]. destruct (HB i Hi) as (_ & B2 & B3). cbv zeta in B2, B3. apply one_turn; auto. apply HAi; auto. }
  pose (Zt := flat_map (fun g => flat_map (fun n => let k := IZR (Z.of_nat n - Z.of_nat (M + 2))%Z in [tlo g - 2 * PI * k; thi g - 2 * PI * k]) (seq 0 (2 * M + 5))) gs).
  assert (HZt : forall g t (k : Z), In g gs -> 0 < t < 2 * PI -> ~ In t Zt -> t + 2 * PI * IZR k <> tlo g /\ t + 2 * PI * IZR k <> thi g).
  { intros g t k Hg Ht NI. destruct (In_nth gs g no_sector Hg) as (i & Hi & <-). fold (G i). destruct (ord i Hi) as [_ O2]. destruct (HB i Hi) as (_ & B2 & B3). cbv zeta in B2, B3. fold (G i) in B2, B3. rewrite INR_IZR_INZ in B2, B3. set (m := Z.of_nat M) in *.
    assert (K : forall x, - (2 * PI * IZR m) <= x <= 2 * PI * (IZR m + 1) -> t + 2 * PI * IZR k = x -> (- (m + 1) <= k <= m + 1)%Z).
    { intros x Hx E. assert (A1 : IZR k < IZR (m + 1)) by (rewrite plus_IZR; nra). assert (A3 : IZR (- (m + 2)) < IZR k) by (rewrite opp_IZR, plus_IZR; nra). apply lt_IZR in A1. apply lt_IZR in A3. lia. }
    assert (Q : forall x, (x = tlo (G i) \/ x = thi (G i)) -> t + 2 * PI * IZR k <> x).
    { intros x Hx E. assert (Hk : (- (m + 1) <= k <= m + 1)%Z) by (apply (K x); auto; destruct Hx as [-> | ->]; nra). apply NI. unfold Zt. apply in_flat_map. exists (G i). split; [apply nth_In; auto|]. apply in_flat_map. exists (Z.to_nat (k + m + 2)). split; [apply in_seq; lia|].
      cbv zeta. replace (Z.of_nat (Z.to_nat (k + m + 2)) - Z.of_nat (M + 2))%Z with k by lia. destruct Hx as [-> | ->]; [left|right; left]; lra. }
    split; apply Q; auto. }
  exists R0, M, Zt, (fun t => sumn (length gs) (fun i => turns M (tlo (G i)) (thi (G i)) t * A i t)), full, (pint phi ((0, R0), (0, 2 * PI))).
  split; [unfold R0; lra|]. split; [intros z _ Hz; apply HD; unfold R0 in *; lra|]. split; [intros i Hi; apply HB; auto|]. split; [exact S1|]. split; [exact F2|]. split; [exact F1|].
  intros t Ht HNt. destruct (ray_masses L t) as (Z & HZ1 & HZ2). exists (Z ++ map rlo gs ++ map rhi gs). split.
  - assert (S2 : is_RInt (fun r => sumn (length gs) (fun i => turns M (tlo (G i)) (thi (G i)) t * (between (rlo (G i)) (rhi (G i)) r * (r * f r t)))) 0 R0 (sumn (length gs) (fun i => turns M (tlo (G i)) (thi (G i)) t * A i t))).
    { apply (sumn_RInt (length gs) (fun i r => turns M (tlo (G i)) (thi (G i)) t * (between (rlo (G i)) (rhi (G i)) r * (r * f r t))) (fun i => turns M (tlo (G i)) (thi (G i)) t * A i t)).
      intros i Hi. destruct (ord i Hi) as [O1 O2]. destruct (HB i Hi) as (B1 & _). cbv zeta in B1. fold (G i) in B1. apply (is_RInt_scal (V := R_NormedModule)). apply (extend (fun r => r * f r t)); try (unfold R0; lra). apply HAi; auto. }
    eapply is_RInt_ext; [|exact S2]. intros r _. unfold count. rewrite <- sumn_scal. apply sumn_ext. intros i _. cbv zeta. unfold G, f. ring.
  - intros r NI. assert (NI1 : ~ In r Z) by (intros X; apply NI, in_or_app; auto). assert (NI2 : ~ In r (map rlo gs)) by (intros X; apply NI, in_or_app; right; apply in_or_app; auto). assert (NI3 : ~ In r (map rhi gs)) by (intros X; apply NI, in_or_app; right; apply in_or_app; auto).
    split; [|apply HZ2; exact NI1]. intros g k Hg. destruct (HZt g t k Hg Ht HNt) as [X1 X2]. assert (X3 : r <> rlo g) by (intros ->; apply NI2, in_map; auto). assert (X4 : r <> rhi g) by (intros ->; apply NI3, in_map; auto). destruct g as [[x y] [c d]]. auto.
Qed.
(** sectors that contain every seen point just once, at most once, at least once *)
Lemma whole_plane (phi : C -> R) L w rho gs areas : 0 < rho -> (forall g, summable phi g) -> (forall z, ~ seen L w rho z -> phi z = 0) -> List.Forall ordered_sector gs -> Forall2 (plane_integral phi) gs areas ->
  (forall r t, 0 < r -> off_edges gs r t -> off_masses L (polar r t) -> seen L w rho (polar r t) -> once gs r t) -> exists R0, (forall z, off_masses L z -> R0 <= Cmod z -> ~ seen L w rho z) /\ plane_integral phi ((0, R0), (0, 2 * PI)) (sumR areas).
Proof.
  intros Hrho HS HZ HO HA HC. pose proof PI_RGT_0 as HP. destruct (plane_fold phi L w rho gs areas Hrho HS HO HA) as (R0 & M & Zt & row & full & A & P0 & PD & PM & PS & PF & PR & PT). exists R0. split; [exact PD|]. exists full. split; [exact PR|].
  apply (is_RInt_off full row Zt 0 (2 * PI)) with (2 := PS); [lra|]. intros t Ht HN. destruct (PT t Ht HN) as (Z & Z1 & Z2). rewrite <- (is_RInt_unique _ _ _ _ (PR t)). apply is_RInt_unique.
  apply (is_RInt_off (fun r => r * phi (polar r t)) _ Z 0 R0) with (2 := Z1); [lra|]. intros r Hr NI. destruct (Z2 r NI) as [E1 E2]. destruct (classic (seen L w rho (polar r t))) as [Q|Q]; [|rewrite (HZ _ Q); ring].
  unfold count. rewrite count_once; [ring|exact Ht|exact PM|]. apply HC; auto. lra.
Qed.
Lemma plane_most (phi : C -> R) L w rho gs areas : 0 < rho -> (forall g, summable phi g) -> (forall z, 0 <= phi z) -> List.Forall ordered_sector gs -> Forall2 (plane_integral phi) gs areas ->
  (forall r t, 0 < r -> off_edges gs r t -> at_most_once gs r t) -> exists R0 A, (forall z, off_masses L z -> R0 <= Cmod z -> ~ seen L w rho z) /\ plane_integral phi ((0, R0), (0, 2 * PI)) A /\ 0 <= sumR areas <= A.
Proof.
  intros Hrho HS HZ HO HA HC. pose proof PI_RGT_0 as HP. destruct (plane_fold phi L w rho gs areas Hrho HS HO HA) as (R0 & M & Zt & row & full & A & P0 & PD & PM & PS & PF & PR & PT). exists R0, A. split; [exact PD|]. split; [exists full; auto|]. split.
  - apply (is_RInt_le_off (fun _ => 0) row Zt 0 (2 * PI)); auto; [lra|apply is_RInt_zero|]. intros t Ht HN. destruct (PT t Ht HN) as (Z & Z1 & _). apply (is_RInt_le_off (fun _ => 0) _ Z 0 R0) with (3 := Z1); [lra|apply is_RInt_zero|].
    intros r Hr _. apply Rmult_le_pos; [apply Rmult_le_pos; [lra|apply HZ]|apply count_pos].
  - apply (is_RInt_le_off row full Zt 0 (2 * PI)); auto; [lra|]. intros t Ht HN. destruct (PT t Ht HN) as (Z & Z1 & Z2). apply (is_RInt_le_off _ _ Z 0 R0 _ _ ltac:(lra) Z1 (PR t)). intros r Hr NI. destruct (Z2 r NI) as [E1 E2].
    pose proof (count_most gs M r t Ht PM (HC r t ltac:(lra) E1)) as C1. assert (0 <= r * phi (polar r t)) by (apply Rmult_le_pos; [lra|apply HZ]). nra.
Qed.
Lemma plane_least (phi : C -> R) L w rho gs areas : 0 < rho -> (forall g, summable phi g) -> (forall z, 0 <= phi z) -> (forall z, ~ seen L w rho z -> phi z = 0) -> List.Forall ordered_sector gs -> Forall2 (plane_integral phi) gs areas ->
  (forall r t, 0 < r -> off_edges gs r t -> off_masses L (polar r t) -> seen L w rho (polar r t) -> scanned gs r t) -> exists R0 A, (forall z, off_masses L z -> R0 <= Cmod z -> ~ seen L w rho z) /\ plane_integral phi ((0, R0), (0, 2 * PI)) A /\ A <= sumR areas.
Proof.
  intros Hrho HS HZ HD HO HA HC. pose proof PI_RGT_0 as HP. destruct (plane_fold phi L w rho gs areas Hrho HS HO HA) as (R0 & M & Zt & row & full & A & P0 & PD & PM & PS & PF & PR & PT). exists R0, A. split; [exact PD|]. split; [exists full; auto|].
  apply (is_RInt_le_off full row Zt 0 (2 * PI)); auto; [lra|]. intros t Ht HN. destruct (PT t Ht HN) as (Z & Z1 & Z2). apply (is_RInt_le_off _ _ Z 0 R0 _ _ ltac:(lra) (PR t) Z1). intros r Hr NI. destruct (Z2 r NI) as [E1 E2].
  destruct (classic (seen L w rho (polar r t))) as [Q|Q]; [|rewrite (HD _ Q); lra]. pose proof (count_least gs M r t Ht PM (HC r t ltac:(lra) E1 E2 Q)) as C1. assert (0 <= r * phi (polar r t)) by (apply Rmult_le_pos; [lra|apply HZ]). nra.
Qed.
