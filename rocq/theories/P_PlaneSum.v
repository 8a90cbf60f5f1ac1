(** Sums over the points of a polar grid and their limits. *)
From Coq Require Import Reals List Bool Arith ZArith Lia Lra Classical_Prop.
From Coquelicot Require Import Coquelicot.
From Verif Require Import Base_R Base_List Base_C S_PointSource S_Inverse P_RowLimit P_AreaLimit P_ShootLimit.
Import ListNotations.
Local Open Scope R_scope.

Lemma unit_interval (h : R -> R) a b I : b - a <> 0 -> is_RInt (fun u => h (a + u * (b - a))) 0 1 I -> is_RInt h a b ((b - a) * I).
Proof.
  intros Hd H. set (d := b - a) in *. assert (E0 : / d * a + - (a / d) = 0) by (field; auto). assert (E1 : / d * b + - (a / d) = 1) by (unfold d in *; field; auto).
  rewrite <- E0, <- E1 in H. apply is_RInt_comp_lin in H. apply (is_RInt_scal _ _ _ d) in H. eapply is_RInt_ext; [|exact H].
  intros x _. unfold scal; simpl; unfold mult; simpl. replace (a + (/ d * x + - (a / d)) * d) with x by (field; auto). rewrite <- Rmult_assoc, Rinv_r by auto. ring.
Qed.
Lemma spaced_cell lo hi n j : (2 <= n)%nat -> spaced lo hi n j = lo + cell (n - 1) j * (hi - lo).
Proof. intros H. unfold spaced, cell. field. apply not_0_INR. lia. Qed.
Lemma seen_at_01 L w rho z : seen_at L w rho z = 0 \/ seen_at L w rho z = 1.
Proof. unfold seen_at. destruct (Rlt_dec _ _); auto. Qed.
Lemma sumn_swap n m (f : nat -> nat -> R) : sumn n (fun i => sumn m (f i)) = sumn m (fun j => sumn n (fun i => f i j)).
Proof.
  induction n as [|n IH].
  - rewrite sumn_0, (sumn_ext _ _ (fun _ => 0)) by (intros; apply sumn_0). rewrite sumn_const. ring.
  - rewrite sumn_S, IH, <- sumn_plus. apply sumn_ext. intros j _. rewrite sumn_S. reflexivity.
Qed.
Lemma sumn_split a b f : sumn (a + b) f = sumn a f + sumn b (fun i => f (a + i)%nat).
Proof. induction b as [|b IH]; [rewrite Nat.add_0_r, sumn_0; ring|]. rewrite Nat.add_succ_r, !sumn_S, IH. ring. Qed.

Definition point_sum (phi : C -> R) (g : sector) (nr nt : nat) : R := sumn nr (fun j => cell_area g nr nt j * sumn nt (fun i => phi (grid_point g nr nt j i))).
Definition pray (phi : C -> R) (g : sector) (t : R) : R := RInt (fun r => r * phi (polar r t)) (fst (fst g)) (snd (fst g)).
Definition pint (phi : C -> R) (g : sector) : R := RInt (pray phi g) (fst (snd g)) (snd (snd g)).
Definition summable (phi : C -> R) (g : sector) : Prop :=
  (forall t, ex_RInt (fun r => r * phi (polar r t)) (fst (fst g)) (snd (fst g))) /\ ex_RInt (pray phi g) (fst (snd g)) (snd (snd g)) /\
  forall eps, 0 < eps -> exists N, forall nr nt, (N <= nr)%nat -> (N <= nt)%nat -> Rabs (point_sum phi g nr nt - pint phi g) < eps.
Lemma summable_integral phi g : summable phi g -> plane_integral phi g (pint phi g).
Proof.
  destruct g as [[rl rh] [tl th]]. intros (H1 & H2 & _). exists (pray phi ((rl, rh), (tl, th))). split.
  - intros t. apply (RInt_correct (V := R_CompleteNormedModule)), H1.
  - apply (RInt_correct (V := R_CompleteNormedModule)), H2.
Qed.
(** linear combinations *)
Lemma summable_lin c phi psi g : summable phi g -> summable psi g -> summable (fun z => c * phi z + psi z) g /\ pint (fun z => c * phi z + psi z) g = c * pint phi g + pint psi g.
Proof.
  intros (A1 & A2 & A3) (B1 & B2 & B3). set (chi := fun z => c * phi z + psi z).
  assert (I1 : forall t, is_RInt (fun r => r * chi (polar r t)) (fst (fst g)) (snd (fst g)) (c * pray phi g t + pray psi g t)).
  { intros t. pose proof (RInt_correct (V := R_CompleteNormedModule) _ _ _ (A1 t)) as P. pose proof (RInt_correct (V := R_CompleteNormedModule) _ _ _ (B1 t)) as Q. apply (is_RInt_scal (V := R_NormedModule) _ _ _ c) in P.
    pose proof (is_RInt_plus (V := R_NormedModule) _ _ _ _ _ _ P Q) as S. eapply is_RInt_ext; [|exact S]. intros r _. unfold chi, plus, scal; simpl; unfold mult; simpl. ring. }
  assert (E1 : forall t, pray chi g t = c * pray phi g t + pray psi g t) by (intros t; apply is_RInt_unique, I1).
  assert (I2 : is_RInt (pray chi g) (fst (snd g)) (snd (snd g)) (c * pint phi g + pint psi g)).
  { pose proof (RInt_correct (V := R_CompleteNormedModule) _ _ _ A2) as P. pose proof (RInt_correct (V := R_CompleteNormedModule) _ _ _ B2) as Q. apply (is_RInt_scal (V := R_NormedModule) _ _ _ c) in P.
    pose proof (is_RInt_plus (V := R_NormedModule) _ _ _ _ _ _ P Q) as S. eapply is_RInt_ext; [|exact S]. intros t _. rewrite E1. reflexivity. }
  assert (E2 : pint chi g = c * pint phi g + pint psi g) by (apply is_RInt_unique, I2). split; [|exact E2].
  split; [intros t; eexists; apply I1|]. split; [eexists; apply I2|]. intros eps He. set (k := Rabs c + 1). assert (Hk : 0 < k) by (unfold k; pose proof (Rabs_pos c); lra).
  destruct (A3 (eps / 2 / k)) as (N1 & H1); [apply Rdiv_lt_0_compat; lra|]. destruct (B3 (eps / 2) ltac:(lra)) as (N2 & H2). exists (N1 + N2)%nat. intros nr nt Hr Ht. specialize (H1 nr nt ltac:(lia) ltac:(lia)). specialize (H2 nr nt ltac:(lia) ltac:(lia)).
  assert (E3 : point_sum chi g nr nt = c * point_sum phi g nr nt + point_sum psi g nr nt).
  { unfold point_sum. rewrite <- sumn_scal, <- sumn_plus. apply sumn_ext. intros j _. unfold chi. rewrite sumn_plus, sumn_scal. ring. }
  rewrite E2, E3. replace (c * point_sum phi g nr nt + point_sum psi g nr nt - (c * pint phi g + pint psi g)) with (c * (point_sum phi g nr nt - pint phi g) + (point_sum psi g nr nt - pint psi g)) by ring.
  eapply Rle_lt_trans; [apply Rabs_triang|]. rewrite Rabs_mult. set (x := Rabs (point_sum phi g nr nt - pint phi g)) in *. assert (0 <= x) by apply Rabs_pos. apply (Rmult_lt_compat_r k) in H1; auto. replace (eps / 2 / k * k) with (eps / 2) in H1 by (field; lra). unfold k in H1. nra.
Qed.
Lemma cell_area_bound g nr nt j : (2 <= nr)%nat -> (2 <= nt)%nat -> (j < nr)%nat -> let '((rl, rh), (tl, th)) := g in
  Rabs (cell_area g nr nt j) <= (Rabs rl + Rabs (rh - rl)) * Rabs (rh - rl) * Rabs (th - tl) * / INR (nr - 1) * / INR (nt - 1).
Proof.
  intros Hr Ht Hj. destruct g as [[rl rh] [tl th]]. unfold cell_area, spacing. rewrite spaced_cell by auto. unfold Rdiv. rewrite !Rabs_mult. pose proof (cell_range (nr - 1) j ltac:(lia) ltac:(lia)) as C0.
  assert (P1 : 0 < / INR (nr - 1)) by (apply Rinv_0_lt_compat, lt_0_INR; lia). assert (P2 : 0 < / INR (nt - 1)) by (apply Rinv_0_lt_compat, lt_0_INR; lia). rewrite (Rabs_pos_eq (/ INR (nr - 1))), (Rabs_pos_eq (/ INR (nt - 1))) by lra.
  assert (B : Rabs (rl + cell (nr - 1) j * (rh - rl)) <= Rabs rl + Rabs (rh - rl)). { eapply Rle_trans; [apply Rabs_triang|]. rewrite Rabs_mult, (Rabs_pos_eq (cell _ _)) by lra. pose proof (Rabs_pos (rh - rl)). nra. }
  replace (Rabs (rl + cell (nr - 1) j * (rh - rl)) * (Rabs (rh - rl) * / INR (nr - 1)) * (Rabs (th - tl) * / INR (nt - 1))) with (Rabs (rl + cell (nr - 1) j * (rh - rl)) * (Rabs (rh - rl) * Rabs (th - tl) * (/ INR (nr - 1) * / INR (nt - 1)))) by ring.
  replace ((Rabs rl + Rabs (rh - rl)) * Rabs (rh - rl) * Rabs (th - tl) * / INR (nr - 1) * / INR (nt - 1)) with ((Rabs rl + Rabs (rh - rl)) * (Rabs (rh - rl) * Rabs (th - tl) * (/ INR (nr - 1) * / INR (nt - 1)))) by ring.
  apply Rmult_le_compat_r; auto. apply Rmult_le_pos; apply Rmult_le_pos; try apply Rabs_pos; lra.
Qed.
(** weights of rows that are close to the sums over the points *)
Lemma ratio_2 n : (2 <= n)%nat -> / INR (n - 1) * INR n <= 2.
Proof.
  intros H. assert (P : 0 < INR (n - 1)) by (apply lt_0_INR; lia). apply (Rmult_le_reg_l (INR (n - 1))); auto. replace (INR (n - 1) * (/ INR (n - 1) * INR n)) with (INR n) by (field; lra). replace n with (S (n - 1)) at 1 by lia. rewrite S_INR. assert (1 <= INR (n - 1)) by (apply (le_INR 1); lia). lra.
Qed.
Lemma rows_limit phi g E : summable phi g -> 0 <= E -> forall eps, 0 < eps -> exists N, forall nr nt (T : nat -> R), (N <= nr)%nat -> (N <= nt)%nat ->
  (forall j, (j < nr)%nat -> cell_area g nr nt j <> 0 -> Rabs (T j - sumn nt (fun i => phi (grid_point g nr nt j i))) <= E) -> Rabs (sumn nr (fun j => cell_area g nr nt j * T j) - pint phi g) < eps.
Proof.
  intros (_ & _ & H) HE eps He. destruct (H (eps / 2) ltac:(lra)) as (N1 & H1). pose proof (cell_area_bound g) as CB. destruct g as [[rl rh] [tl th]].
  set (A := (Rabs rl + Rabs (rh - rl)) * Rabs (rh - rl) * Rabs (th - tl)) in *. assert (HA : 0 <= A). { unfold A. pose proof (Rabs_pos rl). pose proof (Rabs_pos (rh - rl)). pose proof (Rabs_pos (th - tl)). apply Rmult_le_pos; [apply Rmult_le_pos; lra|lra]. }
  destruct (nfloor_ex (4 * A * E / eps + 1)) as (N2 & _ & HN2). { assert (0 <= 4 * A * E / eps); [|lra]. apply Rmult_le_pos; [nra|left; apply Rinv_0_lt_compat; auto]. }
  exists (N1 + N2 + 2)%nat. intros nr nt T Hr Ht HT. specialize (H1 nr nt ltac:(lia) ltac:(lia)). set (g := ((rl, rh), (tl, th)) : sector) in *. specialize (CB nr nt). cbv beta iota zeta in CB. unfold point_sum in H1.
  assert (P1 : 0 < INR (nr - 1)) by (apply lt_0_INR; lia). assert (P2 : 0 < INR (nt - 1)) by (apply lt_0_INR; lia). assert (Q1 : 0 < / INR (nr - 1)) by (apply Rinv_0_lt_compat; auto). assert (Q2 : 0 < / INR (nt - 1)) by (apply Rinv_0_lt_compat; auto).
  set (X := sumn nr (fun j => cell_area g nr nt j * T j)). set (Y := sumn nr (fun j => cell_area g nr nt j * sumn nt (fun i => phi (grid_point g nr nt j i)))) in *.
  assert (D : Rabs (X - Y) < eps / 2).
  { unfold X, Y. rewrite <- sumn_minus. eapply Rle_lt_trans; [apply sumn_abs|]. apply Rle_lt_trans with (sumn nr (fun _ => A * / INR (nr - 1) * / INR (nt - 1) * E)).
    - apply sumn_le. intros j Hj. rewrite <- Rmult_minus_distr_l, Rabs_mult. specialize (CB j ltac:(lia) ltac:(lia) Hj). destruct (Req_dec (cell_area g nr nt j) 0) as [Z|Z].
      + rewrite Z, Rabs_R0, Rmult_0_l. apply Rmult_le_pos; [apply Rmult_le_pos; [apply Rmult_le_pos; [exact HA|lra]|lra]|lra].
      + specialize (HT j Hj Z). apply Rmult_le_compat; auto; apply Rabs_pos.
    - rewrite sumn_const. pose proof (ratio_2 nr ltac:(lia)) as R2. replace (INR nr * (A * / INR (nr - 1) * / INR (nt - 1) * E)) with ((/ INR (nr - 1) * INR nr) * (A * E * / INR (nt - 1))) by ring.
      apply Rle_lt_trans with (2 * (A * E * / INR (nt - 1))). { apply Rmult_le_compat_r; auto. apply Rmult_le_pos; nra. }
      assert (T0 : 4 * A * E / eps < INR (nt - 1)). { eapply Rlt_le_trans with (INR N2); [lra|]. apply le_INR. lia. } apply (Rmult_lt_compat_r eps) in T0; auto. replace (4 * A * E / eps * eps) with (4 * A * E) in T0 by (field; lra).
      apply (Rmult_lt_reg_l (INR (nt - 1))); auto. replace (INR (nt - 1) * (2 * (A * E * / INR (nt - 1)))) with (2 * A * E) by (field; lra). nra. }
  replace (X - pint phi g) with ((X - Y) + (Y - pint phi g)) by ring. eapply Rle_lt_trans; [apply Rabs_triang|]. lra.
Qed.
(** uniform limits *)
Lemma unif_int (f : nat -> R -> R) (h : R -> R) (a b B : R) (I : nat -> R) : 0 <= B -> (forall n, is_RInt (f n) a b (I n)) -> (forall n x, Rmin a b <= x <= Rmax a b -> Rabs (f n x - h x) <= B * / INR (S n)) ->
  is_RInt h a b (RInt h a b) /\ forall n, Rabs (I n - RInt h a b) <= B * Rabs (b - a) * / INR (S n).
Proof.
  intros HB HI HU. assert (Hmm : Rmin a b <= Rmax a b) by (apply Rle_trans with a; [apply Rmin_l|apply Rmax_l]). set (cl := fun x => Rmax (Rmin a b) (Rmin x (Rmax a b))).
  assert (Cin : forall x, Rmin a b <= cl x <= Rmax a b). { intros x. unfold cl. split; [apply Rmax_l|]. apply Rmax_lub; [auto|apply Rmin_r]. }
  assert (Cid : forall x, Rmin a b < x < Rmax a b -> cl x = x). { intros x Hx. unfold cl. rewrite (Rmin_left x) by lra. apply Rmax_right. lra. }
  destruct (filterlim_RInt (V := R_CompleteNormedModule) (fun n x => f n (cl x)) a b eventually _ (fun x => h (cl x)) I) as (J & _ & HJ).
  - intros n. apply is_RInt_ext with (f := f n); [|apply HI]. intros x Hx. rewrite Cid; auto.
  - intros P [e He]. destruct (nfloor_ex (B / e + 1)) as (N & _ & HN). { assert (0 <= B / e); [|lra]. apply Rmult_le_pos; [auto|left; apply Rinv_0_lt_compat, cond_pos]. }
    exists N. intros n Hn. apply He. intros x. change (Rabs (f n (cl x) - h (cl x)) < e). eapply Rle_lt_trans; [apply HU, Cin|]. pose proof (cond_pos e) as Pe. assert (Q : B / e < INR (S n)). { rewrite S_INR. apply le_INR in Hn. lra. }
    assert (Pn : 0 < INR (S n)) by (apply lt_0_INR; lia). apply (Rmult_lt_compat_r e) in Q; auto. replace (B / e * e) with B in Q by (field; lra). apply (Rmult_lt_reg_r (INR (S n))); auto. rewrite Rmult_assoc, Rinv_l, Rmult_1_r by lra. lra.
  - assert (HJ' : is_RInt h a b J). { apply is_RInt_ext with (f := fun x => h (cl x)); [|exact HJ]. intros x Hx. rewrite Cid; auto. }
    assert (E : RInt h a b = J) by (apply is_RInt_unique; auto). rewrite E. split; [auto|]. intros n. pose proof (is_RInt_minus _ _ _ _ _ _ (HI n) HJ') as D.
    assert (Pn : 0 < INR (S n)) by (apply lt_0_INR; lia). assert (Pi : 0 < / INR (S n)) by (apply Rinv_0_lt_compat; auto).
    replace (B * Rabs (b - a) * / INR (S n)) with (Rabs (b - a) * (B * / INR (S n))) by ring.
    destruct (Rle_dec a b) as [L|L].
    + rewrite Rmin_left, Rmax_right in HU by auto. rewrite (Rabs_pos_eq (b - a)) by lra. apply (norm_RInt_le_const (V := R_NormedModule) _ a b _ _ L) with (2 := D). intros x Hx. apply HU. auto.
    + rewrite Rmin_right, Rmax_left in HU by lra. rewrite (Rabs_left (b - a)) by lra. replace (- (b - a)) with (a - b) by ring. apply is_RInt_swap in D. rewrite <- Rabs_Ropp. apply (norm_RInt_le_const (V := R_NormedModule) _ b a _ _ ltac:(lra)) with (2 := D). intros x Hx. apply HU. auto.
Qed.
Lemma summable_unif (psi : nat -> C -> R) (phi : C -> R) g : (forall n, summable (psi n) g) -> (forall n z, Rabs (psi n z - phi z) <= / INR (S n)) -> summable phi g.
Proof.
  intros HS HU. destruct g as [[rl rh] [tl th]]. set (g := ((rl, rh), (tl, th)) : sector) in *. set (B := Rabs rl + Rabs rh). assert (HB : 0 <= B) by (unfold B; pose proof (Rabs_pos rl); pose proof (Rabs_pos rh); lra).
  assert (Pi : forall n, 0 < / INR (S n)) by (intros n; apply Rinv_0_lt_compat, lt_0_INR; lia).
  assert (R1 : forall t, is_RInt (fun r => r * phi (polar r t)) rl rh (pray phi g t) /\ forall n, Rabs (pray (psi n) g t - pray phi g t) <= B * Rabs (rh - rl) * / INR (S n)).
  { intros t. apply (unif_int (fun n r => r * psi n (polar r t)) (fun r => r * phi (polar r t)) rl rh B (fun n => pray (psi n) g t) HB).
    - intros n. apply (RInt_correct (V := R_CompleteNormedModule)), (proj1 (HS n)).
    - intros n r Hr. rewrite <- Rmult_minus_distr_l, Rabs_mult. apply Rmult_le_compat; auto; try apply Rabs_pos. unfold B. pose proof (Rabs_pos rl). pose proof (Rabs_pos rh). pose proof (Rle_abs rl). pose proof (Rle_abs rh). pose proof (Rle_abs (- rl)). pose proof (Rle_abs (- rh)). rewrite Rabs_Ropp in *. unfold Rmin, Rmax in Hr. destruct (Rle_dec rl rh); apply Rabs_le; lra. }
  set (B2 := B * Rabs (rh - rl)). assert (HB2 : 0 <= B2) by (unfold B2; pose proof (Rabs_pos (rh - rl)); nra).
  destruct (unif_int (fun n => pray (psi n) g) (pray phi g) tl th B2 (fun n => pint (psi n) g) HB2) as [R2 R3].
  - intros n. apply (RInt_correct (V := R_CompleteNormedModule)), (HS n).
  - intros n t _. apply R1.
  - split; [intros t; eexists; apply R1|]. split; [eexists; exact R2|]. intros eps He. change (RInt (pray phi g) tl th) with (pint phi g) in R3.
    set (A := 4 * ((Rabs rl + Rabs (rh - rl)) * Rabs (rh - rl) * Rabs (th - tl))). assert (HA : 0 <= A). { unfold A. pose proof (Rabs_pos rl). pose proof (Rabs_pos (rh - rl)). pose proof (Rabs_pos (th - tl)). repeat apply Rmult_le_pos; lra. }
    set (B3 := B2 * Rabs (th - tl)) in *. assert (HB3 : 0 <= B3) by (unfold B3; pose proof (Rabs_pos (th - tl)); nra).
    destruct (nfloor_ex (3 * (A + B3) / eps)) as (n & _ & Hn). { apply Rmult_le_pos; [lra|left; apply Rinv_0_lt_compat; auto]. }
    assert (Sm : forall x, 0 <= x -> x <= A + B3 -> x * / INR (S n) < eps / 3).
    { intros x Hx Hx'. rewrite <- S_INR in Hn. assert (Pn : 0 < INR (S n)) by (apply lt_0_INR; lia). apply (Rmult_lt_compat_r eps) in Hn; auto. replace (3 * (A + B3) / eps * eps) with (3 * (A + B3)) in Hn by (field; lra). apply (Rmult_lt_reg_r (INR (S n))); auto. rewrite Rmult_assoc, Rinv_l, Rmult_1_r by lra. lra. }
    destruct (HS n) as (_ & _ & H). destruct (H (eps / 3) ltac:(lra)) as (N & HN). exists (N + 2)%nat. intros nr nt Hr Ht. specialize (HN nr nt ltac:(lia) ltac:(lia)).
    assert (D : Rabs (point_sum phi g nr nt - point_sum (psi n) g nr nt) <= A * / INR (S n)).
    { unfold point_sum. rewrite <- sumn_minus. eapply Rle_trans; [apply sumn_abs|]. pose proof (cell_area_bound g nr nt) as CB. cbv beta iota zeta in CB. unfold g at 1 in CB. set (A1 := (Rabs rl + Rabs (rh - rl)) * Rabs (rh - rl) * Rabs (th - tl)) in *.
      assert (Q1 : 0 < / INR (nr - 1)) by (apply Rinv_0_lt_compat, lt_0_INR; lia). assert (Q2 : 0 < / INR (nt - 1)) by (apply Rinv_0_lt_compat, lt_0_INR; lia).
      apply Rle_trans with (sumn nr (fun _ => (A1 * / INR (nr - 1) * / INR (nt - 1)) * (INR nt * / INR (S n)))).
      - apply sumn_le. intros j Hj. rewrite <- Rmult_minus_distr_l, Rabs_mult. apply Rmult_le_compat; try apply Rabs_pos; [apply CB; auto; lia|]. rewrite <- sumn_minus. eapply Rle_trans; [apply sumn_abs|]. rewrite <- sumn_const. apply sumn_le. intros i _. rewrite Rabs_minus_sym. apply HU.
      - rewrite sumn_const. pose proof (ratio_2 nr ltac:(lia)) as X1. pose proof (ratio_2 nt ltac:(lia)) as X2. assert (0 <= A1) by (unfold A in HA; fold A1 in HA; lra).
        replace (INR nr * (A1 * / INR (nr - 1) * / INR (nt - 1) * (INR nt * / INR (S n)))) with (A1 * / INR (S n) * ((/ INR (nr - 1) * INR nr) * (/ INR (nt - 1) * INR nt))) by ring. unfold A. fold A1. replace (4 * A1 * / INR (S n)) with (A1 * / INR (S n) * (2 * 2)) by ring.
        apply Rmult_le_compat_l; [apply Rmult_le_pos; [auto|left; auto]|]. apply Rmult_le_compat; auto; apply Rmult_le_pos; try lra; apply pos_INR. }
    specialize (R3 n). pose proof (Sm A HA ltac:(lra)) as Z1. pose proof (Sm B3 HB3 ltac:(lra)) as Z2. fold B3 in R3.
    replace (point_sum phi g nr nt - pint phi g) with ((point_sum phi g nr nt - point_sum (psi n) g nr nt) + ((point_sum (psi n) g nr nt - pint (psi n) g) + (pint (psi n) g - pint phi g))) by ring.
    eapply Rle_lt_trans; [apply Rabs_triang|]. eapply Rle_lt_trans; [apply Rplus_le_compat_l, Rabs_triang|]. lra.
Qed.
