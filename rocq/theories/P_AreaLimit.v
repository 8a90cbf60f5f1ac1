(** Continuity of the seen part of a ray in the angle and convergence of the polar area sums. *)
From Coq Require Import Reals List Bool Arith Lia Lra Classical_Prop.
From Coquelicot Require Import Coquelicot.
From Verif Require Import Base_R Base_List P_RowLimit.
Import ListNotations.
Local Open Scope R_scope.

(** grid sums of a continuous function, with both ends *)
Lemma grid_sum (g : R -> R) : (forall v, 0 <= v <= 1 -> continuity_pt g v) -> ex_RInt g 0 1 /\
  forall eps, 0 < eps -> exists N, forall n, (N <= n)%nat -> (2 <= n)%nat -> Rabs (/ INR (n - 1) * sumn n (fun j => g (cell (n - 1) j)) - RInt g 0 1) < eps.
Proof.
  intros Hc. assert (Hex : forall a b, 0 <= a -> a <= b -> b <= 1 -> ex_RInt g a b).
  { intros a b Ha Hab Hb. apply (ex_RInt_continuous (V := R_CompleteNormedModule) g). intros z Hz. rewrite Rmin_left, Rmax_right in Hz by auto. apply continuity_pt_filterlim, Hc. lra. }
  split; [apply Hex; lra|]. intros eps He. destruct (Heine_cor2 Hc (mkposreal (eps / 2) ltac:(lra))) as [[d Hd] HH]. cbn [pos] in HH.
  set (G := Rabs (g 1)). assert (HG : 0 <= G) by apply Rabs_pos.
  destruct (nfloor_ex (/ d + 2 * G / eps + 1)) as (N & _ & HN). { assert (0 < / d) by (apply Rinv_0_lt_compat; auto). assert (0 <= 2 * G / eps) by (apply Rmult_le_pos; [lra|left; apply Rinv_0_lt_compat; auto]). lra. }
  exists (N + 2)%nat. intros n Hn Hn2. set (m := (n - 1)%nat) in *. assert (Hm : (0 < m)%nat) by (unfold m; lia). assert (Mp : 0 < INR m) by (apply lt_0_INR; auto). set (h := / INR m). assert (Hh : 0 < h) by (apply Rinv_0_lt_compat; auto).
  assert (MN : INR N + 1 <= INR m) by (rewrite <- S_INR; apply le_INR; unfold m; lia).
  assert (P1 : 0 < / d) by (apply Rinv_0_lt_compat; auto). assert (P2 : 0 <= 2 * G / eps) by (apply Rmult_le_pos; [lra|left; apply Rinv_0_lt_compat; auto]).
  assert (Hhd : h < d). { unfold h. rewrite <- (Rinv_inv d). apply Rinv_lt_contravar; [apply Rmult_lt_0_compat; auto|lra]. }
  assert (HhG : h * G < eps / 2). { assert (Q : 2 * G / eps < INR m) by lra. apply (Rmult_lt_compat_r eps) in Q; auto. replace (2 * G / eps * eps) with (2 * G) in Q by (field; lra). unfold h. apply (Rmult_lt_reg_l (INR m)); auto. replace (INR m * (/ INR m * G)) with G by (field; lra). nra. }
  assert (Hej : forall j, (j < m)%nat -> ex_RInt g (cell m j) (cell m (S j))). { intros j Hj. pose proof (cell_range m j Hm ltac:(lia)). pose proof (cell_range m (S j) Hm ltac:(lia)). apply Hex; try lra. apply cell_le; auto. }
  rewrite (is_RInt_unique g 0 1 _ (cells_sum g m Hm Hej)). replace n with (S m) by (unfold m; lia). rewrite sumn_S, cell_m by auto.
  assert (D : forall j, (j < m)%nat -> Rabs (h * g (cell m j) - RInt g (cell m j) (cell m (S j))) <= h * (eps / 2)).
  { intros j Hj. pose proof (cell_range m j Hm ltac:(lia)) as R1. pose proof (cell_range m (S j) Hm ltac:(lia)) as R2. pose proof (cell_le m j (S j) Hm ltac:(lia)) as Lj. pose proof (cell_step m j Hm) as Sj. fold h in Sj.
    assert (B : forall u, cell m j <= u <= cell m (S j) -> g (cell m j) - eps / 2 <= g u <= g (cell m j) + eps / 2).
    { intros u Hu. assert (Q : Rabs (g (cell m j) - g u) < eps / 2). { apply HH; try lra. rewrite Rabs_minus_sym, Rabs_pos_eq; lra. } apply Rabs_def2 in Q. lra. }
    assert (K1 : RInt g (cell m j) (cell m (S j)) <= h * (g (cell m j) + eps / 2)).
    { rewrite <- Sj. replace ((cell m (S j) - cell m j) * (g (cell m j) + eps / 2)) with (RInt (fun _ => g (cell m j) + eps / 2) (cell m j) (cell m (S j))) by (rewrite RInt_const; unfold scal; simpl; unfold mult; simpl; ring). apply RInt_le; auto using ex_RInt_const. intros u Hu. apply B. lra. }
    assert (K2 : h * (g (cell m j) - eps / 2) <= RInt g (cell m j) (cell m (S j))).
    { rewrite <- Sj. replace ((cell m (S j) - cell m j) * (g (cell m j) - eps / 2)) with (RInt (fun _ => g (cell m j) - eps / 2) (cell m j) (cell m (S j))) by (rewrite RInt_const; unfold scal; simpl; unfold mult; simpl; ring). apply RInt_le; auto using ex_RInt_const. intros u Hu. apply B. lra. }
    apply Rabs_le. lra. }
  pose proof (sumn_abs m (fun j => h * g (cell m j) - RInt g (cell m j) (cell m (S j)))) as A. rewrite sumn_minus, sumn_scal in A.
  pose proof (sumn_le m _ _ D) as A2. rewrite sumn_const in A2. replace (INR m * (h * (eps / 2))) with (eps / 2) in A2 by (unfold h; field; lra).
  match goal with |- Rabs (h * (?s + g 1) - ?t) < _ => replace (h * (s + g 1) - t) with ((h * s - t) + h * g 1) by ring end.
  eapply Rle_lt_trans; [apply Rabs_triang|]. rewrite (Rabs_mult h), (Rabs_pos_eq h) by lra. fold G. lra.
Qed.

(** [v] numbers the rays, [u] the points of a ray; [F v u < 0] is the condition of being seen, [g] the weight *)
Section Area.
Variables (F : R -> R -> R) (g : R -> R) (G Lg : R).
Variable K : nat.
Hypothesis contU : forall v u, continuity_pt (F v) u.
Hypothesis lip : exists C, 0 <= C /\ forall v v' u, -1 <= v <= 2 -> -1 <= v' <= 2 -> 0 <= u <= 1 -> Rabs (F v u - F v' u) <= C * Rabs (v - v').
Hypothesis zeros : forall v, exists Z, (length Z <= K)%nat /\ forall u, 0 <= u <= 1 -> F v u = 0 -> In u Z.
Hypothesis contg : forall u, continuity_pt g u.
Hypothesis Hg : forall u, 0 <= u <= 1 -> Rabs (g u) <= G.
Hypothesis HL : 0 <= Lg.
Hypothesis lipg : forall u u', 0 <= u <= 1 -> 0 <= u' <= 1 -> Rabs (g u - g u') <= Lg * Rabs (u - u').
Definition below v u : R := if Rlt_dec (F v u) 0 then 1 else 0.
Definition ray v : R := RInt (fun u => g u * below v u) 0 1.

Lemma G_nn : 0 <= G.
Proof. eapply Rle_trans; [apply Rabs_pos|apply (Hg 0); lra]. Qed.
Lemma below_01 v u : below v u = 0 \/ below v u = 1.
Proof. unfold below. destruct (Rlt_dec (F v u) 0); auto. Qed.
Lemma keeps_sign v a b : a <= b -> (forall u, a <= u <= b -> F v u <> 0) -> (F v a < 0 <-> F v b < 0).
Proof.
  intros H HN. destruct (Req_dec a b) as [->|N]; [tauto|]. pose proof (HN a ltac:(lra)) as Na. pose proof (HN b ltac:(lra)) as Nb.
  split; intros S; apply Rnot_le_lt; intros Q.
  - destruct (IVT (F v) a b (contU v) ltac:(lra) S ltac:(lra)) as (z & Hz & E). apply (HN z Hz E).
  - assert (cont : continuity (fun u => - F v u)) by (intros u; apply continuity_pt_opp, contU). destruct (IVT (fun u => - F v u) a b cont ltac:(lra) ltac:(lra) ltac:(lra)) as (z & Hz & E). apply (HN z Hz). lra.
Qed.
Lemma below_const v Z : (forall u, 0 <= u <= 1 -> F v u = 0 -> In u Z) -> const_off (below v) Z.
Proof.
  intros H u u' H0 H1 H2 HN. assert (Q : F v u < 0 <-> F v u' < 0). { apply keeps_sign; auto. intros t Ht E. apply (HN t); auto. apply H; lra. }
  unfold below. destruct (Rlt_dec (F v u) 0), (Rlt_dec (F v u') 0); tauto.
Qed.
Lemma ray_ex v a b : 0 <= a -> a <= b -> b <= 1 -> ex_RInt (fun u => g u * below v u) a b.
Proof. intros Ha Hab Hb. destruct (zeros v) as (Z & _ & HZ). apply (intw_off _ _ Z); auto. apply below_const; auto. Qed.
Lemma cell_stable v0 a b : -1 < v0 < 2 -> 0 <= a -> a <= b -> b <= 1 -> (forall u, a <= u <= b -> F v0 u <> 0) -> exists d, 0 < d /\ forall v, Rabs (v - v0) < d -> forall u, a <= u <= b -> below v u = below v0 u.
Proof.
  intros Hv Ha Hab Hb HN. destruct lip as (C & HC & Hl).
  destruct (continuity_ab_min (fun u => Rabs (F v0 u)) a b Hab) as (mx & M1 & M2). { intros u _. apply (continuity_pt_comp (F v0) Rabs); [apply contU|apply Rcontinuity_abs]. }
  set (m := Rabs (F v0 mx)) in *. assert (Hm : 0 < m) by (apply Rabs_pos_lt, HN; lra).
  exists (Rmin (m / (C + 1)) (Rmin (v0 + 1) (2 - v0))). split.
  { repeat apply Rmin_pos; try lra. apply Rdiv_lt_0_compat; lra. }
  intros v Hd u Hu. pose proof (Rmin_l (m / (C + 1)) (Rmin (v0 + 1) (2 - v0))). pose proof (Rmin_r (m / (C + 1)) (Rmin (v0 + 1) (2 - v0))). pose proof (Rmin_l (v0 + 1) (2 - v0)). pose proof (Rmin_r (v0 + 1) (2 - v0)).
  assert (Hd1 : Rabs (v - v0) < m / (C + 1)) by lra. assert (Hd2 : Rabs (v - v0) < v0 + 1) by lra. assert (Hd3 : Rabs (v - v0) < 2 - v0) by lra. apply Rabs_def2 in Hd2. apply Rabs_def2 in Hd3.
  assert (Q : Rabs (F v u - F v0 u) < m). { eapply Rle_lt_trans; [apply Hl; lra|]. apply (Rmult_lt_compat_r (C + 1)) in Hd1; [|lra]. replace (m / (C + 1) * (C + 1)) with m in Hd1 by (field; lra). pose proof (Rabs_pos (v - v0)). nra. }
  specialize (M1 u Hu). cbv beta in M1. fold m in M1. assert (T : Rabs (F v u - F v0 u) < Rabs (F v0 u)) by lra. unfold below. clear - T. unfold Rabs in T.
  destruct (Rlt_dec (F v u) 0), (Rlt_dec (F v0 u) 0), (Rcase_abs (F v u - F v0 u)), (Rcase_abs (F v0 u)); lra.
Qed.
Lemma ray_cont v0 : -1 < v0 < 2 -> continuity_pt ray v0.
Proof.
  intros Hv eps He. destruct (zeros v0) as (Z & HZ & HZ0). pose proof G_nn as G0. cbn [dist]. unfold D_x, no_cond. simpl. unfold R_dist.
  destruct (nfloor_ex (4 * G * INR K / eps + 1)) as (N & _ & HN). { assert (0 <= 4 * G * INR K / eps); [|lra]. apply Rmult_le_pos; [pose proof (pos_INR K); nra|left; apply Rinv_0_lt_compat; auto]. }
  set (m := S N) in *. assert (Hm : (0 < m)%nat) by (unfold m; lia). assert (Mp : 0 < INR m) by (apply lt_0_INR; auto). set (h := / INR m). assert (Hh : 0 < h) by (apply Rinv_0_lt_compat; auto).
  assert (Hhe : 2 * G * h * (2 * INR (length Z)) < eps).
  { apply Rle_lt_trans with (2 * G * h * (2 * INR K)); [apply Rmult_le_compat_l; [nra|]; apply le_INR in HZ; lra|]. assert (Q : 4 * G * INR K / eps < INR m) by (unfold m; rewrite S_INR; lra). apply (Rmult_lt_compat_r eps) in Q; auto. replace (4 * G * INR K / eps * eps) with (4 * G * INR K) in Q by (field; lra).
    apply (Rmult_lt_reg_l (INR m)); auto. unfold h. replace (INR m * (2 * G * / INR m * (2 * INR K))) with (4 * G * INR K) by (field; lra). lra. }
  assert (S : forall k, (k <= m)%nat -> exists d, 0 < d /\ forall v, Rabs (v - v0) < d -> forall j, (j < k)%nat -> (forall z, In z Z -> ~ cell m j <= z <= cell m (S j)) -> forall u, cell m j <= u <= cell m (S j) -> below v u = below v0 u).
  { induction k as [|k IH]; intros Hk; [exists 1; split; [lra|]; intros; lia|]. destruct (IH ltac:(lia)) as (d & Hd & HD).
    destruct (classic (forall z, In z Z -> ~ cell m k <= z <= cell m (S k))) as [Q|Q].
    - pose proof (cell_range m k Hm ltac:(lia)). pose proof (cell_range m (S k) Hm ltac:(lia)).
      destruct (cell_stable v0 (cell m k) (cell m (S k)) Hv) as (d' & Hd' & HD'); try lra. { apply cell_le; auto. } { intros u Hu E. apply (Q u); auto. apply HZ0; auto. lra. }
      exists (Rmin d d'). split; [apply Rmin_pos; auto|]. intros v Hv' j Hj. pose proof (Rmin_l d d'). pose proof (Rmin_r d d'). destruct (Nat.eq_dec j k) as [->|Nj]; [intros _; apply HD'; lra|apply HD; [lra|lia]].
    - exists d. split; auto. intros v Hv' j Hj HN'. destruct (Nat.eq_dec j k) as [->|Nj]; [contradiction|apply HD; auto; lia]. }
  destruct (S m (le_n m)) as (d & Hd & HD). exists d. split; [auto|]. intros v [_ Hvd].
  specialize (HD v Hvd). unfold ray.
  assert (EX : forall v' j, (j < m)%nat -> ex_RInt (fun u => g u * below v' u) (cell m j) (cell m (Datatypes.S j))).
  { intros v' j Hj. pose proof (cell_range m j Hm ltac:(lia)). pose proof (cell_range m (Datatypes.S j) Hm ltac:(lia)). apply ray_ex; auto; try lra. apply cell_le; auto. }
  rewrite (is_RInt_unique _ 0 1 _ (cells_sum _ m Hm (EX v))), (is_RInt_unique _ 0 1 _ (cells_sum _ m Hm (EX v0))), <- sumn_minus.
  eapply Rle_lt_trans; [apply sumn_abs|]. eapply Rle_lt_trans; [|exact Hhe]. apply Rle_trans with (sumn m (fun j => 2 * G * h * hit Z (cell m j) (cell m (Datatypes.S j)))).
  - apply sumn_le. intros j Hj. pose proof (cell_le m j (Datatypes.S j) Hm ltac:(lia)) as L. destruct (hit_cases Z (cell m j) (cell m (Datatypes.S j))) as [Q|Q].
    + rewrite (RInt_ext (fun u => g u * below v u) (fun u => g u * below v0 u)). { rewrite Rminus_eq_0, Rabs_R0. apply Rmult_le_pos; [nra|apply hit_nn]. } rewrite Rmin_left, Rmax_right by auto. intros u Hu. rewrite (HD j Hj Q) by lra. reflexivity.
    + pose proof (cell_range m j Hm ltac:(lia)) as R1. pose proof (cell_range m (Datatypes.S j) Hm ltac:(lia)) as R2.
      assert (B : forall v' u, cell m j < u < cell m (Datatypes.S j) -> Rabs (g u * below v' u - 0) <= G). { intros v' u Hu. rewrite Rminus_0_r, Rabs_mult. pose proof (Hg u ltac:(lra)). destruct (below_01 v' u) as [-> | ->]; rewrite ?Rabs_R0, ?Rabs_R1; lra. }
      pose proof (int_near _ _ _ 0 G L (EX v j Hj) (B v)) as I1. pose proof (int_near _ _ _ 0 G L (EX v0 j Hj) (B v0)) as I2. rewrite Rmult_0_l, Rminus_0_r, (cell_step m j Hm) in I1, I2. fold h in I1, I2.
      eapply Rle_trans; [apply (Rabs_triang (RInt (fun u => g u * below v u) (cell m j) (cell m (Datatypes.S j))) (- RInt (fun u => g u * below v0 u) (cell m j) (cell m (Datatypes.S j))))|]. rewrite Rabs_Ropp. assert (0 <= 2 * G * h) by nra. nra.
  - rewrite sumn_scal. apply Rmult_le_compat_l; [nra|]. apply all_hits; auto.
Qed.

(** the sum over all grid points *)
Definition area : R := RInt ray 0 1.
Lemma ray_int : is_RInt ray 0 1 area.
Proof. destruct (grid_sum ray) as [H _]; [intros; apply ray_cont; lra|]. apply (RInt_correct (V := R_CompleteNormedModule) ray), H. Qed.
Variable s : R -> R -> R.
Hypothesis s01 : forall v u, s v u = 0 \/ s v u = 1.
Hypothesis s_below : forall v, exists Z, (length Z <= K)%nat /\ forall u, 0 <= u <= 1 -> ~ In u Z -> s v u = below v u.
Lemma ray_s v : is_RInt (fun u => g u * s v u) 0 1 (ray v).
Proof.
  destruct (s_below v) as (Z & _ & HZ). apply (is_RInt_off _ (fun u => g u * below v u) Z); [lra|apply (RInt_correct (V := R_CompleteNormedModule)), ray_ex; lra|]. intros u Hu N. rewrite HZ; auto; lra.
Qed.
Lemma area_limit : forall eps, 0 < eps -> exists N, forall nr nt, (N <= nr)%nat -> (N <= nt)%nat ->
  Rabs (/ INR (nt - 1) * sumn nt (fun i => / INR (nr - 1) * sumn nr (fun j => g (cell (nr - 1) j) * s (cell (nt - 1) i) (cell (nr - 1) j))) - area) < eps.
Proof.
  intros eps He. destruct (grid_sum ray) as [_ HG]; [intros; apply ray_cont; lra|]. destruct (HG (eps / 2) ltac:(lra)) as (N1 & HN1). unfold area. pose proof G_nn as G0.
  set (B := Lg + 4 * G * INR (K + K) + G). assert (HB : 0 <= B) by (unfold B; pose proof (pos_INR (K + K)); nra).
  destruct (nfloor_ex (4 * B / eps + 1)) as (N2 & _ & HN2). { assert (0 <= 4 * B / eps); [|lra]. apply Rmult_le_pos; [lra|left; apply Rinv_0_lt_compat; auto]. }
  exists (N1 + N2 + 2)%nat. intros nr nt Hr Ht. specialize (HN1 nt ltac:(lia) ltac:(lia)). set (h := / INR (nr - 1)) in *. set (k := / INR (nt - 1)) in *.
  assert (Hh : 0 < INR (nr - 1)) by (apply lt_0_INR; lia). assert (Hk : 0 < INR (nt - 1)) by (apply lt_0_INR; lia). assert (hp : 0 < h) by (apply Rinv_0_lt_compat; auto). assert (kp : 0 < k) by (apply Rinv_0_lt_compat; auto).
  set (col := fun i => h * sumn nr (fun j => g (cell (nr - 1) j) * s (cell (nt - 1) i) (cell (nr - 1) j))).
  assert (D : forall i, (i < nt)%nat -> Rabs (col i - ray (cell (nt - 1) i)) <= h * B).
  { intros i Hi. set (v := cell (nt - 1) i). destruct (zeros v) as (Z1 & L1 & H1). destruct (s_below v) as (Z2 & L2 & H2).
    assert (CO : const_off (s v) (Z1 ++ Z2)). { intros u u' U0 U1 U2 NZ. rewrite (H2 u), (H2 u'); try lra. - apply (below_const v Z1 H1); auto. intros z Hz. apply NZ, in_or_app; auto. - intros Q. apply (NZ u'); [apply in_or_app; auto|lra]. - intros Q. apply (NZ u); [apply in_or_app; auto|lra]. }
    pose proof (col_limit g (s v) G Lg (Z1 ++ Z2) nr contg Hg HL lipg (s01 v) CO ltac:(lia)) as Q. rewrite (is_RInt_unique _ _ _ _ (ray_s v)) in Q. unfold col. fold h in Q. eapply Rle_trans; [apply Q|]. apply Rmult_le_compat_l; [lra|]. unfold B.
    assert (INR (length (Z1 ++ Z2)) <= INR (K + K)) by (apply le_INR; rewrite app_length; lia). nra. }
  pose proof (sumn_abs nt (fun i => col i - ray (cell (nt - 1) i))) as A. pose proof (sumn_le nt _ _ D) as A2. rewrite sumn_const in A2. rewrite sumn_minus in A.
  set (S1 := sumn nt col) in *. set (S2 := sumn nt (fun i => ray (cell (nt - 1) i))) in *. change (Rabs (k * S1 - RInt ray 0 1) < eps).
  assert (Q : k * Rabs (S1 - S2) < eps / 2).
  { apply Rle_lt_trans with (k * (INR nt * (h * B))); [apply Rmult_le_compat_l; lra|]. assert (k * INR nt <= 2). { unfold k. apply (Rmult_le_reg_l (INR (nt - 1))); auto. replace (INR (nt - 1) * (/ INR (nt - 1) * INR nt)) with (INR nt) by (field; lra). replace nt with (S (nt - 1)) at 1 by lia. rewrite S_INR. assert (1 <= INR (nt - 1)) by (apply (le_INR 1); lia). lra. }
    apply Rle_lt_trans with (2 * (h * B)). { rewrite <- Rmult_assoc. apply Rmult_le_compat_r; auto. apply Rmult_le_pos; lra. }
    assert (T : 4 * B / eps < INR (nr - 1)). { eapply Rlt_le_trans with (INR N2); [lra|]. apply le_INR. lia. } apply (Rmult_lt_compat_r eps) in T; auto. replace (4 * B / eps * eps) with (4 * B) in T by (field; lra).
    unfold h. apply (Rmult_lt_reg_l (INR (nr - 1))); auto. replace (INR (nr - 1) * (2 * (/ INR (nr - 1) * B))) with (2 * B) by (field; lra). nra. }
  replace (k * S1 - RInt ray 0 1) with (k * (S1 - S2) + (k * S2 - RInt ray 0 1)) by ring.
  eapply Rle_lt_trans; [apply Rabs_triang|]. rewrite (Rabs_mult k), (Rabs_pos_eq k) by lra. lra.
Qed.
End Area.
