(** Convergence of weighted cell sums to integrals of indicator functions with finitely many jumps. *)
From Coq Require Import Reals List Bool Arith Lia Lra Classical_Prop.
From Coquelicot Require Import Coquelicot.
From Verif Require Import Base_R Base_List.
Import ListNotations.
Local Open Scope R_scope.

(** finite sums *)
Definition sumn (n : nat) (f : nat -> R) : R := sumR (map f (seq 0 n)).
Lemma sumn_S n f : sumn (S n) f = sumn n f + f n.
Proof. unfold sumn. rewrite seq_S, map_app, sumR_app. cbn. unfold sumR. cbn. lra. Qed.
Lemma sumn_0 f : sumn 0 f = 0.
Proof. reflexivity. Qed.
Lemma sumn_le n f g : (forall i, (i < n)%nat -> f i <= g i) -> sumn n f <= sumn n g.
Proof. induction n as [|n IH]; intros H; [rewrite !sumn_0; lra|]. rewrite !sumn_S. specialize (IH ltac:(intros; apply H; lia)). specialize (H n ltac:(lia)). lra. Qed.
Lemma sumn_ext n f g : (forall i, (i < n)%nat -> f i = g i) -> sumn n f = sumn n g.
Proof. induction n as [|n IH]; intros H; [reflexivity|]. rewrite !sumn_S, IH by (intros; apply H; lia). rewrite H by lia. reflexivity. Qed.
Lemma sumn_const n c : sumn n (fun _ => c) = INR n * c.
Proof. induction n as [|n IH]; [rewrite sumn_0; simpl; lra|]. rewrite sumn_S, IH, S_INR. lra. Qed.
Lemma sumn_scal n c f : sumn n (fun i => c * f i) = c * sumn n f.
Proof. induction n as [|n IH]; [rewrite !sumn_0; lra|]. rewrite !sumn_S, IH. lra. Qed.
Lemma sumn_plus n f g : sumn n (fun i => f i + g i) = sumn n f + sumn n g.
Proof. induction n as [|n IH]; [rewrite !sumn_0; lra|]. rewrite !sumn_S, IH. lra. Qed.
Lemma sumn_minus n f g : sumn n (fun i => f i - g i) = sumn n f - sumn n g.
Proof. induction n as [|n IH]; [rewrite !sumn_0; lra|]. rewrite !sumn_S, IH. lra. Qed.
Lemma sumn_abs n f : Rabs (sumn n f) <= sumn n (fun i => Rabs (f i)).
Proof. induction n as [|n IH]; [rewrite !sumn_0, Rabs_R0; lra|]. rewrite !sumn_S. pose proof (Rabs_triang (sumn n f) (f n)). lra. Qed.
Lemma sumn_shift n f : sumn (S n) f = f O + sumn n (fun i => f (S i)).
Proof. induction n as [|n IH]; [rewrite sumn_S, !sumn_0; lra|]. rewrite sumn_S, IH, sumn_S. lra. Qed.

(** functions that only change at listed places *)
Definition const_in (f : R -> R) (Z : list R) (a b : R) : Prop := forall u v, a < u -> u <= v -> v < b -> (forall z, In z Z -> ~ u <= z <= v) -> f u = f v.
Definition const_off (f : R -> R) (Z : list R) : Prop := forall u v, 0 <= u -> u <= v -> v <= 1 -> (forall z, In z Z -> ~ u <= z <= v) -> f u = f v.
Lemma int_in f Z : forall a b, a <= b -> const_in f Z a b -> ex_RInt f a b.
Proof.
  induction Z as [|z Z IH]; intros a b Hab H.
  - apply ex_RInt_ext with (f := fun _ => f ((a + b) / 2)); [|apply ex_RInt_const]. rewrite Rmin_left, Rmax_right by auto. intros x Hx.
    destruct (Rle_dec x ((a + b) / 2)); [symmetry|]; apply H; try lra; intros z [].
  - destruct (Rle_dec z a) as [A|A]; [|destruct (Rle_dec b z) as [B|B]].
    + apply IH; auto. intros u v H1 H2 H3 HZ. apply H; auto. intros y [<-|Hy]; [lra|auto].
    + apply IH; auto. intros u v H1 H2 H3 HZ. apply H; auto. intros y [<-|Hy]; [lra|auto].
    + apply (ex_RInt_Chasles f a z b); apply IH; try lra; intros u v H1 H2 H3 HZ; apply H; try lra; intros y [<-|Hy]; [lra|auto|lra|auto].
Qed.
Lemma off_in f Z a b : const_off f Z -> 0 <= a -> b <= 1 -> const_in f Z a b.
Proof. intros H Ha Hb u v H1 H2 H3 HZ. apply H; auto; lra. Qed.
Lemma int_off f Z a b : const_off f Z -> 0 <= a -> a <= b -> b <= 1 -> ex_RInt f a b.
Proof. intros H Ha Hab Hb. apply (int_in f Z); auto. apply off_in; auto. Qed.
Lemma is_RInt_off (f g : R -> R) Z : forall a b I, a <= b -> is_RInt g a b I -> (forall u, a < u < b -> ~ In u Z -> f u = g u) -> is_RInt f a b I.
Proof.
  induction Z as [|z Z IH]; intros a b I Hab Hg H.
  - apply is_RInt_ext with (f := g); auto. rewrite Rmin_left, Rmax_right by auto. intros x Hx. symmetry. apply H; auto.
  - destruct (Rle_dec z a) as [A|A]; [|destruct (Rle_dec b z) as [B|B]].
    + apply IH; auto. intros u Hu HN. apply H; auto. intros [<-|Q]; [lra|auto].
    + apply IH; auto. intros u Hu HN. apply H; auto. intros [<-|Q]; [lra|auto].
    + assert (E : ex_RInt g a b) by (exists I; auto). assert (E1 : ex_RInt g a z) by (apply (ex_RInt_Chasles_1 g a z b); [lra|auto]). assert (E2 : ex_RInt g z b) by (apply (ex_RInt_Chasles_2 g a z b); [lra|auto]).
      replace I with (plus (RInt g a z) (RInt g z b)) by (rewrite (RInt_Chasles g a z b E1 E2); apply is_RInt_unique; auto).
      apply (is_RInt_Chasles f a z b); apply IH; try lra; try (apply (RInt_correct g); auto); intros u Hu HN; apply H; try lra; intros [<-|Q]; [lra|auto|lra|auto].
Qed.

(** cells [x_j, x_(j+1)] of the unit interval *)
Definition cell (m j : nat) : R := INR j / INR m.
Definition hits (x y z : R) : R := if Rle_dec x z then if Rle_dec z y then 1 else 0 else 0.
Definition hit (Z : list R) (x y : R) : R := sumR (map (hits x y) Z).
Lemma hits_nn x y z : 0 <= hits x y z.
Proof. unfold hits. destruct (Rle_dec x z), (Rle_dec z y); lra. Qed.
Lemma hit_nn Z x y : 0 <= hit Z x y.
Proof. unfold hit. induction Z as [|z Z IH]; cbn; [unfold sumR; cbn; lra|]. pose proof (hits_nn x y z). unfold sumR in *. cbn. lra. Qed.
Lemma hit_cons z Z x y : hit (z :: Z) x y = hits x y z + hit Z x y.
Proof. reflexivity. Qed.
Lemma hit_cases Z x y : (forall z, In z Z -> ~ x <= z <= y) \/ 1 <= hit Z x y.
Proof.
  induction Z as [|z Z [IH|IH]]; [left; intros z []| |right; rewrite hit_cons; pose proof (hits_nn x y z); lra].
  destruct (classic (x <= z <= y)) as [H|H]; [right|left; intros t [<-|Ht]; auto].
  rewrite hit_cons. pose proof (hit_nn Z x y). unfold hits. destruct (Rle_dec x z), (Rle_dec z y); lra.
Qed.
Lemma cell_le m i j : (0 < m)%nat -> (i <= j)%nat -> cell m i <= cell m j.
Proof. intros Hm H. unfold cell, Rdiv. apply Rmult_le_compat_r; [left; apply Rinv_0_lt_compat, lt_0_INR; auto|apply le_INR; auto]. Qed.
Lemma cell_lt m i j : (0 < m)%nat -> (i < j)%nat -> cell m i < cell m j.
Proof. intros Hm H. unfold cell, Rdiv. apply Rmult_lt_compat_r; [apply Rinv_0_lt_compat, lt_0_INR; auto|apply lt_INR; auto]. Qed.
Lemma cell_0 m : cell m 0 = 0.
Proof. unfold cell. simpl. unfold Rdiv. ring. Qed.
Lemma cell_m m : (0 < m)%nat -> cell m m = 1.
Proof. intros H. unfold cell. field. apply not_0_INR. lia. Qed.
Lemma cell_step m j : (0 < m)%nat -> cell m (S j) - cell m j = / INR m.
Proof. intros H. unfold cell. rewrite S_INR. field. apply not_0_INR. lia. Qed.
Lemma cell_range m j : (0 < m)%nat -> (j <= m)%nat -> 0 <= cell m j <= 1.
Proof. intros H Hj. rewrite <- (cell_0 m), <- (cell_m m H). split; apply cell_le; auto; lia. Qed.
Lemma one_hits m z : (0 < m)%nat -> forall k,
  sumn k (fun j => hits (cell m j) (cell m (S j)) z) <= 2 /\ (cell m k <= z -> sumn k (fun j => hits (cell m j) (cell m (S j)) z) <= 1) /\ (cell m k < z -> sumn k (fun j => hits (cell m j) (cell m (S j)) z) <= 0).
Proof.
  intros Hm. induction k as [|k (I1 & I2 & I3)]; [rewrite sumn_0; lra|]. rewrite sumn_S. pose proof (cell_lt m k (S k) Hm ltac:(lia)) as L.
  set (s := sumn k _) in *. unfold hits. destruct (Rle_dec (cell m k) z) as [A|A], (Rle_dec z (cell m (S k))) as [B|B].
  - specialize (I2 A). split; [lra|]. split; [|lra]. intros H. assert (cell m k < z) by lra. specialize (I3 H0). lra.
  - specialize (I2 A). assert (cell m k < z) by lra. specialize (I3 H). lra.
  - split; [lra|]. lra.
  - exfalso. lra.
Qed.
Lemma all_hits m Z : (0 < m)%nat -> sumn m (fun j => hit Z (cell m j) (cell m (S j))) <= 2 * INR (length Z).
Proof.
  intros Hm. induction Z as [|z Z IH].
  - rewrite (sumn_ext _ _ (fun _ => 0)) by reflexivity. rewrite sumn_const. simpl. lra.
  - rewrite (sumn_ext _ _ (fun j => hits (cell m j) (cell m (S j)) z + hit Z (cell m j) (cell m (S j)))) by reflexivity. rewrite sumn_plus. cbn [length]. rewrite S_INR. destruct (one_hits m z Hm m) as (H & _). lra.
Qed.
Lemma cells_chasles f m : (0 < m)%nat -> (forall j, (j < m)%nat -> ex_RInt f (cell m j) (cell m (S j))) -> forall k, (k <= m)%nat ->
  is_RInt f 0 (cell m k) (sumn k (fun j => RInt f (cell m j) (cell m (S j)))).
Proof.
  intros Hm He. induction k as [|k IH]; intros Hk.
  - rewrite cell_0, sumn_0. apply (is_RInt_point f 0).
  - rewrite sumn_S. apply (is_RInt_Chasles f 0 (cell m k) (cell m (S k))); [apply IH; lia|]. apply (RInt_correct f), He. lia.
Qed.
Lemma cells_sum f m : (0 < m)%nat -> (forall j, (j < m)%nat -> ex_RInt f (cell m j) (cell m (S j))) -> is_RInt f 0 1 (sumn m (fun j => RInt f (cell m j) (cell m (S j)))).
Proof. intros Hm He. pose proof (cells_chasles f m Hm He m (le_n m)) as H. rewrite cell_m in H; auto. Qed.
Lemma int_bound f a b : a <= b -> ex_RInt f a b -> (forall u, 0 <= f u <= 1) -> 0 <= RInt f a b <= b - a.
Proof.
  intros H He Hf. split.
  - apply RInt_ge_0; auto. intros; apply Hf.
  - replace (b - a) with (RInt (fun _ => 1) a b) by (rewrite RInt_const; unfold scal; simpl; unfold mult; simpl; ring). apply RInt_le; auto using ex_RInt_const. intros; apply Hf.
Qed.
Lemma int_const f a b c : a <= b -> (forall u, a <= u <= b -> f u = c) -> RInt f a b = c * (b - a).
Proof.
  intros H Hc. rewrite (RInt_ext f (fun _ => c)) by (rewrite Rmin_left, Rmax_right by auto; intros; apply Hc; lra). rewrite RInt_const. unfold scal; simpl; unfold mult; simpl; ring.
Qed.

(** products with a continuous weight *)
Lemma intw_in (g f : R -> R) Z : (forall u, continuity_pt g u) -> forall a b, a <= b -> const_in f Z a b -> ex_RInt (fun u => g u * f u) a b.
Proof.
  intros Hg. induction Z as [|z Z IH]; intros a b Hab H.
  - apply ex_RInt_ext with (f := fun u => scal (f ((a + b) / 2)) (g u)).
    + rewrite Rmin_left, Rmax_right by auto. intros x Hx. unfold scal; simpl; unfold mult; simpl. replace (f x) with (f ((a + b) / 2)); [ring|]. destruct (Rle_dec x ((a + b) / 2)); [symmetry|]; apply H; try lra; intros z [].
    + apply (ex_RInt_scal (V := R_NormedModule)). apply (ex_RInt_continuous (V := R_CompleteNormedModule)). intros u _. apply continuity_pt_filterlim, Hg.
  - destruct (Rle_dec z a) as [A|A]; [|destruct (Rle_dec b z) as [B|B]].
    + apply IH; auto. intros u v H1 H2 H3 HZ. apply H; auto. intros y [<-|Hy]; [lra|auto].
    + apply IH; auto. intros u v H1 H2 H3 HZ. apply H; auto. intros y [<-|Hy]; [lra|auto].
    + apply (ex_RInt_Chasles (fun u => g u * f u) a z b); apply IH; try lra; intros u v H1 H2 H3 HZ; apply H; try lra; intros y [<-|Hy]; [lra|auto|lra|auto].
Qed.
Lemma intw_off (g f : R -> R) Z a b : (forall u, continuity_pt g u) -> const_off f Z -> 0 <= a -> a <= b -> b <= 1 -> ex_RInt (fun u => g u * f u) a b.
Proof. intros Hg H Ha Hab Hb. apply (intw_in g f Z); auto. apply off_in; auto. Qed.
Lemma int_near (h : R -> R) a b c e : a <= b -> ex_RInt h a b -> (forall u, a < u < b -> Rabs (h u - c) <= e) -> Rabs (RInt h a b - c * (b - a)) <= e * (b - a).
Proof.
  intros Hab He H.
  assert (K1 : RInt h a b <= (b - a) * (c + e)).
  { replace ((b - a) * (c + e)) with (RInt (fun _ => c + e) a b) by (rewrite RInt_const; unfold scal; simpl; unfold mult; simpl; ring). apply RInt_le; auto using ex_RInt_const. intros u Hu. specialize (H u Hu). apply Rabs_le_between in H. lra. }
  assert (K2 : (b - a) * (c - e) <= RInt h a b).
  { replace ((b - a) * (c - e)) with (RInt (fun _ => c - e) a b) by (rewrite RInt_const; unfold scal; simpl; unfold mult; simpl; ring). apply RInt_le; auto using ex_RInt_const. intros u Hu. specialize (H u Hu). apply Rabs_le_between in H. lra. }
  apply Rabs_le. lra.
Qed.

(** grid sums of a weight times an indicator with few jumps *)
Lemma col_limit (g f : R -> R) (G Lg : R) (Z : list R) (n : nat) : (forall u, continuity_pt g u) -> (forall u, 0 <= u <= 1 -> Rabs (g u) <= G) -> 0 <= Lg ->
  (forall u u', 0 <= u <= 1 -> 0 <= u' <= 1 -> Rabs (g u - g u') <= Lg * Rabs (u - u')) -> (forall u, f u = 0 \/ f u = 1) -> const_off f Z -> (2 <= n)%nat ->
  Rabs (/ INR (n - 1) * sumn n (fun j => g (cell (n - 1) j) * f (cell (n - 1) j)) - RInt (fun u => g u * f u) 0 1) <= / INR (n - 1) * (Lg + 4 * G * INR (length Z) + G).
Proof.
  intros Hg HG HL Hlip Hf HZ Hn. set (m := (n - 1)%nat) in *. assert (Hm : (0 < m)%nat) by (unfold m; lia). set (h := / INR m). assert (Mp : 0 < INR m) by (apply lt_0_INR; auto). assert (Hh : 0 < h) by (apply Rinv_0_lt_compat; auto).
  assert (h1 : h <= 1). { unfold h. rewrite <- Rinv_1. apply Rinv_le_contravar; [lra|]. apply (le_INR 1). lia. }
  assert (G0 : 0 <= G) by (eapply Rle_trans; [apply Rabs_pos|apply (HG 0); lra]). set (p := fun u => g u * f u).
  assert (Hp : forall u, 0 <= u <= 1 -> Rabs (p u) <= G). { intros u Hu. unfold p. rewrite Rabs_mult. specialize (HG u Hu). destruct (Hf u) as [-> | ->]; rewrite ?Rabs_R0, ?Rabs_R1; lra. }
  assert (He : forall j, (j < m)%nat -> ex_RInt p (cell m j) (cell m (S j))).
  { intros j Hj. pose proof (cell_range m j Hm ltac:(lia)). pose proof (cell_range m (S j) Hm ltac:(lia)). apply (intw_off g f Z); auto; try lra. apply cell_le; auto. }
  change (RInt (fun u => g u * f u) 0 1) with (RInt p 0 1). rewrite (is_RInt_unique p 0 1 _ (cells_sum p m Hm He)). replace n with (S m) by (unfold m; lia). rewrite sumn_S, cell_m by auto.
  change (sumn m (fun j => g (cell m j) * f (cell m j))) with (sumn m (fun j => p (cell m j))). change (g 1 * f 1) with (p 1).
  assert (D : forall j, (j < m)%nat -> Rabs (h * p (cell m j) - RInt p (cell m j) (cell m (S j))) <= h * (Lg * h + 2 * G * hit Z (cell m j) (cell m (S j)))).
  { intros j Hj. pose proof (cell_range m j Hm ltac:(lia)) as R1. pose proof (cell_range m (S j) Hm ltac:(lia)) as R2. pose proof (cell_le m j (S j) Hm ltac:(lia)) as Lj. pose proof (cell_step m j Hm) as Sj. fold h in Sj. pose proof (hit_nn Z (cell m j) (cell m (S j))) as NN.
    destruct (hit_cases Z (cell m j) (cell m (S j))) as [N|N].
    - pose proof (int_near p _ _ (p (cell m j)) (Lg * h) Lj (He j Hj)) as Q. rewrite Sj in Q. rewrite Rabs_minus_sym, (Rmult_comm h (p _)). eapply Rle_trans; [apply Q|].
      + intros u Hu. unfold p. replace (f (cell m j)) with (f u). 2:{ symmetry. apply HZ; try lra. intros z Hz Q'. apply (N z Hz). lra. }
        rewrite <- Rmult_minus_distr_r, Rabs_mult. specialize (Hlip u (cell m j) ltac:(lra) R1). assert (Rabs (u - cell m j) <= h) by (apply Rabs_le; lra). pose proof (Rabs_pos (g u - g (cell m j))). assert (Lg * Rabs (u - cell m j) <= Lg * h) by (apply Rmult_le_compat_l; auto).
        destruct (Hf u) as [-> | ->]; rewrite ?Rabs_R0, ?Rabs_R1; nra.
      + rewrite (Rmult_comm _ h). apply Rmult_le_compat_l; nra.
    - pose proof (int_near p _ _ 0 G Lj (He j Hj)) as Q. rewrite Sj in Q. specialize (Q ltac:(intros u Hu; rewrite Rminus_0_r; apply Hp; lra)). rewrite Rmult_0_l, Rminus_0_r in Q.
      specialize (Hp _ R1). eapply Rle_trans; [apply (Rabs_triang (h * p (cell m j)) (- RInt p (cell m j) (cell m (S j))))|]. rewrite Rabs_Ropp, Rabs_mult, (Rabs_pos_eq h) by lra.
      assert (h * Rabs (p (cell m j)) <= h * G) by (apply Rmult_le_compat_l; lra). assert (h * (2 * G * 1) <= h * (Lg * h + 2 * G * hit Z (cell m j) (cell m (S j)))); [|lra]. apply Rmult_le_compat_l; [lra|]. assert (0 <= Lg * h) by (apply Rmult_le_pos; lra). nra. }
  pose proof (sumn_abs m (fun j => h * p (cell m j) - RInt p (cell m j) (cell m (S j)))) as A. rewrite sumn_minus, sumn_scal in A. pose proof (sumn_le m _ _ D) as A2. rewrite sumn_scal, sumn_plus, sumn_const, sumn_scal in A2.
  replace (INR m * (Lg * h)) with Lg in A2 by (unfold h; field; lra). pose proof (all_hits m Z Hm) as AH.
  match goal with |- Rabs (h * (?s + p 1) - ?t) <= _ => replace (h * (s + p 1) - t) with ((h * s - t) + h * p 1) by ring end.
  eapply Rle_trans; [apply Rabs_triang|]. rewrite (Rabs_mult h), (Rabs_pos_eq h) by lra. specialize (Hp 1 ltac:(lra)). assert (h * Rabs (p 1) <= h * G) by (apply Rmult_le_compat_l; lra).
  assert (h * (2 * G * sumn m (fun j => hit Z (cell m j) (cell m (S j)))) <= h * (2 * G * (2 * INR (length Z)))) by (apply Rmult_le_compat_l; [lra|]; apply Rmult_le_compat_l; lra). lra.
Qed.

(** neighbouring grid points at which an indicator differs are few *)
Lemma few_changes (f : R -> R) (Z : list R) (m : nat) : (0 < m)%nat -> (forall u, f u = 0 \/ f u = 1) -> const_off f Z ->
  sumn m (fun j => Rabs (f (cell m j) - f (cell m (S j)))) <= 2 * INR (length Z).
Proof.
  intros Hm Hf HZ. eapply Rle_trans; [|apply (all_hits m Z Hm)]. apply sumn_le. intros j Hj. destruct (hit_cases Z (cell m j) (cell m (S j))) as [N|N].
  - pose proof (cell_range m j Hm ltac:(lia)). pose proof (cell_range m (S j) Hm ltac:(lia)). rewrite (HZ (cell m j) (cell m (S j))); try lra; auto; [|apply cell_le; auto]. rewrite Rminus_eq_0, Rabs_R0. apply hit_nn.
  - eapply Rle_trans; [|exact N]. destruct (Hf (cell m j)) as [-> | ->], (Hf (cell m (S j))) as [-> | ->]; unfold Rabs; destruct (Rcase_abs _); lra.
Qed.
