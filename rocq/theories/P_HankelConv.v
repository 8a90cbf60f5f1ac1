(** Proofs: the Hankel transform on a geometric grid, with padding or extrapolation, is a sum over the samples. *)
From Coq Require Import Reals List Bool Arith ZArith Lia Lra.
From Coquelicot Require Import Complex.
From Verif Require Import Base_R Base_C Base_List M_Fftlog S_Fftlog P_Fftlog P_FftConv.
Import ListNotations.
Local Open Scope R_scope.

Lemma geom_pos x0 r i : 0 < x0 -> 0 < x0 * Rpower r (INR i). Proof. intros. apply Rmult_lt_0_compat; auto. apply Rpower_pos. Qed.
Lemma geom_map_Some x0 r n : geom x0 r n = map Some (rgeom x0 r n). Proof. unfold geom, rgeom. rewrite map_map. reflexivity. Qed.
Lemma rgeom_len x0 r n : length (rgeom x0 r n) = n. Proof. unfold rgeom. rewrite map_length, seq_length. reflexivity. Qed.
Lemma rgeom_at x0 r n i : (i < n)%nat -> nth i (rgeom x0 r n) 0 = x0 * Rpower r (INR i).
Proof. intros H. unfold rgeom. rewrite (nth_map_lt _ _ i O) by (rewrite seq_length; auto). rewrite seq_nth by auto. reflexivity. Qed.
Definition weighted x0 r n (f : list R) : list R := map (fun i => sqrt (x0 * Rpower r (INR i)) * nth i f 0) (seq 0 n).
Lemma weighted_len x0 r n f : length (weighted x0 r n f) = n. Proof. unfold weighted. rewrite map_length, seq_length. reflexivity. Qed.
Lemma weighted_val x0 r n (f : list R) : 0 < x0 -> length f = n ->
  map (fun '(x, f) => nmul (nsqrt x) f) (combine (geom x0 r n) (map Some f)) = map Some (weighted x0 r n f).
Proof.
  intros Hx Hf. apply (list_eq_nth None).
  - rewrite !map_length, combine_length, geom_length, map_length, weighted_len. lia.
  - intros i Hi. rewrite map_length, combine_length, geom_length, map_length, Hf, Nat.min_id in Hi.
    rewrite (nth_map_lt _ _ i (None, None)) by (rewrite combine_length, geom_length, map_length; lia). rewrite combine_nth_lt by (rewrite geom_length, map_length; auto).
    rewrite geom_nth by auto. rewrite (nth_map_lt Some f i 0) by lia. rewrite (nth_map_lt Some _ i 0) by (rewrite weighted_len; auto).
    unfold weighted. rewrite (nth_map_lt _ _ i O) by (rewrite seq_length; auto). rewrite seq_nth by auto. cbn [Nat.add].
    unfold nmul, nsqrt, nbind, nmap2. pose proof (geom_pos x0 r i Hx). destruct (Rltb_spec (x0 * Rpower r (INR i)) 0); [lra|reflexivity].
Qed.
Lemma y_grid x0 r n j : 0 < x0 -> (j < n)%nat -> 0.5 / (x0 * Rpower r (INR (n - 1 - j))) = 0.5 / (x0 * Rpower r (INR (n - 1))) * Rpower r (INR j).
Proof.
  intros Hx Hj. replace (INR (n - 1)) with (INR (n - 1 - j) + INR j) by (rewrite <- plus_INR; f_equal; lia). rewrite Rpower_plus.
  pose proof (Rpower_pos r (INR j)). pose proof (Rpower_pos r (INR (n - 1 - j))). generalize 0.5 as q. intros q. field. lra.
Qed.
(** from numbers in the extended array to the result of the transform *)
Lemma hankel_core g width r N : 0 < r -> r <> 1 -> cut_of width N <> 1%nat ->
  exists kappa, forall x0 n nl nh npad (f : list R) s X F, 0 < x0 -> (2 <= n)%nat -> length f = n -> Nat.even (n + nl + nh) = true \/ (0 < npad)%nat ->
  fftlog_init (geom x0 r n) (map Some (weighted x0 r n f)) nl nh npad = Ok s -> f_N s = N -> f_x s = map Some X -> f_fx s = map Some F ->
  let y0 := 0.5 / (x0 * Rpower r (INR (n - 1))) in
  hankel g 1.5 width 0 (geom x0 r n) (map Some f) nl nh npad =
  Ok (geom y0 r n, map Some (map (fun j => sumR (map (fun '(x, v) => v * kappa (x * (y0 * Rpower r (INR j)))) (combine X F)) * sqrt (2 * (y0 * Rpower r (INR j)) / PI)) (seq 0 n))).
Proof.
  intros Hr Hr1 Hcut. destruct (convolution g 1.5 width (0 - 0.5) r N Hr Hr1 ltac:(lra) Hcut) as [kappa HK]. exists kappa.
  intros x0 n nl nh npad f s X F Hx Hn Hf Hc Es SN SX SF y0. pose proof PI_RGT_0 as Hpi.
  assert (Lw : length (map Some (weighted x0 r n f)) = n) by (rewrite map_length, weighted_len; auto).
  unfold hankel. rewrite weighted_val by auto. rewrite Es. cbn [bind]. destruct (fftlog g 1.5 width (0 - 0.5) s) as [y Fo] eqn:Ey.
  destruct (HK x0 n (map Some (weighted x0 r n f)) nl nh npad s X F y Fo Hx Hn Lw Es SN SX SF Ey) as [L1 V].
  destruct (outputs_aligned g 1.5 width (0 - 0.5) (geom x0 r n) (map Some (weighted x0 r n f)) nl nh npad s y Fo) as (A & B & C); try rewrite geom_length; auto. rewrite geom_length in *.
  assert (y0p : 0 < y0) by (unfold y0; apply Rdiv_lt_0_compat; [lra|apply geom_pos; auto]).
  assert (Vy : forall j, (j < n)%nat -> nth j y None = Some (y0 * Rpower r (INR j))).
  { intros j Hj. rewrite C by auto. rewrite geom_nth by lia. unfold ndiv, nmap2. pose proof (geom_pos x0 r (n - 1 - j) Hx). destruct (Reqb_spec (x0 * Rpower r (INR (n - 1 - j))) 0); [lra|].
    f_equal. replace (0 - 0.5 + 1) with 0.5 by lra. apply y_grid; auto. }
  assert (EY : y = geom y0 r n) by (apply (list_eq_nth None); [rewrite geom_length; auto|]; intros j Hj; rewrite A in Hj; rewrite Vy, geom_nth by auto; reflexivity).
  rewrite EY. do 2 f_equal. apply (list_eq_nth None).
  - rewrite !map_length, combine_length, geom_length, seq_length. lia.
  - intros j Hj. rewrite map_length, combine_length, geom_length, B, Nat.min_id in Hj.
    rewrite (nth_map_lt _ _ j (None, None)) by (rewrite combine_length, geom_length, B; lia). rewrite combine_nth_lt by (rewrite geom_length; auto).
    rewrite map_map. rewrite (nth_map_lt _ (seq 0 n) j O) by (rewrite seq_length; auto). rewrite seq_nth by auto. cbn [Nat.add]. rewrite geom_nth by auto.
    destruct (V j) as (yj & P & E1 & E2); [lia|]. rewrite Vy in E1 by auto. injection E1 as <-. rewrite E2. unfold nmul, nsqrt, nbind, nmap2.
    destruct (Rltb_spec (2 * (y0 * Rpower r (INR j)) / PI) 0) as [Hn0|_]; [exfalso; assert (0 < 2 * (y0 * Rpower r (INR j)) / PI) by (apply Rdiv_lt_0_compat; lra); lra|]. reflexivity.
Qed.
Lemma sumR_zero {A} (f : A -> R) l : (forall a, In a l -> f a = 0) -> sumR (map f l) = 0.
Proof. induction l as [|a l IH]; intros H; [reflexivity|]. cbn [map sumR]. rewrite H, IH by (simpl; auto; intros; apply H; simpl; auto). ring. Qed.
Lemma combine_app_ex {A B} (l1 l2 : list A) (m1 m2 : list B) : length l1 = length m1 -> combine (l1 ++ l2) (m1 ++ m2) = combine l1 m1 ++ combine l2 m2.
Proof. revert m1; induction l1 as [|a l1 IH]; intros [|b m1] H; try discriminate; [reflexivity|]. cbn [combine app]. f_equal. apply IH. simpl in H. lia. Qed.
Lemma zero_block (f : R -> R) X k : sumR (map (fun '(x, v) => v * f x) (combine X (repeat 0 k))) = 0.
Proof. apply sumR_zero. intros [x v] H. apply in_combine_r, repeat_spec in H. subst. ring. Qed.
Lemma rgeom_app a r n m : 0 < r -> rgeom a r (n + m) = rgeom a r n ++ rgeom (a * Rpower r (INR n)) r m.
Proof.
  intros Hr. apply (list_eq_nth 0).
  - rewrite app_length, !rgeom_len. reflexivity.
  - intros i Hi. rewrite rgeom_len in Hi. rewrite rgeom_at by auto. destruct (Nat.lt_ge_cases i n).
    + rewrite app_nth1 by (rewrite rgeom_len; auto). rewrite rgeom_at by auto. reflexivity.
    + rewrite app_nth2 by (rewrite rgeom_len; auto). rewrite rgeom_len, rgeom_at by lia. rewrite Rmult_assoc, <- Rpower_plus, <- plus_INR. do 3 f_equal. lia.
Qed.
Definition half_size (n npad : nat) : nat := ((n + 2 * npad) / 2)%nat.
Lemma removelast_map {A B} (f : A -> B) l : removelast (map f l) = map f (removelast l).
Proof. induction l as [|a [|b l] IH]; [reflexivity|reflexivity|]. cbn [map removelast] in *. rewrite IH. reflexivity. Qed.
Lemma removelast_repeat {A} (a : A) k : removelast (repeat a (S k)) = repeat a k.
Proof. cbn [repeat]. rewrite repeat_cons. apply removelast_last. Qed.
(** padding with zeros: a sum over the samples, with a kernel that depends on the product of positions only *)
Lemma hankel_conv g width r n npad : 0 < r -> r <> 1 -> (2 <= n)%nat -> Nat.even n = true \/ (0 < npad)%nat -> cut_of width (2 * half_size n npad) <> 1%nat ->
  exists kappa, forall x0 (f : list R), 0 < x0 -> length f = n -> let y0 := 0.5 / (x0 * Rpower r (INR (n - 1))) in
  hankel g 1.5 width 0 (geom x0 r n) (map Some f) 0 0 npad =
  Ok (geom y0 r n, map Some (map (fun j => sumR (map (fun i => nth i f 0 * kappa (x0 * Rpower r (INR i) * (y0 * Rpower r (INR j)))) (seq 0 n))) (seq 0 n))).
Proof.
  intros Hr Hr1 Hn Hc Hcut. set (N := (2 * half_size n npad)%nat) in *. destruct (hankel_core g width r N Hr Hr1 Hcut) as [kappa HK].
  exists (fun p => kappa p * sqrt (2 * p / PI)). intros x0 f Hx Hf y0. pose proof PI_RGT_0 as Hpi.
  set (w := weighted x0 r n f). assert (Lw : length (map Some w) = n) by (unfold w; rewrite map_length, weighted_len; auto). assert (Lx : length (geom x0 r n) = n) by apply geom_length.
  destruct (init_ok (geom x0 r n) (map Some w) 0 0 npad) as (s & x1 & f1 & px1 & px2 & low & high & flow & fhigh & E & Ex & E1 & E2 & E3 & E4 & Ef & E5 & E6 & EF & EX & Ed & El & HT); [lia|lia|].
  destruct (init_geom x0 r n (map Some w) 0 0 npad s) as [G1 _]; auto; [lra|]. rewrite Lx in HT. replace (n + 0 + 0 + 2 * npad)%nat with (n + 2 * npad)%nat in HT by lia.
  destruct flow, fhigh; try discriminate. cbn [app] in Ef. rewrite app_nil_r in Ef.
  assert (HN : f_N s = N). { unfold N, half_size. destruct (Nat.odd (n + 2 * npad)) eqn:O; destruct HT as (_ & _ & -> & _).
    - apply Nat.odd_spec in O. destruct O as [m O]. rewrite O. replace (2 * m + 1)%nat with (1 + m * 2)%nat by lia. rewrite Nat.div_add by lia. simpl (1 / 2)%nat. lia.
    - assert (Ev : Nat.even (n + 2 * npad) = true) by (rewrite <- Nat.negb_odd, O; reflexivity). apply Nat.even_spec in Ev. destruct Ev as [m Ev]. rewrite Ev. rewrite (Nat.mul_comm 2 m), Nat.div_mul by lia. lia. }
  set (q := (N - n - npad)%nat).
  assert (HNq : (N = npad + n + q)%nat).
  { unfold q. destruct (Nat.odd (n + 2 * npad)) eqn:O; destruct HT as (_ & _ & HT & _); rewrite <- HN, HT; [|lia].
    destruct Hc as [Hc|Hc]; [|lia]. exfalso. rewrite Nat.odd_add, Nat.odd_mul in O. rewrite <- Nat.negb_even, Hc in O. simpl in O. discriminate. }
  assert (Fx : f_fx s = map Some (repeat 0 npad ++ w ++ repeat 0 q)).
  { assert (R0 : forall k, map Some (repeat 0 k) = repeat (Some 0) k) by (induction k; simpl; [reflexivity|f_equal; auto]).
    destruct (Nat.odd (n + 2 * npad)) eqn:O; destruct HT as (_ & -> & HT & _); rewrite Ef, !map_app, !R0.
    - assert (Hp : npad = S q) by lia. rewrite Hp at 2. rewrite removelast_app by (simpl; destruct (map Some w); discriminate). f_equal. rewrite removelast_app by (simpl; discriminate). f_equal. apply removelast_repeat.
    - repeat f_equal. lia. }
  rewrite HN in G1. rewrite Nat.add_0_l in G1. set (a := x0 * Rpower r (- INR npad)) in G1. assert (Ha : 0 < a) by (unfold a; apply Rmult_lt_0_compat; auto; apply Rpower_pos).
  assert (Eax : a * Rpower r (INR npad) = x0). { unfold a. rewrite Rmult_assoc, <- Rpower_plus. replace (- INR npad + INR npad) with 0 by ring. rewrite Rpower_O by auto. ring. }
  rewrite (HK x0 n 0%nat 0%nat npad f s (rgeom a r N) (repeat 0 npad ++ w ++ repeat 0 q)); auto; try (rewrite <- geom_map_Some; auto).
  2: { destruct Hc as [Hc|Hc]; [left; rewrite !Nat.add_0_r; auto|right; auto]. }
  fold y0. do 3 f_equal. apply map_ext_in. intros j Hj. apply in_seq in Hj. set (y := y0 * Rpower r (INR j)).
  assert (yp : 0 < y) by (unfold y, y0; apply geom_pos; apply Rdiv_lt_0_compat; [lra|apply geom_pos; auto]).
  rewrite HNq. rewrite <- Nat.add_assoc, !rgeom_app by auto. rewrite Eax. rewrite combine_app_ex by (rewrite rgeom_len, repeat_length; auto).
  rewrite combine_app_ex by (rewrite rgeom_len; unfold w; rewrite weighted_len; auto). rewrite !map_app, !sumR_app. rewrite !(zero_block (fun x => kappa (x * y))). rewrite Rplus_0_l, Rplus_0_r.
  rewrite (sum_combine (fun x v => v * kappa (x * y)) (rgeom x0 r n) w n) by (rewrite ?rgeom_len; auto; unfold w; rewrite weighted_len; auto).
  rewrite Rmult_comm, <- sumR_map_scal. apply sumR_ext. intros i Hi. apply in_seq in Hi. rewrite rgeom_at by lia. unfold w, weighted. rewrite (nth_map_lt _ _ i O) by (rewrite seq_length; lia). rewrite seq_nth by lia. cbn [Nat.add].
  set (x := x0 * Rpower r (INR i)). assert (xp : 0 < x) by (apply geom_pos; auto). replace (2 * (x * y) / PI) with (x * (2 * y / PI)) by (field; lra). rewrite sqrt_mult by (try lra; left; apply Rdiv_lt_0_compat; lra). ring.
Qed.
(** extrapolation of positive samples: the result has no NaN *)
Lemma all_some (l : list num) : (forall k, (k < length l)%nat -> nth k l None <> None) -> exists v, l = map Some v.
Proof.
  induction l as [|a l IH]; intros H; [exists []; reflexivity|]. destruct IH as [v ->]; [intros k Hk; apply (H (S k)); simpl; lia|].
  destruct a as [a|]; [exists (a :: v); reflexivity|]. exfalso. apply (H O); [simpl; lia|reflexivity].
Qed.
Lemma hankel_extrap g width r n nl nh x0 (f : list R) : 0 < r -> r <> 1 -> (2 <= n)%nat -> Nat.even (n + nl + nh) = true -> cut_of width (n + nl + nh) <> 1%nat ->
  0 < x0 -> length f = n -> (forall i, (i < n)%nat -> 0 < nth i f 0) ->
  exists H, length H = n /\ hankel g 1.5 width 0 (geom x0 r n) (map Some f) nl nh 0 = Ok (geom (0.5 / (x0 * Rpower r (INR (n - 1)))) r n, map Some H).
Proof.
  intros Hr Hr1 Hn Ev Hcut Hx Hf Hp. destruct (hankel_core g width r (n + nl + nh) Hr Hr1 Hcut) as [kappa HK].
  set (w := weighted x0 r n f). assert (Lw : length (map Some w) = n) by (unfold w; rewrite map_length, weighted_len; auto). assert (Lx : length (geom x0 r n) = n) by apply geom_length.
  assert (Wp : forall i, (i < n)%nat -> exists v, 0 < v /\ nth i (map Some w) None = Some v).
  { intros i Hi. exists (nth i w 0). split; [|rewrite (nth_map_lt Some w i 0) by (unfold w; rewrite weighted_len; auto); reflexivity]. unfold w, weighted.
    rewrite (nth_map_lt _ _ i O) by (rewrite seq_length; auto). rewrite seq_nth by auto. apply Rmult_lt_0_compat; [apply sqrt_lt_R0, geom_pos; auto|apply Hp; auto]. }
  destruct (init_ok (geom x0 r n) (map Some w) nl nh 0) as (s & x1 & f1 & px1 & px2 & low & high & flow & fhigh & E & Ex & E1 & E2 & E3 & E4 & Ef & E5 & E6 & EF & EX & Ed & El & HT); [lia|lia|].
  destruct (init_geom x0 r n (map Some w) nl nh 0 s) as [G1 _]; auto; [lra|]. rewrite Lx in HT. replace (n + nl + nh + 2 * 0)%nat with (n + nl + nh)%nat in HT by lia.
  rewrite <- Nat.negb_even, Ev in HT. destruct HT as (_ & HF & HN & _). rewrite HN in G1.
  destruct (Wp 0%nat ltac:(lia)) as (v0 & P0 & N0). destruct (Wp 1%nat ltac:(lia)) as (v1 & P1 & N1). destruct (Wp (n - 2)%nat ltac:(lia)) as (va & Pa & Na). destruct (Wp (n - 1)%nat ltac:(lia)) as (vb & Pb & Nb).
  assert (All : exists F, flow ++ map Some w ++ fhigh = map Some F).
  { apply all_some. intros k Hk. rewrite !app_length, Lw in Hk. destruct (Nat.lt_ge_cases k nl).
    - rewrite (log_extrap_low (map Some w) nl nh k v0 v1 _ N0 N1); auto; [discriminate|apply Rdiv_lt_0_compat; auto].
    - rewrite app_nth2 by lia. destruct (Nat.lt_ge_cases (k - length flow) n).
      + rewrite app_nth1 by lia. destruct (Wp (k - length flow)%nat ltac:(lia)) as (v & _ & ->). discriminate.
      + replace (nth (k - length flow) (map Some w ++ fhigh) None) with (nth (nl + length (map Some w) + (k - nl - n)) (flow ++ map Some w ++ fhigh) None).
        * rewrite (log_extrap_high (map Some w) nl nh (k - nl - n) va vb) by (rewrite ?Lw; auto; try lia; apply Rdiv_lt_0_compat; auto). discriminate.
        * rewrite app_nth2 by lia. f_equal. lia. }
  destruct All as [F HFs]. cbn [repeat app] in Ef. rewrite app_nil_r in Ef. rewrite Ef, HFs in HF.
  eexists. split; [|apply (HK x0 n nl nh 0%nat f s (rgeom (x0 * Rpower r (- INR (nl + 0))) r (n + nl + nh)) F); auto; rewrite <- geom_map_Some; auto].
  rewrite map_length, seq_length. reflexivity.
Qed.
