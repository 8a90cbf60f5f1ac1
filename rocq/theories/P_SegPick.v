(** Proofs about M_SegMerge: which segments are joined. *)
From Coq Require Import Reals Lra Lia Bool List Arith ZArith Permutation Psatz Ratan Sorted.
From Coquelicot Require Import Coquelicot.
From Verif Require Import Base_R Base_List M_Utils S_Utils P_Utils M_Contour S_Contour P_Contour M_Segments P_Segments M_SegMerge P_SegMerge.
Import ListNotations.
Local Open Scope R_scope.

(** ** the angle *)
Lemma acos_turn x : -1 <= x <= 1 -> (180 - acos x * (180 / PI) < 60 <-> x < - (1 / 2)).
Proof.
  intros Hx. pose proof PI_RGT_0 as HP. pose proof (acos_bound x) as [B1 B2]. pose proof (cos_acos x Hx) as C.
  assert (E : 180 - acos x * (180 / PI) < 60 <-> 2 * (PI / 3) < acos x).
  { split; intros H.
    - apply (Rmult_lt_reg_r (180 / PI)); [apply Rdiv_lt_0_compat; lra|]. replace (2 * (PI / 3) * (180 / PI)) with 120 by (field; lra). lra.
    - apply (Rmult_lt_compat_r (180 / PI)) in H; [|apply Rdiv_lt_0_compat; lra]. replace (2 * (PI / 3) * (180 / PI)) with 120 in H by (field; lra). lra. }
  rewrite E. pose proof cos_2PI3 as C3. split; intros H.
  - pose proof (cos_decreasing_1 (2 * (PI / 3)) (acos x) ltac:(lra) ltac:(lra) B1 B2 H). lra.
  - apply cos_decreasing_0; lra.
Qed.
Lemma dot_bound (a b : C) : Rabs (Re a * Re b + Im a * Im b) <= Cmod a * Cmod b.
Proof.
  unfold Cmod. rewrite <- sqrt_mult_alt by (pose proof (pow2_ge_0 (fst a)); pose proof (pow2_ge_0 (snd a)); lra).
  rewrite <- (sqrt_Rsqr_abs (Re a * Re b + Im a * Im b)). apply sqrt_le_1_alt. unfold Rsqr, Re, Im. pose proof (pow2_ge_0 (fst a * snd b - snd a * fst b)). nra.
Qed.
Lemma turn_iff (d1 d2 : C) : (nonzero (Cmod d1) && nonzero (Cmod d2) &&
    Rltb (180 - acos (Re (d1 / RtoC (Cmod d1))%C * Re (d2 / RtoC (Cmod d2))%C + Im (d1 / RtoC (Cmod d1))%C * Im (d2 / RtoC (Cmod d2))%C) * (180 / PI)) 60 = true) <->
  Re d1 * Re d2 + Im d1 * Im d2 < - (1 / 2) * (Cmod d1 * Cmod d2).
Proof.
  pose proof (dot_bound d1 d2) as B. pose proof (Cmod_ge_0 d1) as G1. pose proof (Cmod_ge_0 d2) as G2.
  destruct (Req_dec (Cmod d1) 0) as [E1|N1].
  { split; intros H; [apply andb_prop in H as [H _]; apply andb_prop in H as [H _]; apply nonzero_true in H; contradiction|]. rewrite E1, Rmult_0_l in *. apply Rabs_le_between in B. lra. }
  destruct (Req_dec (Cmod d2) 0) as [E2|N2].
  { split; intros H; [apply andb_prop in H as [H _]; apply andb_prop in H as [_ H]; apply nonzero_true in H; contradiction|]. rewrite E2, Rmult_0_r in *. apply Rabs_le_between in B. lra. }
  set (x := Re (d1 / RtoC (Cmod d1))%C * _ + _). assert (P : 0 < Cmod d1 * Cmod d2) by (apply Rmult_lt_0_compat; lra).
  assert (X : x = (Re d1 * Re d2 + Im d1 * Im d2) / (Cmod d1 * Cmod d2)).
  { unfold x. assert (D : forall (z : C) r, r <> 0 -> Re (z / RtoC r)%C = Re z / r /\ Im (z / RtoC r)%C = Im z / r). { intros [a b] r Hr. unfold Cdiv, Cinv, Cmult, RtoC, Re, Im. cbn [fst snd]. split; field; lra. }
    destruct (D d1 _ N1) as [-> ->]. destruct (D d2 _ N2) as [-> ->]. field. auto. }
  assert (Xb : -1 <= x <= 1). { apply Rabs_le_between. rewrite X. unfold Rdiv. rewrite Rabs_mult, (Rabs_pos_eq (/ _)) by (apply Rlt_le, Rinv_0_lt_compat; auto). apply (Rmult_le_reg_r (Cmod d1 * Cmod d2)); auto. rewrite Rmult_assoc, Rinv_l by lra. lra. }
  rewrite !andb_true_iff, !nonzero_true, Rltb_true, (acos_turn x Xb), X. split.
  - intros [_ H]. apply (Rmult_lt_compat_r (Cmod d1 * Cmod d2)) in H; auto. unfold Rdiv in H. rewrite Rmult_assoc, Rinv_l in H by lra. lra.
  - intros H. split; auto. apply (Rmult_lt_reg_r (Cmod d1 * Cmod d2)); auto. unfold Rdiv. rewrite Rmult_assoc, Rinv_l by lra. lra.
Qed.

(** ** the end lines *)
Lemma head_line_eq n (p : piece) t : (2 <= length (fst p))%nat -> t = (length (fst p) - 1)%nat -> segment_head (rep n (Some p)) t = head_line (fst p).
Proof.
  intros L ->. unfold segment_head, rep, pseg. cbn [fst]. rewrite !c_at_packed. destruct (fst p) as [|a [|b [|c l]]]; cbn [length] in *; try lia; cbn [nth head_line].
  - destruct (Rltb _ _); reflexivity.
  - destruct (Rltb_spec 1e-5 (Cmod (b - a)%C)), (Rle_dec (Cmod (b - a)%C) 1e-5); try lra; reflexivity.
Qed.
Lemma tail_line_eq n (p : piece) t : (2 <= length (fst p))%nat -> t = (length (fst p) - 1)%nat -> segment_tail (rep n (Some p)) t = tail_line (fst p).
Proof.
  intros L ->. unfold tail_line. destruct (length (fst p)) as [|[|k]] eqn:K; try lia. replace (S (S k) - 1)%nat with (S k) by lia. cbv zeta. unfold segment_tail, rep, pseg. cbn [fst]. rewrite !c_at_packed.
  assert (RV : forall i, (i < S (S k))%nat -> nth i (rev (fst p)) (RtoC 0) = nth (S k - i) (fst p) (RtoC 0)). { intros i Hi. rewrite rev_nth by lia. f_equal. lia. }
  pose proof (RV 0%nat ltac:(lia)) as R0. pose proof (RV 1%nat ltac:(lia)) as R1. pose proof (fun H => RV 2%nat H) as R2. assert (LR : length (rev (fst p)) = S (S k)) by (rewrite rev_length; auto).
  destruct (rev (fst p)) as [|a [|b [|c l]]]; cbn [length] in LR; try lia; cbn [nth head_line] in *; replace (S k - 0)%nat with (S k) in R0 by lia; replace (S k - 1)%nat with k in R1 by lia; rewrite <- R0, <- R1.
  - assert (k = 0)%nat as -> by lia. cbn [Nat.leb]. rewrite orb_true_r. reflexivity.
  - specialize (R2 ltac:(lia)). replace (S k - 2)%nat with (k - 1)%nat in R2 by lia. rewrite <- R2. rewrite (Cmod_sym a b). destruct (Nat.leb_spec (S k) 1); [lia|]. rewrite orb_false_r.
    destruct (Rltb_spec 1e-5 (Cmod (b - a)%C)), (Rle_dec (Cmod (b - a)%C) 1e-5); try lra; reflexivity.
Qed.
Lemma conn_lines s1 s2 t1 t2 c : connection_condition s1 s2 t1 t2 c = true <->
  (if (c <=? 1)%nat then 0 < nth 0 (snd s1) 0 * nth 0 (snd s2) 0 else nth 0 (snd s1) 0 * nth 0 (snd s2) 0 <= 0) /\
  meets (fst (end_lines s1 s2 t1 t2 c)) (snd (end_lines s1 s2 t1 t2 c)).
Proof.
  unfold connection_condition. destruct (end_lines s1 s2 t1 t2 c) as [l1 l2]. cbn [fst snd]. rewrite andb_true_iff.
  assert (P : (if (c <=? 1)%nat then Rltb 0 (nth 0 (snd s1) 0 * nth 0 (snd s2) 0) else negb (Rltb 0 (nth 0 (snd s1) 0 * nth 0 (snd s2) 0))) = true <->
    (if (c <=? 1)%nat then 0 < nth 0 (snd s1) 0 * nth 0 (snd s2) 0 else nth 0 (snd s1) 0 * nth 0 (snd s2) 0 <= 0)).
  { destruct (c <=? 1)%nat; [apply Rltb_true|]. rewrite negb_true_iff. apply Rltb_false. }
  rewrite P. unfold meets.
  split; intros [H1 H2]; (split; [exact H1|]).
  - apply orb_prop in H2 as [H2|H2]; [right|left; now apply Rltb_true]. apply andb_prop in H2 as [H2 H3]. apply andb_prop in H2 as [H2 H4]. apply turn_iff in H4. apply Rltb_true in H2, H3. repeat split; auto; lra.
  - apply orb_true_iff. destruct H2 as [H2|(H2 & H3 & H4)]; [right; now apply Rltb_true|left]. apply turn_iff in H4. rewrite H4. apply andb_true_iff. split; [|now apply Rltb_true]. rewrite andb_true_r. apply Rltb_true. lra.
Qed.
Lemma conn_iff n p q t1 t2 c g : image_curve g p -> image_curve g q -> tid_ok (Some p) t1 -> tid_ok (Some q) t2 -> (c < 4)%nat ->
  (connection_condition (rep n (Some p)) (rep n (Some q)) t1 t2 c = true <-> continues c p q).
Proof.
  intros Ip Iq T1 T2 Hc. pose proof (ic_two _ _ Ip) as L1. pose proof (ic_two _ _ Iq) as L2. destruct (ic_parity _ _ Ip) as (s1 & S1 & P1). destruct (ic_parity _ _ Iq) as (s2 & S2 & P2).
  assert (E : forall u : piece, nth 0 (snd (rep n (Some u))) 0 = parity u) by (intros u; cbn [rep pseg snd]; rewrite nth_packed; unfold parity; destruct (snd u); reflexivity).
  rewrite conn_lines, !E. assert (F1 : parity p = s1) by (unfold parity; rewrite P1; destruct (length (fst p)); [lia|reflexivity]). assert (F2 : parity q = s2) by (unfold parity; rewrite P2; destruct (length (fst q)); [lia|reflexivity]).
  cbn [tid_ok] in T1, T2. unfold end_lines, continues. rewrite F1, F2.
  pose proof (head_line_eq n p t1 L1 T1) as H1. pose proof (head_line_eq n q t2 L2 T2) as H2. pose proof (tail_line_eq n p t1 L1 T1) as H3. pose proof (tail_line_eq n q t2 L2 T2) as H4.
  destruct c as [|[|[|[|c]]]]; try lia; cbn [Nat.leb fst snd]; rewrite ?H1, ?H2, ?H3, ?H4;
    (split; intros [A B]; (split; [destruct S1 as [-> | ->], S2 as [-> | ->]; lra|exact B])).
Qed.

Lemma somes_in {A} (l : list (option A)) x : In x (somes l) -> In (Some x) l.
Proof. induction l as [|[y|] l IH]; simpl; auto. intros [->|H]; auto. Qed.

(** ** the choice *)
Lemma hd_c_at n o : c_at (fst (rep n o)) 0 = hd (RtoC 0) (match o with Some q => fst q | None => [] end).
Proof. destruct o as [q|]; [unfold rep, pseg; cbn [fst]; rewrite c_at_packed; destruct (fst q); reflexivity|apply c_at_rep_none]. Qed.
Lemma last_c_at n o t : tid_ok o t -> c_at (fst (rep n o)) t = last (match o with Some q => fst q | None => [] end) (RtoC 0).
Proof. destruct o as [q|]; intros T; [unfold rep, pseg; cbn [fst]; rewrite c_at_packed, last_nth, T; reflexivity|apply c_at_rep_none]. Qed.
Section Pick.
Variables (n : nat) (p : piece) (ta : nat) (rem : list (option piece)) (tid : list nat).
Hypothesis Ip : image_curve gmax p. Hypothesis Ta : tid_ok (Some p) ta.
Hypothesis Ic : all_curves rem. Hypothesis Tk : tids_ok rem tid.
Let m := length rem.
Let dist := end_distances (rep n (Some p)) ta (map (rep n) rem) tid.
Lemma dist_length : length dist = (4 * m)%nat.
Proof. unfold dist, end_distances. destruct Tk as [Tl _]. rewrite !app_length, !map_length, !combine_length, map_length, Tl, Nat.min_id. fold m. lia. Qed.
Lemma dist_nth c i : (c < 4)%nat -> (i < m)%nat -> nth (c * m + i) dist 0 = end_gap c p (nth i rem None).
Proof.
  intros Hc Hi. destruct Tk as [Tl T]. unfold dist, end_distances. cbv zeta. set (segs := map (rep n) rem). set (tails := map (fun st : seg * nat => c_at (fst (fst st)) (snd st)) (combine segs tid)).
  assert (Ls : length segs = m) by apply map_length. assert (Lt : length tails = m) by (unfold tails; rewrite map_length, combine_length, Ls, Tl; apply Nat.min_id).
  assert (S : forall f : seg -> R, nth i (map f segs) 0 = f (rep n (nth i rem None))). { intros f. rewrite (nth_map_lt f segs i no_seg) by lia. unfold segs. rewrite (nth_map_lt (rep n) rem i None) by auto. reflexivity. }
  assert (Q : forall f : C -> R, nth i (map f tails) 0 = f (last (match nth i rem None with Some q => fst q | None => [] end) (RtoC 0))).
  { intros f. rewrite (nth_map_lt f tails i (RtoC 0)) by lia. unfold tails. rewrite (nth_map_lt _ (combine segs tid) i (no_seg, 0%nat)) by (rewrite combine_length, Ls, Tl; fold m; lia). rewrite combine_nth by (rewrite Ls, Tl; reflexivity). cbn [fst snd]. unfold segs. rewrite (nth_map_lt (rep n) rem i None) by auto. rewrite last_c_at by (apply T; auto). reflexivity. }
  change (nth (c * m + i) (map (fun s : seg => Cmod (c_at (fst (rep n (Some p))) ta - c_at (fst s) 0)%C) segs ++ map (fun q : C => Cmod (c_at (fst (rep n (Some p))) 0 - q)%C) tails ++
    map (fun s : seg => Cmod (c_at (fst (rep n (Some p))) 0 - c_at (fst s) 0)%C) segs ++ map (fun q : C => Cmod (c_at (fst (rep n (Some p))) ta - q)%C) tails) 0 = end_gap c p (nth i rem None)).
  unfold end_gap. destruct c as [|[|[|[|c]]]]; try lia.
  - rewrite app_nth1 by (rewrite map_length, Ls; lia). cbn [Nat.mul Nat.add]. rewrite S, hd_c_at, (last_c_at n (Some p)) by auto. reflexivity.
  - rewrite app_nth2 by (rewrite map_length, Ls; lia). rewrite map_length, Ls. replace (1 * m + i - m)%nat with i by lia. rewrite app_nth1 by (rewrite map_length, Lt; lia). rewrite Q, hd_c_at. reflexivity.
  - rewrite app_nth2 by (rewrite map_length, Ls; lia). rewrite map_length, Ls. rewrite app_nth2 by (rewrite map_length, Lt; lia). rewrite map_length, Lt. replace (2 * m + i - m - m)%nat with i by lia. rewrite app_nth1 by (rewrite map_length, Ls; lia). rewrite S, !hd_c_at. reflexivity.
  - rewrite app_nth2 by (rewrite map_length, Ls; lia). rewrite map_length, Ls. rewrite app_nth2 by (rewrite map_length, Lt; lia). rewrite map_length, Lt. rewrite app_nth2 by (rewrite map_length, Ls; lia). rewrite map_length, Ls. replace (3 * m + i - m - m - m)%nat with i by lia. rewrite Q, (last_c_at n (Some p)) by auto. reflexivity.
Qed.
Let order := argsort Rleb dist.
Let ok (ci : nat * nat) := connection_condition (rep n (Some p)) (nth (snd ci) (map (rep n) rem) no_seg) ta (nth (snd ci) tid 0%nat) (fst ci).
Lemma ok_iff c i : (c < 4)%nat -> (i < m)%nat -> (ok (c, i) = true <-> exists q, nth i rem None = Some q /\ continues c p q).
Proof.
  intros Hc Hi. unfold ok. cbn [fst snd]. rewrite (nth_map_lt (rep n) rem i None) by auto. destruct Tk as [_ T]. specialize (T i Hi). destruct (nth i rem None) as [q|] eqn:E.
  - assert (Iq : image_curve gmax q) by (apply Ic; rewrite <- E; apply nth_In; auto). rewrite (conn_iff n p q ta (nth i tid 0%nat) c gmax) by auto. split; [intros H; exists q; auto|intros (q' & E' & H); congruence].
  - rewrite conn_some_none by auto. split; [discriminate|intros (q' & E' & _); discriminate].
Qed.
(** position of an end in the sorted list *)
Lemma order_pos f : (f < 4 * m)%nat -> exists k, (k < 4 * m)%nat /\ nth k order 0%nat = f.
Proof.
  intros Hf. assert (H : In f order) by (apply argsort_in; rewrite dist_length; auto). apply In_nth with (d := 0%nat) in H as (k & Hk & E). exists k. split; auto. unfold order in Hk. rewrite argsort_length, dist_length in Hk. auto.
Qed.
Lemma order_le j k : (j < k)%nat -> (k < 4 * m)%nat -> nth (nth j order 0%nat) dist 0 <= nth (nth k order 0%nat) dist 0.
Proof.
  intros Hj Hk. pose proof (argsort_sorted 0 Rleb dist Rleb_total_preorder) as S. fold order in S. apply (StronglySorted_nth 0%nat) with (i := j) (j := k) in S; auto; [|unfold order; rewrite argsort_length, dist_length; auto].
  destruct S as [S _]. apply Rleb_true in S. exact S.
Qed.
Lemma flat c i : (i < m)%nat -> ((c * m + i) / m = c /\ (c * m + i) mod m = i)%nat.
Proof. intros Hi. split; [rewrite Nat.div_add_l by lia; rewrite Nat.div_small by auto; lia|rewrite Nat.add_comm, Nat.mod_add by lia; apply Nat.mod_small; auto]. Qed.
Lemma order_lt k : (k < 4 * m)%nat -> (nth k order 0 < 4 * m)%nat.
Proof. intros Hk. rewrite <- dist_length. apply (argsort_in Rleb). apply nth_In. rewrite argsort_length, dist_length. auto. Qed.
Let cand k := let f := nth k order 0%nat in ((f / m)%nat, (f mod m)%nat).
Lemma cand_ok k : (k < 4 * m)%nat -> (fst (cand k) < 4)%nat /\ (snd (cand k) < m)%nat /\ nth (nth k order 0%nat) dist 0 = end_gap (fst (cand k)) p (nth (snd (cand k)) rem None).
Proof.
  intros Hk. pose proof (order_lt k Hk) as L. assert (Hm : (0 < m)%nat) by lia. assert (A : (fst (cand k) < 4)%nat) by (unfold cand; cbn [fst]; apply Nat.div_lt_upper_bound; lia). assert (B : (snd (cand k) < m)%nat) by (unfold cand; cbn [snd]; apply Nat.mod_upper_bound; lia). repeat split; auto.
  rewrite <- (dist_nth _ _ A B). f_equal. unfold cand. cbn [fst snd]. rewrite Nat.mul_comm. apply Nat.div_mod. lia.
Qed.
Theorem pick_nearest : (0 < m)%nat -> ((match Some p with Some p => length (fst p) | None => 0 end) + npts (somes rem) <= n)%nat ->
  let r := merge_with_another (rep n (Some p)) ta (map (rep n) rem) tid in
  (r = (rep n (Some p), ta, map (rep n) rem, tid) /\
   forall c i q, (c < 4)%nat -> (i < m)%nat -> nth i rem None = Some q -> continues c p q ->
     exists L, NoDup L /\ (4 <= length L)%nat /\ forall ci, In ci L -> ci <> (c, i) /\ (fst ci < 4)%nat /\ (snd ci < m)%nat /\ end_gap (fst ci) p (nth (snd ci) rem None) <= end_gap c p (Some q)) \/
  (exists q i c, (c < 4)%nat /\ (i < m)%nat /\ nth i rem None = Some q /\ continues c p q /\
     r = (rep n (Some (join c p q)), (length (fst (join c p q)) - 1)%nat, map (rep n) (upd rem i None), tid) /\
     (forall c' i' q', (c' < 4)%nat -> (i' < m)%nat -> nth i' rem None = Some q' -> continues c' p q' -> end_gap c p (Some q) <= end_gap c' p (Some q')) /\
     forall L, NoDup L -> (forall ci, In ci L -> (fst ci < 4)%nat /\ (snd ci < m)%nat /\ end_gap (fst ci) p (nth (snd ci) rem None) < end_gap c p (Some q)) -> (length L <= 3)%nat).
Proof.
  intros Hm Hcap r. unfold r, merge_with_another. rewrite map_length. fold m dist order. fold ok. change (fun k : nat => ((nth k order 0 / m)%nat, (nth k order 0 mod m)%nat)) with cand.
  assert (FO : forall f : nat, (f < 4 * m)%nat -> (forall k, (k < 4)%nat -> nth k order 0%nat <> f) -> forall k, (k < 4)%nat -> nth (nth k order 0%nat) dist 0 <= nth f dist 0).
  { intros f Hf Hn k Hk. destruct (order_pos f Hf) as (k' & K1 & K2). rewrite <- K2. apply order_le; auto. destruct (Nat.lt_ge_cases k' 4) as [Q|Q]; [exfalso; apply (Hn k'); auto|lia]. }
  assert (M4 : forall k, (k < 4)%nat -> (k < 4 * m)%nat) by lia.
  destruct (existsb (fun b => b) (map ok (map cand (seq 0 4)))) eqn:Ex.
  - right. set (k := argmax_bool _).
    assert (K : (k < 4)%nat /\ ok (cand k) = true /\ forall j, (j < k)%nat -> ok (cand j) = false).
    { destruct (argmax_bool_spec (map ok (map cand (seq 0 4)))) as (A1 & A2 & A3).
      - apply existsb_exists in Ex as (b & Hb & ->). destruct (In_nth _ _ false Hb) as (j & Hj & E). exists j; auto.
      - fold k in A1, A2, A3. rewrite !map_length, seq_length in A1. split; auto.
        assert (N : forall j, (j < 4)%nat -> nth j (map ok (map cand (seq 0 4))) false = ok (cand j)). { intros j Hj. rewrite map_map. rewrite (nth_map_lt (fun x => ok (cand x)) (seq 0 4) j 0%nat) by (rewrite seq_length; auto). rewrite seq_nth by auto. reflexivity. }
        rewrite N in A2 by auto. split; auto. intros j Hj. rewrite <- N by lia. auto. }
    destruct K as (K1 & K2 & K3). assert (NK : nth k (map cand (seq 0 4)) (0%nat, 0%nat) = cand k) by (rewrite (nth_map_lt cand (seq 0 4) k 0%nat) by (rewrite seq_length; auto); rewrite seq_nth by auto; reflexivity).
    rewrite NK. destruct (cand_ok k (M4 k K1)) as (C1 & C2 & C3). destruct (cand k) as [c i] eqn:Ec. cbn [fst snd] in *. pose proof K2 as K2'. apply ok_iff in K2' as (q & Eq & Hc); auto. exists q, i, c. split; auto. split; auto. split; auto. split; auto. split; [|split].
    + rewrite (nth_map_lt (rep n) rem i None) by auto. rewrite Eq. assert (Iq : image_curve gmax q) by (apply Ic; rewrite <- Eq; apply nth_In; auto). destruct Tk as [_ T]. specialize (T i C2). rewrite Eq in T.
      assert (Hq : (length (fst q) <= npts (somes rem))%nat).
      { pose proof (somes_upd rem i q Eq) as P. rewrite <- (npts_perm _ _ P). unfold npts. cbn [map concat]. rewrite app_length. lia. }
      rewrite merge_join by (auto; lia). cbn [fst snd]. rewrite zero_rep by (split; [lia|eapply curve_par_length; eauto]). rewrite upd_rep by auto. reflexivity.
    + intros c' i' q' Hc' Hi' Eq' H'. rewrite <- Eq, <- C3, <- Eq', <- (dist_nth c' i' Hc' Hi'). destruct (order_pos (c' * m + i') ltac:(nia)) as (k' & L1 & L2). rewrite <- L2.
      destruct (Nat.lt_trichotomy k' k) as [Q|[->|Q]]; [|lra|apply order_le; auto].
      exfalso. specialize (K3 k' Q). assert (CE : cand k' = (c', i')) by (unfold cand; rewrite L2; destruct (flat c' i' Hi') as [-> ->]; reflexivity). rewrite CE in K3. assert (X : ok (c', i') = true) by (apply ok_iff; eauto). congruence.
    + intros L ND HL. enough (length L <= k)%nat by lia. rewrite <- (seq_length k 0), <- (map_length cand). apply NoDup_incl_length; auto. intros [c' i'] Hci. destruct (HL _ Hci) as (D1 & D2 & D3). cbn [fst snd] in *.
      rewrite <- Eq, <- C3, <- (dist_nth c' i' D1 D2) in D3. destruct (order_pos (c' * m + i') ltac:(nia)) as (k' & L1 & L2). rewrite <- L2 in D3.
      assert (CE : cand k' = (c', i')) by (unfold cand; rewrite L2; destruct (flat c' i' D2) as [-> ->]; reflexivity). rewrite <- CE. apply in_map, in_seq. destruct (Nat.lt_trichotomy k' k) as [Q|[->|Q]]; [lia|lra|]. pose proof (order_le k k' Q L1). lra.
  - left. split; [reflexivity|]. intros c i q Hc Hi Eq H. exists (map cand (seq 0 4)).
    assert (NO : forall k, (k < 4)%nat -> ok (cand k) = false). { intros k Hk. destruct (ok (cand k)) eqn:Q; auto. exfalso. enough (existsb (fun b => b) (map ok (map cand (seq 0 4))) = true) by congruence. apply existsb_exists. exists true. split; auto. rewrite <- Q. apply in_map, in_map, in_seq. lia. }
    assert (NF : forall k, (k < 4)%nat -> nth k order 0%nat <> (c * m + i)%nat). { intros k Hk Q. specialize (NO k Hk). assert (CE : cand k = (c, i)) by (unfold cand; rewrite Q; destruct (flat c i Hi) as [-> ->]; reflexivity). rewrite CE in NO. assert (X : ok (c, i) = true) by (apply ok_iff; eauto). congruence. }
    split; [|split].
    + apply (NoDup_nth _ (0%nat, 0%nat)). intros a b Ha Hb E. rewrite map_length, seq_length in Ha, Hb. rewrite !(nth_map_lt cand (seq 0 4) _ 0%nat) in E by (rewrite seq_length; auto). rewrite !seq_nth in E by auto. cbn [Nat.add] in E.
      unfold cand in E. injection E as E1 E2. assert (E3 : nth a order 0%nat = nth b order 0%nat). { rewrite (Nat.div_mod (nth a order 0%nat) m), (Nat.div_mod (nth b order 0%nat) m) by lia. congruence. }
      pose proof (argsort_nodup Rleb dist) as ND. fold order in ND. rewrite NoDup_nth with (d := 0%nat) in ND. apply ND; auto; unfold order; rewrite argsort_length, dist_length; lia.
    + rewrite map_length, seq_length. lia.
    + intros ci Hci. apply in_map_iff in Hci as (k & <- & Hk). apply in_seq in Hk. assert (Hk' : (k < 4)%nat) by lia. destruct (cand_ok k (M4 k Hk')) as (C1 & C2 & C3). split; [|split; auto; split; auto].
      * intros Q. specialize (NO k Hk'). rewrite Q in NO. assert (X : ok (c, i) = true) by (apply ok_iff; eauto). congruence.
      * rewrite <- C3, <- Eq, <- (dist_nth c i Hc Hi). apply FO; auto. nia.
Qed.
End Pick.
