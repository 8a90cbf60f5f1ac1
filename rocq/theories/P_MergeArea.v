(** Proofs about M_MergeArea: grouping. *)
From Coq Require Import Reals List Bool Arith ZArith Lia Lra Psatz Permutation Sorted.
From Coquelicot Require Import Complex.
From Verif Require Import Base_R Base_List Base_C M_Utils P_Utils M_PointSource M_Limb M_MergeArea S_MergeArea M_ExtSource P_ExtSource.
Import ListNotations.
Local Open Scope R_scope.

(** ** counting in filtered sequences *)
Lemma filter_seq_S (f : nat -> bool) n : filter f (seq 0 (S n)) = filter f (seq 0 n) ++ (if f n then [n] else []).
Proof. rewrite seq_S, filter_app. simpl. destruct (f n); auto. Qed.
Definition cnt (f : nat -> bool) n : nat := length (filter f (seq 0 n)).
Lemma cnt_S f n : cnt f (S n) = (cnt f n + (if f n then 1 else 0))%nat.
Proof. unfold cnt. rewrite filter_seq_S, app_length. destruct (f n); simpl; lia. Qed.
Lemma cnt_mono f n m : (n <= m)%nat -> (cnt f n <= cnt f m)%nat.
Proof. induction 1; [lia|]. rewrite cnt_S. lia. Qed.
Lemma cnt_le f n : (cnt f n <= n)%nat.
Proof. induction n; [auto|]. rewrite cnt_S. destruct (f n); lia. Qed.
Lemma cnt_pos f n k : (k < n)%nat -> f k = true -> nth_error (filter f (seq 0 n)) (cnt f k) = Some k.
Proof.
  intros Hk Hf. induction n as [|n IH]; [lia|]. rewrite filter_seq_S.
  destruct (Nat.eq_dec k n) as [->|N].
  - rewrite Hf. rewrite nth_error_app2 by (unfold cnt; lia). unfold cnt. now rewrite Nat.sub_diag.
  - rewrite nth_error_app1; [apply IH; lia|]. apply nth_error_Some. rewrite IH by lia. discriminate.
Qed.
Lemma cnt_nth f n i k : nth_error (filter f (seq 0 n)) i = Some k -> (k < n)%nat /\ f k = true /\ cnt f k = i.
Proof.
  intros H. assert (K : In k (filter f (seq 0 n))) by (eapply nth_error_In; eauto).
  apply filter_In in K. destruct K as [K1 K2]. apply in_seq in K1. repeat split; auto; [lia|].
  pose proof (cnt_pos f n k ltac:(lia) K2) as Q.
  assert (ND : NoDup (filter f (seq 0 n))) by (apply NoDup_filter, seq_NoDup).
  rewrite NoDup_nth_error in ND. apply ND; [|congruence]. apply nth_error_Some. rewrite Q. discriminate.
Qed.

(** number of values of a non-decreasing sequence not above x *)
Lemma cnt_prefix (g : nat -> R) x n : (forall i j, (i <= j)%nat -> g i <= g j) ->
  forall j, (j < n)%nat -> ((j < cnt (fun k => Rleb (g k) x) n)%nat <-> g j <= x).
Proof.
  intros Hm. induction n as [|n IH]; intros j Hj; [lia|]. rewrite cnt_S.
  pose proof (cnt_le (fun k => Rleb (g k) x) n) as Hc.
  destruct (Rleb_spec (g n) x) as [L|G].
  - assert (E : cnt (fun k => Rleb (g k) x) n = n).
    { destruct n as [|n]; auto. destruct (Nat.lt_ge_cases n (cnt (fun k => Rleb (g k) x) (S n))) as [Q|Q]; [lia|].
      exfalso. assert (Z : ~ g n <= x) by (intros Z; apply (proj2 (IH n ltac:(lia))) in Z; lia).
      apply Z. pose proof (Hm n (S n) ltac:(lia)). lra. }
    rewrite E. split; [intros _|lia]. pose proof (Hm j n ltac:(lia)). lra.
  - rewrite Nat.add_0_r. destruct (Nat.eq_dec j n) as [->|N]; [split; [lia|lra]|apply IH; lia].
Qed.

(** ** bin edges *)
Lemma bin_edges_eq lo hi bins : (1 <= bins)%nat ->
  bin_edges lo hi bins = map (fun j => bin_left lo hi bins j) (seq 0 (bins + 3)).
Proof.
  intros Hb. unfold bin_edges, linspace. apply map_ext. intros j. unfold bin_left.
  replace (bins + 3 - 1)%nat with (bins + 2)%nat by lia. rewrite plus_INR. simpl (INR 2).
  assert (0 < INR bins) by (apply lt_0_INR; lia).
  field. lra.
Qed.
Lemma bin_left_mono lo hi bins i j : lo <= hi -> (1 <= bins)%nat -> (i <= j)%nat -> bin_left lo hi bins i <= bin_left lo hi bins j.
Proof.
  intros Hl Hb Hij. unfold bin_left. apply le_INR in Hij.
  assert (0 <= (hi - lo) / INR bins) by (apply Rmult_le_pos; [lra|apply Rlt_le, Rinv_0_lt_compat, lt_0_INR; lia]). nra.
Qed.
Lemma bin_left_1 lo hi bins : bin_left lo hi bins 1 = lo.
Proof. unfold bin_left. simpl. ring. Qed.
Lemma bin_left_last lo hi bins : (1 <= bins)%nat -> bin_left lo hi bins (bins + 1) = hi.
Proof. intros. unfold bin_left. rewrite plus_INR. simpl (INR 1). field. apply not_0_INR. lia. Qed.
Lemma filter_map_length {A B} (f : A -> B) (p : B -> bool) l : length (filter p (map f l)) = length (filter (fun a => p (f a)) l).
Proof. induction l; simpl; auto. destruct (p (f a)); simpl; auto. Qed.
Lemma digitize_edges lo hi bins x : (1 <= bins)%nat ->
  digitize (bin_edges lo hi bins) x = cnt (fun j => Rleb (bin_left lo hi bins j) x) (bins + 3).
Proof. intros. unfold digitize, cnt. rewrite bin_edges_eq by auto. apply filter_map_length. Qed.

Definition bidx lo hi bins x : nat := clip_nat 1 bins (digitize (bin_edges lo hi bins) x - 1).
Lemma bidx_in_bin lo hi bins x j : lo <= hi -> (1 <= bins)%nat -> (bidx lo hi bins x = j <-> in_bin lo hi bins x j).
Proof.
  intros Hl Hb. unfold bidx. rewrite digitize_edges by auto. unfold clip_nat.
  pose proof (cnt_prefix (bin_left lo hi bins) x (bins + 3) (fun a b => bin_left_mono lo hi bins a b Hl Hb)) as P.
  set (c := cnt (fun j => Rleb (bin_left lo hi bins j) x) (bins + 3)) in *.
  unfold in_bin. split.
  - intros H. split; [lia|]. split.
    + destruct (Nat.eq_dec j 1) as [->|N]; [auto|right]. apply P; lia.
    + destruct (Nat.eq_dec j bins) as [->|N]; [auto|right]. apply Rnot_le_lt. intros Q. apply P in Q; lia.
  - intros (H1 & H2 & H3).
    assert (A : j = 1%nat \/ (j < c)%nat) by (destruct H2; auto; right; apply P; auto; lia).
    assert (B : j = bins \/ (c <= j + 1)%nat).
    { destruct H3 as [|H3]; auto. right. destruct (Nat.le_gt_cases c (j + 1)) as [|Q]; auto. apply P in Q; [lra|lia]. }
    lia.
Qed.
Lemma bidx_cover lo hi bins x : lo <= x <= hi -> (1 <= bins)%nat ->
  bin_left lo hi bins (bidx lo hi bins x) <= x <= bin_left lo hi bins (bidx lo hi bins x + 1).
Proof.
  intros Hx Hb. destruct (proj1 (bidx_in_bin lo hi bins x _ ltac:(lra) Hb) eq_refl) as (H1 & H2 & H3).
  split.
  - destruct H2 as [->|]; auto. rewrite bin_left_1. lra.
  - destruct H3 as [->|]; [rewrite bin_left_last by auto|]; lra.
Qed.

Definition occb lo hi bins (arr : list R) (k : nat) : bool := existsb (Nat.eqb k) (map (bidx lo hi bins) arr).
Lemma bin_mask_nth lo hi bins arr k : (k < bins + 2)%nat ->
  nth k (bin_mask (bin_edges lo hi bins) bins arr) false = occb lo hi bins arr k.
Proof.
  intros H. unfold bin_mask. rewrite (nth_map_lt _ _ _ 0%nat) by (now rewrite seq_length). rewrite seq_nth by auto. reflexivity.
Qed.
Lemma occb_occupied lo hi bins arr k : lo <= hi -> (1 <= bins)%nat -> (occb lo hi bins arr k = true <-> occupied lo hi bins arr k).
Proof.
  intros Hl Hb. unfold occb. rewrite existsb_exists. split.
  - intros (j & Hj & Q). apply Nat.eqb_eq in Q. subst j. apply in_map_iff in Hj. destruct Hj as (x & Q & Hx).
    exists x. split; auto. apply bidx_in_bin; auto.
  - intros (x & Hx & Q). exists k. split; [|apply Nat.eqb_refl]. apply in_map_iff. exists x. split; auto. apply bidx_in_bin; auto.
Qed.
Lemma occb_ends lo hi bins arr : (1 <= bins)%nat -> occb lo hi bins arr 0 = false /\ forall k, (bins < k)%nat -> occb lo hi bins arr k = false.
Proof.
  intros Hb. assert (K : forall k, occb lo hi bins arr k = true -> (1 <= k <= bins)%nat).
  { unfold occb. intros k H. apply existsb_exists in H. destruct H as (j & Hj & Q). apply Nat.eqb_eq in Q. subst j.
    apply in_map_iff in Hj. destruct Hj as (x & <- & _). unfold bidx, clip_nat. lia. }
  split. destruct (occb lo hi bins arr 0) eqn:Q; auto. apply K in Q; lia.
  intros k Hk. destruct (occb lo hi bins arr k) eqn:Q; auto. apply K in Q; lia.
Qed.

(** ** runs *)
Section Runs.
Variable m : nat -> bool.
Hypothesis m0 : m 0%nat = false.
Definition isstart k := m (S k) && negb (m k).
Definition isend k := negb (m (S k)) && m k.
Lemma run_balance n : cnt isstart n = (cnt isend n + (if m n then 1 else 0))%nat.
Proof.
  induction n; [unfold cnt; simpl; rewrite m0; auto|]. rewrite !cnt_S, IHn. unfold isstart, isend.
  destruct (m n), (m (S n)); simpl; lia.
Qed.
Lemma run_start j : m j = true -> exists k, (k < j)%nat /\ m k = false /\ forall i, (k < i <= j)%nat -> m i = true.
Proof.
  induction j as [|j IH]; intros H; [congruence|]. destruct (m j) eqn:Q.
  - destruct (IH eq_refl) as (k & K1 & K2 & K3). exists k. repeat split; auto. intros i Hi.
    destruct (Nat.eq_dec i (S j)) as [->|]; auto. apply K3. lia.
  - exists j. repeat split; auto. intros i Hi. replace i with (S j) by lia. auto.
Qed.
Lemma run_end j N : m j = true -> m (S (j + N)) = false -> exists k, (j <= k <= j + N)%nat /\ m (S k) = false /\ forall i, (j <= i <= k)%nat -> m i = true.
Proof.
  revert j. induction N as [|N IH]; intros j H HN.
  - exists j. rewrite Nat.add_0_r in HN. repeat split; auto; [lia|]. intros i Hi. replace i with j by lia. auto.
  - destruct (m (S j)) eqn:Q.
    + replace (j + S N)%nat with (S j + N)%nat in HN by lia. destruct (IH (S j) Q HN) as (k & K1 & K2 & K3). exists k. repeat split; auto; try lia.
      intros i Hi. destruct (Nat.eq_dec i j) as [->|]; auto. apply K3. lia.
    + exists j. repeat split; auto; [lia|]. intros i Hi. replace i with j by lia. auto.
Qed.
(** the end of a run has the same rank among the ends as its start among the starts *)
Lemma run_rank k0 k1 : (k0 < k1)%nat -> m k0 = false -> (forall i, (k0 < i <= k1)%nat -> m i = true) -> cnt isend k1 = cnt isstart k0.
Proof.
  intros H H0 Hr. assert (E : forall d, (k0 + 1 + d <= k1)%nat -> cnt isend (k0 + 1 + d) = cnt isend k0).
  { induction d as [|d IH]; intros Hd.
    - rewrite Nat.add_0_r, Nat.add_1_r, cnt_S. unfold isend at 2. rewrite H0, andb_false_r. lia.
    - replace (k0 + 1 + S d)%nat with (S (k0 + 1 + d)) by lia. rewrite cnt_S, IH by lia.
      unfold isend at 2. rewrite (Hr (S (k0 + 1 + d))) by lia. simpl. lia. }
  specialize (E (k1 - k0 - 1)%nat ltac:(lia)). replace (k0 + 1 + (k1 - k0 - 1))%nat with k1 in E by lia.
  rewrite E, (run_balance k0), H0. lia.
Qed.
End Runs.

(** ** the padded, sorted edge lists *)
Lemma sorted_perm_eq (l m : list R) : StronglySorted Rle l -> StronglySorted Rle m -> Permutation l m -> l = m.
Proof.
  intros Hl; revert m; induction Hl as [|a l Hs IH Hf]; intros m Hm P.
  - apply Permutation_nil in P. auto.
  - destruct m as [|b m]; [apply Permutation_sym, Permutation_nil in P; discriminate|].
    inversion Hm as [|? ? Hm' Hfm]; subst. rewrite Forall_forall in Hf, Hfm.
    assert (a = b).
    { apply Rle_antisym.
      - assert (In b (a :: l)) by (apply (Permutation_in b (Permutation_sym P)); simpl; auto). destruct H as [->|H]; [lra|auto].
      - assert (In a (b :: m)) by (apply (Permutation_in a P); simpl; auto). destruct H as [->|H]; [lra|auto]. }
    subst b. f_equal. apply IH; auto. now apply Permutation_cons_inv in P.
Qed.
Lemma jsort_SS l : StronglySorted Rle (jsort l).
Proof.
  assert (H : StronglySorted (fun a b => Rleb a b = true) (jsort l)).
  { apply ssort_sorted. split; [intros x y; rewrite !Rleb_true; lra|intros x y z; rewrite !Rleb_true; lra]. }
  induction H; constructor; auto. eapply Forall_impl; [|exact H0]. intros b. apply Rleb_true.
Qed.
Lemma SS_app_R (l m : list R) : StronglySorted Rle l -> StronglySorted Rle m -> (forall x y, In x l -> In y m -> x <= y) -> StronglySorted Rle (l ++ m).
Proof.
  intros Hl Hm H. induction Hl as [|a l Hs IH Hf]; simpl; auto.
  constructor; [apply IH; intros; apply H; simpl; auto|]. rewrite Forall_forall in *. intros x Hx. apply in_app_or in Hx.
  destruct Hx; [auto|apply H; simpl; auto].
Qed.
Lemma SS_repeat c n : StronglySorted Rle (repeat c n).
Proof. induction n; simpl; constructor; auto. apply Forall_forall. intros x Hx. apply repeat_spec in Hx. lra. Qed.
Lemma SS_map_filter (g : nat -> R) f n : (forall i j, (i <= j)%nat -> g i <= g j) -> StronglySorted Rle (map g (filter f (seq 0 n))).
Proof.
  intros Hm. assert (H : forall s, StronglySorted Rle (map g (filter f (seq s n)))); [|apply H].
  induction n as [|n IH]; intros s; simpl; [constructor|]. destruct (f s); simpl; auto. constructor; auto.
  apply Forall_forall. intros x Hx. apply in_map_iff in Hx. destruct Hx as (k & <- & Hk). apply filter_In in Hk. destruct Hk as [Hk _].
  apply in_seq in Hk. apply Hm. lia.
Qed.
Lemma masked_perm (g : nat -> R) f n :
  Permutation (map (fun k => g k * b2R (f k)) (seq 0 n)) (repeat 0 (n - cnt f n) ++ map g (filter f (seq 0 n))).
Proof.
  induction n as [|n IH]; [auto|]. rewrite filter_seq_S, cnt_S, seq_S, map_app, IH. cbn [map Nat.add]. pose proof (cnt_le f n).
  destruct (f n); simpl b2R.
  - replace (n + 1 - (cnt f n + 1))%nat with (n - cnt f n)%nat by lia. replace (S n - (cnt f n + 1))%nat with (n - cnt f n)%nat by lia.
    rewrite Rmult_1_r, map_app, app_assoc. simpl. auto.
  - rewrite Nat.add_0_r, app_nil_r, Rmult_0_r. replace (S n - cnt f n)%nat with (S (n - cnt f n)) by lia. simpl.
    rewrite Permutation_app_comm. simpl. auto.
Qed.
Lemma masked_sorted (g : nat -> R) f n : (forall i j, (i <= j)%nat -> g i <= g j) -> 0 <= g 0%nat ->
  jsort (map (fun k => g k * b2R (f k)) (seq 0 n)) = repeat 0 (n - cnt f n) ++ map g (filter f (seq 0 n)).
Proof.
  intros Hm H0. apply sorted_perm_eq.
  - apply jsort_SS.
  - apply SS_app_R; [apply SS_repeat|now apply SS_map_filter|]. intros x y Hx Hy. apply repeat_spec in Hx. subst x.
    apply in_map_iff in Hy. destruct Hy as (k & <- & _). pose proof (Hm 0%nat k ltac:(lia)). lra.
  - rewrite jsort_perm. apply masked_perm.
Qed.
Lemma nth_skipn {A} (d : A) s l i : nth i (skipn s l) d = nth (s + i) l d.
Proof. revert l; induction s as [|s IH]; intros l; [auto|]. destruct l; [destruct i; reflexivity|apply IH]. Qed.

(** [cluster_1d] in closed form *)
Definition startb lo hi bins arr := isstart (occb lo hi bins arr).
Definition endb lo hi bins arr := isend (occb lo hi bins arr).
Definition padded lo hi bins (f : nat -> bool) : list R :=
  repeat 0 (bins + 1 - cnt f (bins + 1)) ++ map (fun k => bin_left lo hi bins (S k)) (filter f (seq 0 (bins + 1))).
Lemma masked_edges lo hi bins (f : nat -> bool) (g : nat -> bool) : (1 <= bins)%nat -> (forall k, (k < bins + 1)%nat -> g k = f k) ->
  map (fun p => fst p * b2R (snd p)) (combine (firstn (bins + 1) (skipn 1 (bin_edges lo hi bins))) (map g (seq 0 (bins + 1))))
  = map (fun k => bin_left lo hi bins (S k) * b2R (f k)) (seq 0 (bins + 1)).
Proof.
  intros Hb Hg. rewrite bin_edges_eq by auto.
  assert (E : firstn (bins + 1) (skipn 1 (map (fun j => bin_left lo hi bins j) (seq 0 (bins + 3)))) =
              map (fun k => bin_left lo hi bins (S k)) (seq 0 (bins + 1))).
  { replace (bins + 3)%nat with (S (bins + 1 + 1)) by lia. cbn [seq map skipn]. rewrite seq_app, map_app, firstn_app, map_length, seq_length, Nat.sub_diag.
    simpl (firstn 0 _). rewrite app_nil_r, firstn_all2 by (rewrite map_length, seq_length; lia).
    rewrite <- seq_shift, map_map. reflexivity. }
  rewrite E.
  assert (C2 : forall l : list nat, combine (map (fun k => bin_left lo hi bins (S k)) l) (map g l) = map (fun k => (bin_left lo hi bins (S k), g k)) l)
    by (induction l; simpl; congruence).
  rewrite C2, map_map. cbn [fst snd]. apply map_ext_in. intros k Hk. apply in_seq in Hk. rewrite Hg by lia. reflexivity.
Qed.
Lemma cluster_eq arr bins mc mode_r lo hi : (1 <= bins)%nat -> bin_range mode_r arr = Some (lo, hi) -> 0 <= lo <= hi ->
  cluster_1d arr bins mc mode_r = Some (skipn (bins + 1 - mc) (padded lo hi bins (startb lo hi bins arr)),
                                        skipn (bins + 1 - mc) (padded lo hi bins (endb lo hi bins arr))).
Proof.
  intros Hb Hr Hl. unfold cluster_1d. rewrite Hr.
  rewrite (masked_edges lo hi bins (startb lo hi bins arr)); auto.
  2:{ intros k Hk. unfold startb, isstart. rewrite !bin_mask_nth by lia. reflexivity. }
  rewrite (masked_edges lo hi bins (endb lo hi bins arr)); auto.
  2:{ intros k Hk. unfold endb, isend. rewrite !bin_mask_nth by lia. reflexivity. }
  assert (M : forall i j, (i <= j)%nat -> bin_left lo hi bins (S i) <= bin_left lo hi bins (S j)) by (intros; apply bin_left_mono; try lia; lra).
  assert (Z : 0 <= bin_left lo hi bins 1) by (rewrite bin_left_1; lra).
  unfold lastn. rewrite !(masked_sorted (fun k => bin_left lo hi bins (S k))) by auto.
  fold (padded lo hi bins (startb lo hi bins arr)) (padded lo hi bins (endb lo hi bins arr)).
  assert (L : forall f, length (padded lo hi bins f) = (bins + 1)%nat).
  { intros f. unfold padded. rewrite app_length, repeat_length, map_length. fold (cnt f (bins + 1)). pose proof (cnt_le f (bins + 1)). lia. }
  rewrite !L. reflexivity.
Qed.
Lemma padded_length lo hi bins f : length (padded lo hi bins f) = (bins + 1)%nat.
Proof. unfold padded. rewrite app_length, repeat_length, map_length. fold (cnt f (bins + 1)). pose proof (cnt_le f (bins + 1)). lia. Qed.
Lemma padded_nth lo hi bins f k : (k < bins + 1)%nat -> f k = true ->
  nth (bins + 1 - cnt f (bins + 1) + cnt f k) (padded lo hi bins f) 0 = bin_left lo hi bins (S k).
Proof.
  intros Hk Hf. unfold padded. rewrite app_nth2; rewrite repeat_length; [|lia].
  replace (bins + 1 - cnt f (bins + 1) + cnt f k - (bins + 1 - cnt f (bins + 1)))%nat with (cnt f k) by lia.
  apply nth_error_nth. rewrite nth_error_map, cnt_pos by auto. reflexivity.
Qed.

Section Cluster.
Variables (arr : list R) (bins mc : nat) (mode_r : bool) (lo hi : R).
Hypothesis Hb : (1 <= bins)%nat.
Hypothesis Hr : bin_range mode_r arr = Some (lo, hi).
Hypothesis Hl : 0 <= lo <= hi.
Let m := occb lo hi bins arr.
Let sb := startb lo hi bins arr.
Let eb := endb lo hi bins arr.
Lemma m_0 : m 0%nat = false.
Proof. exact (proj1 (occb_ends lo hi bins arr Hb)). Qed.
Lemma m_out k : (bins < k)%nat -> m k = false.
Proof. exact (proj2 (occb_ends lo hi bins arr Hb) k). Qed.
Lemma same_count : cnt sb (bins + 1) = cnt eb (bins + 1).
Proof. unfold sb, eb, startb, endb. rewrite (run_balance m m_0). rewrite m_out by lia. unfold m. lia. Qed.

(** the run of an occupied bin *)
Lemma run_of j : m j = true -> exists k0 k1, (k0 < j <= k1)%nat /\ (k1 <= bins)%nat /\ sb k0 = true /\ eb k1 = true /\ cnt eb k1 = cnt sb k0 /\
  forall i, (k0 < i <= k1)%nat -> m i = true.
Proof.
  intros Hj. assert (Hjb : (1 <= j <= bins)%nat).
  { destruct (Nat.eq_dec j 0) as [->|]; [rewrite m_0 in Hj; discriminate|]. destruct (Nat.le_gt_cases j bins); [lia|]. rewrite m_out in Hj by auto. discriminate. }
  destruct (run_start m m_0 j Hj) as (k0 & A1 & A2 & A3).
  destruct (run_end m j (bins - j) Hj) as (k1 & B1 & B2 & B3); [apply m_out; lia|].
  assert (Hrun : forall i, (k0 < i <= k1)%nat -> m i = true) by (intros i Hi; destruct (Nat.le_gt_cases i j); [apply A3|apply B3]; lia).
  exists k0, k1. repeat split; try lia; auto.
  - unfold sb, startb, isstart. fold m. rewrite A2, (Hrun (S k0)) by lia. reflexivity.
  - unfold eb, endb, isend. fold m. rewrite B2, (Hrun k1) by lia. reflexivity.
  - apply (run_rank m m_0); auto. lia.
Qed.
(** the runs fill the retained lists *)
Lemma groups_count : groups_at_most lo hi bins arr mc -> (cnt sb (bins + 1) <= mc)%nat.
Proof.
  intros (G & Lg & HG). eapply Nat.le_trans; [|exact Lg]. unfold cnt.
  rewrite <- (map_length S). apply NoDup_incl_length.
  - apply FinFun.Injective_map_NoDup; [intros a b; congruence|apply NoDup_filter, seq_NoDup].
  - intros j Hj. apply in_map_iff in Hj. destruct Hj as (k & <- & Hk). apply filter_In in Hk. destruct Hk as [_ Hk].
    unfold sb, startb, isstart in Hk. apply andb_prop in Hk. destruct Hk as [K1 K2]. apply HG. split.
    + apply occb_occupied; auto; lra.
    + simpl. rewrite Nat.sub_0_r. intros Q. apply occb_occupied in Q; auto; [|lra]. rewrite Q in K2. discriminate.
Qed.
Lemma groups_count_more : groups_more_than lo hi bins arr mc -> (mc < cnt sb (bins + 1))%nat.
Proof.
  intros (G & Lg & ND & HG). eapply Nat.lt_le_trans; [exact Lg|]. unfold cnt. rewrite <- (map_length S (filter sb (seq 0 (bins + 1)))).
  apply NoDup_incl_length; auto. intros j Hj. destruct (HG j Hj) as [G1 G2].
  apply occb_occupied in G1; auto; [|lra].
  assert (Hjb : (1 <= j <= bins)%nat).
  { destruct (Nat.eq_dec j 0) as [->|]; [fold m in G1; rewrite m_0 in G1; discriminate|]. destruct (Nat.le_gt_cases j bins); [lia|].
    fold m in G1. rewrite m_out in G1 by auto. discriminate. }
  apply in_map_iff. exists (j - 1)%nat. split; [lia|]. apply filter_In. split; [apply in_seq; lia|].
  unfold sb, startb, isstart. replace (S (j - 1)) with j by lia. rewrite G1. simpl.
  destruct (occb lo hi bins arr (j - 1)) eqn:Q; auto. exfalso. apply G2, occb_occupied; auto; lra.
Qed.

Lemma cluster_covers x : (1 <= mc)%nat -> groups_at_most lo hi bins arr mc -> In x arr -> lo <= x <= hi ->
  exists starts ends, cluster_1d arr bins mc mode_r = Some (starts, ends) /\ length starts = length ends /\ covered starts ends x.
Proof.
  intros Hmc HG Hx Hxr. pose proof (groups_count HG) as Hc.
  rewrite (cluster_eq arr bins mc mode_r lo hi) by auto.
  eexists. eexists. split; [reflexivity|]. fold sb eb.
  split; [now rewrite !skipn_length, !padded_length|].
  set (j := bidx lo hi bins x).
  assert (Hj : m j = true). { apply occb_occupied; auto; [lra|]. exists x. split; auto. apply bidx_in_bin; auto. lra. }
  destruct (run_of j Hj) as (k0 & k1 & R1 & R2 & R3 & R4 & R5 & R6).
  pose proof same_count as SC. pose proof (cnt_le sb (bins + 1)).
  assert (Hk : (cnt sb k0 < cnt sb (bins + 1))%nat).
  { assert (cnt sb (S k0) <= cnt sb (bins + 1))%nat by (apply cnt_mono; lia). rewrite cnt_S, R3 in H0. lia. }
  exists (bins + 1 - cnt sb (bins + 1) + cnt sb k0 - (bins + 1 - mc))%nat. rewrite !skipn_length, !padded_length.
  split; [lia|]. split; [lia|]. rewrite !nth_skipn.
  replace (bins + 1 - mc + (bins + 1 - cnt sb (bins + 1) + cnt sb k0 - (bins + 1 - mc)))%nat with
    (bins + 1 - cnt sb (bins + 1) + cnt sb k0)%nat by lia.
  rewrite padded_nth by (auto; lia). rewrite SC, <- R5, padded_nth by (auto; lia).
  pose proof (bidx_cover lo hi bins x Hxr Hb) as [C1 C2]. fold j in C1, C2.
  pose proof (bin_left_mono lo hi bins (S k0) j ltac:(lra) Hb ltac:(lia)).
  pose proof (bin_left_mono lo hi bins (j + 1) (S k1) ltac:(lra) Hb ltac:(lia)). lra.
Qed.

(** every point of a retained interval lies in an occupied bin *)
Lemma cluster_tight starts ends i y : cluster_1d arr bins mc mode_r = Some (starts, ends) -> (i < length starts)%nat ->
  nth i starts 0 <= y < nth i ends 0 -> exists j, occupied lo hi bins arr j /\ bin_left lo hi bins j <= y < bin_left lo hi bins (j + 1).
Proof.
  rewrite (cluster_eq arr bins mc mode_r lo hi) by auto. intros H Hi Hy. injection H as <- <-. fold sb eb in Hi, Hy.
  rewrite skipn_length, padded_length in Hi. rewrite !nth_skipn in Hy.
  set (p := (bins + 1 - mc + i)%nat) in *. pose proof same_count as SC. pose proof (cnt_le sb (bins + 1)).
  assert (Hp : (p < bins + 1)%nat) by (unfold p; lia).
  destruct (Nat.lt_ge_cases p (bins + 1 - cnt sb (bins + 1))) as [Q|Q].
  - exfalso. unfold padded in Hy. rewrite !app_nth1 in Hy by (rewrite repeat_length; lia).
    rewrite (nth_repeat 0) in Hy. rewrite nth_repeat in Hy. lra.
  - set (r := (p - (bins + 1 - cnt sb (bins + 1)))%nat).
    destruct (nth_error (filter sb (seq 0 (bins + 1))) r) as [k0|] eqn:Q0.
    2:{ apply nth_error_None in Q0. fold (cnt sb (bins + 1)) in Q0. unfold r in Q0. lia. }
    destruct (cnt_nth _ _ _ _ Q0) as (A1 & A2 & A3).
    assert (Hm : m (S k0) = true). { unfold sb, startb, isstart in A2. apply andb_prop in A2. apply A2. }
    assert (Hm0 : m k0 = false). { unfold sb, startb, isstart in A2. apply andb_prop in A2. destruct A2 as [_ A2]. fold m in A2. destruct (m k0); auto. }
    destruct (run_of (S k0) Hm) as (k0' & k1 & R1 & R2 & R3 & R4 & R5 & R6).
    assert (k0' = k0).
    { destruct (Nat.eq_dec k0' k0); auto. rewrite R6 in Hm0 by lia. discriminate. }
    subst k0'.
    replace p with (bins + 1 - cnt sb (bins + 1) + cnt sb k0)%nat in Hy by (unfold r in A3; lia).
    rewrite padded_nth in Hy by auto. rewrite SC, <- R5, padded_nth in Hy by (auto; lia).
    assert (K : forall d, bin_left lo hi bins (S k0) <= y < bin_left lo hi bins (S k0 + d) ->
       exists j, (S k0 <= j < S k0 + d)%nat /\ bin_left lo hi bins j <= y < bin_left lo hi bins (j + 1)).
    { induction d as [|d IH]; intros Hd. rewrite Nat.add_0_r in Hd. lra.
      destruct (Rlt_dec y (bin_left lo hi bins (S k0 + d))) as [Y|Y].
      - destruct IH as (j & J1 & J2); [lra|]. exists j. split; [lia|auto].
      - exists (S k0 + d)%nat. split; [lia|]. replace (S k0 + d + 1)%nat with (S k0 + S d)%nat by lia. lra. }
    destruct (K (k1 - k0)%nat) as (j & J1 & J2).
    { replace (S k0 + (k1 - k0))%nat with (S k1) by lia. lra. }
    exists j. split; auto. apply occb_occupied; auto; [lra|]. apply R6. lia.
Qed.

(** too many groups: the smallest value is in no retained interval *)
Lemma cluster_drops starts ends i : (1 <= mc)%nat -> lo < hi -> In lo arr -> groups_more_than lo hi bins arr mc ->
  cluster_1d arr bins mc mode_r = Some (starts, ends) -> (i < length starts)%nat -> lo < nth i starts 0.
Proof.
  intros Hmc Hlt Hin HG. rewrite (cluster_eq arr bins mc mode_r lo hi) by auto. intros H Hi. injection H as <- <-. fold sb in Hi |- *.
  pose proof (groups_count_more HG) as Hc. rewrite skipn_length, padded_length in Hi. rewrite nth_skipn.
  pose proof (cnt_le sb (bins + 1)).
  set (r := (bins + 1 - mc + i - (bins + 1 - cnt sb (bins + 1)))%nat).
  destruct (nth_error (filter sb (seq 0 (bins + 1))) r) as [k|] eqn:Q0.
  2:{ apply nth_error_None in Q0. fold (cnt sb (bins + 1)) in Q0. unfold r in Q0. lia. }
  destruct (cnt_nth _ _ _ _ Q0) as (A1 & A2 & A3).
  replace (bins + 1 - mc + i)%nat with (bins + 1 - cnt sb (bins + 1) + cnt sb k)%nat by (unfold r in A3; lia).
  rewrite padded_nth by auto.
  assert (Hk : (1 <= k)%nat). { destruct k; [|lia]. unfold cnt in A3. simpl in A3. unfold r in A3. lia. }
  assert (P : 0 < (hi - lo) / INR bins) by (apply Rdiv_lt_0_compat; [lra|apply lt_0_INR; lia]).
  unfold bin_left. rewrite S_INR. apply le_INR in Hk. simpl in Hk. nra.
Qed.
End Cluster.

(** ** statements for the two modes *)
Lemma bin_range_r arr lo hi : sample_range arr lo hi -> bin_range true arr = Some (lo, hi).
Proof.
  intros (H1 & H2 & H3 & H4 & H5). unfold bin_range.
  assert (I : forall x, In x (filter nonzero arr) <-> In x arr /\ x <> 0) by (intros; rewrite filter_In, nonzero_true; tauto).
  destruct (filter nonzero arr) as [|a t] eqn:Q. { exfalso. apply (proj2 (I lo)). auto. }
  rewrite <- Q in *. assert (NE : filter nonzero arr <> []) by congruence.
  destruct (jmin_spec _ NE) as [M1 M2]. destruct (jmax_spec _ NE) as [X1 X2].
  do 2 f_equal; apply Rle_antisym.
  - apply M2, I. auto.
  - apply I in M1. apply H5; tauto.
  - apply I in X1. apply H5; tauto.
  - apply X2, I. auto.
Qed.
Lemma cluster_covers_r : forall arr bins mc lo hi, (1 <= bins)%nat -> (1 <= mc)%nat -> 0 <= lo -> sample_range arr lo hi ->
  groups_at_most lo hi bins arr mc ->
  exists starts ends, cluster_1d arr bins mc true = Some (starts, ends) /\ length starts = length ends /\
    forall x, In x arr -> x <> 0 -> covered starts ends x.
Proof.
  intros arr bins mc lo hi Hb Hm Hl HS HG. pose proof (bin_range_r _ _ _ HS) as HR. destruct HS as (H1 & H2 & H3 & H4 & H5).
  assert (lo <= hi) by (apply H5; auto).
  rewrite (cluster_eq arr bins mc true lo hi) by auto. eexists. eexists. split; [reflexivity|].
  split; [now rewrite !skipn_length, !padded_length|]. intros x Hx N.
  destruct (cluster_covers arr bins mc true lo hi Hb HR ltac:(lra) x Hm HG Hx ltac:(auto)) as (s & e & A & _ & B).
  rewrite (cluster_eq arr bins mc true lo hi) in A by auto. injection A as <- <-. exact B.
Qed.
Lemma cluster_covers_th : forall arr bins mc, (1 <= bins)%nat -> (1 <= mc)%nat -> groups_at_most 0 (2 * PI) bins arr mc ->
  exists starts ends, cluster_1d arr bins mc false = Some (starts, ends) /\ length starts = length ends /\
    forall x, In x arr -> 0 <= x <= 2 * PI -> covered starts ends x.
Proof.
  intros arr bins mc Hb Hm HG. pose proof PI_RGT_0.
  rewrite (cluster_eq arr bins mc false 0 (2 * PI)) by (auto; lra). eexists. eexists. split; [reflexivity|].
  split; [now rewrite !skipn_length, !padded_length|]. intros x Hx N.
  destruct (cluster_covers arr bins mc false 0 (2 * PI) Hb eq_refl ltac:(lra) x Hm HG Hx ltac:(auto)) as (s & e & A & _ & B).
  rewrite (cluster_eq arr bins mc false 0 (2 * PI)) in A by (auto; lra). injection A as <- <-. exact B.
Qed.
Lemma cluster_tight_r : forall arr bins mc lo hi starts ends i y, (1 <= bins)%nat -> (forall x, In x arr -> 0 <= x) -> sample_range arr lo hi ->
  cluster_1d arr bins mc true = Some (starts, ends) -> (i < length starts)%nat -> nth i starts 0 <= y < nth i ends 0 ->
  exists x, In x arr /\ x <> 0 /\ Rabs (x - y) <= (hi - lo) / INR bins.
Proof.
  intros arr bins mc lo hi starts ends i y Hb Hp HS Hc Hi Hy. pose proof (bin_range_r _ _ _ HS) as HR. destruct HS as (H1 & H2 & H3 & H4 & H5).
  assert (lo <= hi) by (apply H5; auto). assert (0 <= lo) by auto.
  destruct (cluster_tight arr bins mc true lo hi Hb HR ltac:(lra) starts ends i y Hc Hi Hy) as (j & (x & X1 & X2 & X3 & X4) & J).
  assert (D : bin_left lo hi bins (j + 1) - bin_left lo hi bins j = (hi - lo) / INR bins) by (unfold bin_left; rewrite plus_INR; simpl (INR 1); ring).
  assert (BL : forall x, x <> 0 -> In x arr -> j = bins -> x <= bin_left lo hi bins (j + 1)).
  { intros x' N' I' ->. rewrite bin_left_last by auto. apply H5; auto. }
  destruct (Req_dec x 0) as [Z|N].
  - (* a masked sample can only sit in the first bin, which also holds lo *)
    assert (j = 1%nat).
    { destruct X3 as [|X3]; auto. destruct (Nat.eq_dec j 1); auto. exfalso.
      pose proof (bin_left_mono lo hi bins 1 j ltac:(lra) Hb ltac:(lia)). rewrite bin_left_1 in H6. lra. }
    subst j. rewrite bin_left_1 in J, D. exists lo. repeat split; auto. rewrite Rabs_left1; lra.
  - exists x. repeat split; auto. specialize (H5 x X1 N).
    assert (bin_left lo hi bins j <= x). { destruct X3 as [->|]; auto. rewrite bin_left_1. lra. }
    assert (x <= bin_left lo hi bins (j + 1)). { destruct X4 as [|]; [apply BL; auto|lra]. }
    apply Rabs_le. lra.
Qed.
Lemma cluster_drops_r : forall arr bins mc lo hi starts ends, (1 <= bins)%nat -> (1 <= mc)%nat -> 0 <= lo < hi -> sample_range arr lo hi ->
  groups_more_than lo hi bins arr mc -> cluster_1d arr bins mc true = Some (starts, ends) -> ~ covered starts ends lo.
Proof.
  intros arr bins mc lo hi starts ends Hb Hm Hl HS HG Hc (i & I1 & I2 & I3). pose proof (bin_range_r _ _ _ HS) as HR.
  pose proof (cluster_drops arr bins mc true lo hi Hb HR ltac:(lra) starts ends i Hm ltac:(lra) (proj1 HS) HG Hc I1). lra.
Qed.
