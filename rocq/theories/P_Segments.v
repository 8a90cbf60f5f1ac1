From Coq Require Import Reals Lra Lia Bool List Arith ZArith Permutation.
From Coquelicot Require Import Complex.
From Verif Require Import Base_R Base_List M_Utils S_Utils P_Utils M_Contour S_Contour P_Contour M_Segments.
Import ListNotations.
Local Open Scope R_scope.

(** ** counting *)
Definition cnt (p : nat -> bool) (m : nat) : nat := length (filter p (seq 0 m)).
Lemma cnt_S p m : cnt p (S m) = (cnt p m + if p m then 1 else 0)%nat.
Proof. unfold cnt. rewrite seq_S, filter_app, app_length. simpl. destruct (p m); auto. Qed.
Lemma cnt_mono p m m' : (m <= m')%nat -> (cnt p m <= cnt p m')%nat.
Proof. induction 1; auto. rewrite cnt_S. lia. Qed.

Lemma nth_filter_le p N j i : (j < length (filter p (seq 0 N)))%nat -> (i < N)%nat ->
  ((nth j (filter p (seq 0 N)) 0 <= i)%nat <-> (j < cnt p (S i))%nat).
Proof.
  intros Hj Hi. unfold cnt. set (A := filter p (seq 0 (S i))).
  assert (Q : filter p (seq 0 N) = A ++ filter p (seq (S i) (N - S i))).
  { unfold A. rewrite <- filter_app. f_equal. replace N with (S i + (N - S i))%nat at 1 by lia. apply seq_app. }
  rewrite Q in *. rewrite app_length in Hj.
  destruct (Nat.lt_ge_cases j (length A)) as [H|H].
  - rewrite app_nth1 by auto. split; auto. intros _.
    assert (U : In (nth j A 0%nat) A) by (apply nth_In; auto).
    unfold A in U at 2. apply filter_In in U. destruct U as [U _]. apply in_seq in U. lia.
  - rewrite app_nth2 by auto. split; [|lia]. intros L. exfalso.
    set (B := filter p (seq (S i) (N - S i))) in *.
    assert (U : In (nth (j - length A) B 0%nat) B) by (apply nth_In; lia).
    unfold B in U at 2. apply filter_In in U. destruct U as [U _]. apply in_seq in U. lia.
Qed.

(** ** the start and end flags *)
Record wf_track (t : track) : Prop := {
  wf_len_p : length (t_par t) = length (t_z t);
  wf_len_m : length (t_mask t) = length (t_z t);
  wf_pos : (0 < length (t_z t))%nat;
  wf_01 : forall i, nth i (t_mask t) 0 = 0 \/ nth i (t_mask t) 0 = 1;
  wf_zero : forall i, nth i (t_mask t) 0 = 0 -> nth i (t_z t) (RtoC 0) = RtoC 0 /\ nth i (t_par t) 0 = 0 }.

Section Split.
Context (t : track) (W : wf_track t).
Let n := length (t_z t).
Definition vb (i : nat) : bool := Reqb (nth i (t_mask t) 0) 1.
Definition brkb (i : nat) : bool :=
  far_apart (nth (i - 1) (t_z t) (RtoC 0)) (nth i (t_z t) (RtoC 0)) || nonzero (nth i (t_par t) 0 - nth (i - 1) (t_par t) 0).
Definition stb (i : nat) : bool := vb i && ((i =? 0)%nat || negb (vb (i - 1)) || brkb i).
Definition enb (i : nat) : bool := negb (i =? 0)%nat && vb (i - 1) && (negb (vb i) || brkb i).

Lemma vb_over i : (n <= i)%nat -> vb i = false.
Proof.
  intros H. unfold vb. rewrite nth_overflow by (rewrite (wf_len_m t W); auto).
  apply Reqb_false. lra.
Qed.
Lemma far_apart_zero : far_apart (RtoC 0) (RtoC 0) = false.
Proof. unfold far_apart. simpl. apply Rltb_false. lra. Qed.

Lemma changepoints_length : length (changepoints t) = S n.
Proof. unfold changepoints. rewrite !app_length, map_length, seq_length. simpl. pose proof (wf_pos t W). unfold n in *. lia. Qed.
Lemma diff_mask_length : length (diff_mask t) = S n.
Proof. unfold diff_mask. rewrite !app_length, map_length, seq_length. simpl. pose proof (wf_pos t W). unfold n in *. lia. Qed.

Lemma nth_framed {A} (d a b : A) (f : nat -> A) i : (0 < n)%nat -> (i <= n)%nat ->
  nth i ([a] ++ map f (seq 1 (n - 1)) ++ [b]) d = if (i =? 0)%nat then a else if (i =? n)%nat then b else f i.
Proof.
  intros Hn Hi. destruct i as [|i]; [reflexivity|]. simpl app. cbn [nth].
  replace (S i =? 0)%nat with false by reflexivity.
  destruct (Nat.eqb_spec (S i) n) as [He|He].
  - rewrite app_nth2; rewrite map_length, seq_length; [|lia]. replace (i - (n - 1))%nat with 0%nat by lia. reflexivity.
  - rewrite app_nth1; [|rewrite map_length, seq_length; lia].
    rewrite (nth_map_lt f _ i 0%nat) by (rewrite seq_length; lia). rewrite seq_nth by lia. reflexivity.
Qed.

Lemma idcs_nth (g : bool * R -> bool) i : (i <= n)%nat ->
  nth i (map g (combine (changepoints t) (diff_mask t))) false = g (nth i (changepoints t) false, nth i (diff_mask t) 0).
Proof.
  intros Hi. rewrite (nth_map_lt g _ i (false, 0)) by (rewrite combine_length, changepoints_length, diff_mask_length; lia).
  rewrite combine_nth by (rewrite changepoints_length, diff_mask_length; auto). reflexivity.
Qed.

Lemma start_flag i : (i <= n)%nat -> nth i (idcs_start t) false = stb i.
Proof.
  intros Hi. pose proof (wf_pos t W) as Hn. fold n in Hn.
  unfold idcs_start. rewrite idcs_nth by auto. cbn [fst snd]. unfold changepoints, diff_mask.
  fold n. rewrite !nth_framed by auto. unfold stb.
  destruct (Nat.eqb_spec i 0) as [->|Hi0].
  - unfold vb, iszero, nonzero. destruct (wf_01 t W 0%nat) as [-> | ->]; Rbool; simpl; auto; lra.
  - destruct (Nat.eqb_spec i n) as [->|Hin].
    + rewrite vb_over by auto. unfold iszero, nonzero. destruct (wf_01 t W (n - 1)%nat) as [-> | ->]; Rbool; simpl; auto; lra.
    + unfold inner_change. fold (brkb i). change (false || negb (vb (i - 1)) || brkb i) with (negb (vb (i - 1)) || brkb i).
      unfold vb. destruct (wf_01 t W i) as [E1|E1], (wf_01 t W (i - 1)%nat) as [E2|E2]; rewrite ?E1, ?E2.
      * unfold brkb. destruct (wf_zero t W i E1) as [-> ->], (wf_zero t W _ E2) as [-> ->]. rewrite far_apart_zero.
        unfold nonzero. Rbool; simpl; auto; lra.
      * unfold nonzero. Rbool; simpl; rewrite ?andb_false_r; auto; lra.
      * unfold nonzero. Rbool; simpl; rewrite ?orb_true_r; simpl; auto; lra.
      * unfold nonzero at 1. Rbool; simpl; rewrite ?orb_false_r, ?andb_true_r; auto; lra.
Qed.
Lemma end_flag i : (i <= n)%nat -> nth i (idcs_end t) false = enb i.
Proof.
  intros Hi. pose proof (wf_pos t W) as Hn. fold n in Hn.
  unfold idcs_end. rewrite idcs_nth by auto. cbn [fst snd]. unfold changepoints, diff_mask.
  fold n. rewrite !nth_framed by auto. unfold enb.
  destruct (Nat.eqb_spec i 0) as [->|Hi0].
  - unfold iszero, nonzero. destruct (wf_01 t W 0%nat) as [-> | ->]; Rbool; simpl; auto; lra.
  - destruct (Nat.eqb_spec i n) as [->|Hin].
    + rewrite (vb_over n) by auto. unfold vb, iszero, nonzero. destruct (wf_01 t W (n - 1)%nat) as [-> | ->]; Rbool; simpl; auto; lra.
    + unfold inner_change. fold (brkb i). change (negb false && vb (i - 1)) with (vb (i - 1)).
      unfold vb. destruct (wf_01 t W i) as [E1|E1], (wf_01 t W (i - 1)%nat) as [E2|E2]; rewrite ?E1, ?E2.
      * unfold brkb. destruct (wf_zero t W i E1) as [-> ->], (wf_zero t W _ E2) as [-> ->]. rewrite far_apart_zero.
        unfold nonzero. Rbool; simpl; auto; lra.
      * unfold nonzero. Rbool; simpl; rewrite ?orb_true_r; simpl; auto; lra.
      * unfold nonzero. Rbool; simpl; rewrite ?andb_false_r; auto; lra.
      * unfold nonzero at 1. Rbool; simpl; rewrite ?orb_false_r, ?andb_true_r; auto; lra.
Qed.

Lemma cnt_relation i : cnt stb (S i) = (cnt enb (S i) + if vb i then 1 else 0)%nat.
Proof.
  induction i as [|i IH].
  - unfold cnt; simpl. unfold stb, enb. simpl. rewrite andb_true_r. destruct (vb 0); auto.
  - rewrite (cnt_S stb), (cnt_S enb), IH. unfold stb at 1, enb at 3. simpl (S i =? 0)%nat. simpl (S i - 1)%nat. rewrite Nat.sub_0_r.
    destruct (vb i), (vb (S i)), (brkb (S i)); simpl; lia.
Qed.

(** ** the pieces *)
Definition n_pieces_b : nat := cnt stb n.
Lemma cnt_st_n : cnt stb (S n) = n_pieces_b.
Proof. rewrite cnt_S. unfold n_pieces_b, stb at 2. rewrite vb_over by auto. simpl. lia. Qed.
Lemma cnt_en_n : cnt enb (S n) = n_pieces_b.
Proof. rewrite <- cnt_st_n, cnt_relation. rewrite vb_over by auto. lia. Qed.

Lemma filter_ext_in2 {A} (f g : A -> bool) l : (forall a, In a l -> f a = g a) -> filter f l = filter g l.
Proof. induction l; simpl; intros H; auto. rewrite H by auto. rewrite IHl; auto. Qed.

Lemma idcs_length (g : bool * R -> bool) : length (map g (combine (changepoints t) (diff_mask t))) = S n.
Proof. rewrite map_length, combine_length, changepoints_length, diff_mask_length. lia. Qed.

Lemma starts_where : filter (fun i => nth i (idcs_start t) false) (seq 0 (length (idcs_start t))) = filter stb (seq 0 (S n)).
Proof.
  unfold idcs_start at 2. rewrite idcs_length. apply filter_ext_in2. intros i Hi. apply in_seq in Hi. apply start_flag. lia.
Qed.
Lemma ends_where : filter (fun i => nth i (idcs_end t) false) (seq 0 (length (idcs_end t))) = filter enb (seq 0 (S n)).
Proof.
  unfold idcs_end at 2. rewrite idcs_length. apply filter_ext_in2. intros i Hi. apply in_seq in Hi. apply end_flag. lia.
Qed.
Lemma nth_argwhere w k j : (j < k)%nat ->
  nth j (firstn k w ++ repeat 0%nat (k - length w)) 0%nat = if (j <? length w)%nat then nth j w 0%nat else 0%nat.
Proof.
  intros Hj. destruct (Nat.ltb_spec j (length w)).
  - rewrite app_nth1 by (rewrite firstn_length; lia). apply nth_firstn_lt. auto.
  - rewrite app_nth2 by (rewrite firstn_length; lia). apply nth_repeat.
Qed.
Lemma argwhere_length b k : length (argwhere_size b k) = k.
Proof. unfold argwhere_size. rewrite app_length, firstn_length, repeat_length. lia. Qed.

Lemma split_length np : length (split_segment t np) = (2 * np)%nat.
Proof. unfold split_segment. rewrite map_length, combine_length, !argwhere_length. lia. Qed.

(** the region mask of slot [j] at sample [i] *)
Lemma region_value np j i : (j < 2 * np)%nat -> (i < n)%nat ->
  nth i (mask_region n (nth j (argwhere_size (idcs_start t) (2 * np)) 0%nat,
                        nth j (argwhere_size (idcs_end t) (2 * np)) 0%nat)) 0
  = if vb i && (j =? cnt enb (S i))%nat then 1 else 0.
Proof.
  intros Hj Hi. unfold argwhere_size. rewrite starts_where, ends_where, !nth_argwhere by auto.
  set (ws := filter stb (seq 0 (S n))). set (we := filter enb (seq 0 (S n))).
  assert (Ls : length ws = n_pieces_b) by (apply cnt_st_n).
  assert (Le : length we = n_pieces_b) by (apply cnt_en_n).
  rewrite Ls, Le. pose proof (cnt_relation i) as Rel.
  pose proof (cnt_mono stb (S i) (S n) ltac:(lia)) as Ms. rewrite cnt_st_n in Ms.
  destruct (Nat.ltb_spec j n_pieces_b) as [Hk|Hk].
  - pose proof (nth_filter_le stb (S n) j i ltac:(fold ws; lia) ltac:(lia)) as F1. fold ws in F1.
    pose proof (nth_filter_le enb (S n) j i ltac:(fold we; lia) ltac:(lia)) as F2. fold we in F2.
    assert (Hpos : nth j we 0%nat <> 0%nat).
    { assert (U : In (nth j we 0%nat) we) by (apply nth_In; lia). unfold we in U at 2. apply filter_In in U.
      destruct U as [_ U]. intros E. rewrite E in U. discriminate U. }
    unfold mask_region. cbn [fst snd].
    replace (nth j we 0 =? 0)%nat with false by (symmetry; apply Nat.eqb_neq; auto). rewrite andb_false_r.
    rewrite (nth_map_lt _ _ i 0%nat) by (rewrite seq_length; auto). rewrite seq_nth by auto. simpl (0 + i)%nat.
    destruct (Nat.leb_spec (nth j ws 0%nat) i) as [A|A], (Nat.ltb_spec i (nth j we 0%nat)) as [B|B]; cbn [andb].
    + apply F1 in A. assert (~ (j < cnt enb (S i))%nat) by (intros U; apply F2 in U; lia).
      destruct (vb i); simpl; [|lia]. replace (j =? cnt enb (S i))%nat with true; auto. symmetry. apply Nat.eqb_eq. lia.
    + apply F2 in B. destruct (vb i); simpl; auto. destruct (Nat.eqb_spec j (cnt enb (S i))); auto; lia.
    + assert (~ (j < cnt stb (S i))%nat) by (intros U; apply F1 in U; lia).
      destruct (vb i); simpl; auto. destruct (Nat.eqb_spec j (cnt enb (S i))); auto; lia.
    + assert (~ (j < cnt stb (S i))%nat) by (intros U; apply F1 in U; lia).
      destruct (vb i); simpl; auto. destruct (Nat.eqb_spec j (cnt enb (S i))); auto; lia.
  - unfold mask_region. simpl. rewrite nth_repeat. destruct (vb i); simpl; auto.
    destruct (Nat.eqb_spec j (cnt enb (S i))); auto. lia.
Qed.

Lemma mask_region_length m lr : length (mask_region m lr) = m.
Proof. unfold mask_region. destruct (_ && _); [apply repeat_length|]. rewrite map_length, seq_length. auto. Qed.

Lemma nth_split np j : (j < 2 * np)%nat -> nth j (split_segment t np) empty_track =
  mul_mask t (mask_region n (nth j (argwhere_size (idcs_start t) (2 * np)) 0%nat, nth j (argwhere_size (idcs_end t) (2 * np)) 0%nat)).
Proof.
  intros Hj. unfold split_segment. fold n.
  rewrite (nth_map_lt _ _ j (0%nat, 0%nat)) by (rewrite combine_length, !argwhere_length; lia).
  rewrite combine_nth by (rewrite !argwhere_length; auto). reflexivity.
Qed.

Definition tsample (t : track) (i : nat) := sample (t_z t) (t_par t) (t_mask t) i.

Lemma mul_mask_sample m i : length m = n -> (i < n)%nat -> nth i m 0 = 0 \/ nth i m 0 = 1 ->
  tsample (mul_mask t m) i = if Reqb (nth i m 0) 1 then tsample t i else no_sample.
Proof.
  intros Hm Hi H. unfold tsample, sample, mul_mask. cbn [t_z t_par t_mask].
  rewrite (nth_map_lt _ _ i (RtoC 0, 0)) by (rewrite combine_length; unfold n in *; lia).
  rewrite (nth_map_lt _ (combine (t_par t) m) i (0, 0)) by (rewrite combine_length, (wf_len_p t W); unfold n in *; lia).
  rewrite (nth_map_lt _ (combine (t_mask t) m) i (0, 0)) by (rewrite combine_length, (wf_len_m t W); unfold n in *; lia).
  rewrite !combine_nth by (rewrite ?(wf_len_p t W), ?(wf_len_m t W); auto). cbn [fst snd].
  unfold no_sample. destruct H as [-> | ->]; Rbool; try lra.
  - rewrite Cmult_0_r. f_equal; [f_equal|]; lra.
  - rewrite Cmult_1_r. f_equal; [f_equal|]; lra.
Qed.

(** what slot [j] holds at sample [i] *)
Lemma split_sample np j i : (j < 2 * np)%nat -> (i < n)%nat ->
  tsample (nth j (split_segment t np) empty_track) i =
  if vb i && (j =? cnt enb (S i))%nat then tsample t i else no_sample.
Proof.
  intros Hj Hi. rewrite nth_split by auto.
  pose proof (region_value np j i Hj Hi) as V.
  rewrite mul_mask_sample; auto.
  - rewrite V. destruct (vb i && _); Rbool; auto; lra.
  - apply mask_region_length.
  - rewrite V. destruct (vb i && _); auto.
Qed.

Lemma mul_mask_length m : length m = n ->
  length (t_z (mul_mask t m)) = n /\ length (t_par (mul_mask t m)) = n /\ length (t_mask (mul_mask t m)) = n.
Proof.
  intros H. unfold mul_mask; cbn [t_z t_par t_mask]. rewrite !map_length, !combine_length, (wf_len_p t W), (wf_len_m t W), H. unfold n. lia.
Qed.
Lemma split_rows np j : (j < 2 * np)%nat ->
  let u := nth j (split_segment t np) empty_track in
  length (t_z u) = n /\ length (t_par u) = n /\ length (t_mask u) = n.
Proof. intros Hj. simpl. rewrite nth_split by auto. apply mul_mask_length. apply mask_region_length. Qed.

(** slot numbers *)
Lemma slot_mono i k : (i <= k)%nat -> (cnt enb (S i) <= cnt enb (S k))%nat.
Proof. intros. apply cnt_mono. lia. Qed.
Lemma slot_bound i : vb i = true -> (cnt enb (S i) < n_pieces_b)%nat.
Proof.
  intros H. assert (i < n)%nat. { destruct (Nat.lt_ge_cases i n); auto. rewrite vb_over in H; auto; discriminate. }
  pose proof (cnt_relation i) as Rel. rewrite H in Rel.
  pose proof (cnt_mono stb (S i) (S n) ltac:(lia)) as Ms. rewrite cnt_st_n in Ms. lia.
Qed.
Lemma slot_next i : vb i = true -> vb (S i) = true ->
  (cnt enb (S i) = cnt enb (S (S i)) <-> brkb (S i) = false).
Proof.
  intros H1 H2. rewrite (cnt_S enb (S i)). unfold enb at 3. simpl (S i - 1)%nat. rewrite Nat.sub_0_r, H1, H2. simpl.
  destruct (brkb (S i)); split; intros; try lia; auto; discriminate.
Qed.
Lemma slot_convex i j k : (i < j)%nat -> (j < k)%nat -> vb i = true -> vb k = true -> cnt enb (S i) = cnt enb (S k) -> vb j = true.
Proof.
  intros Hij Hjk Vi Vk He. destruct (vb j) eqn:Vj; auto. exfalso.
  pose proof (cnt_relation i). pose proof (cnt_relation j). pose proof (cnt_relation k). rewrite Vi, Vj, Vk in *.
  pose proof (cnt_mono stb (S i) (S j) ltac:(lia)). pose proof (cnt_mono enb (S j) (S k) ltac:(lia)).
  pose proof (cnt_mono enb (S i) (S j) ltac:(lia)). lia.
Qed.
(** every slot number below the number of pieces is used *)
Lemma slot_onto j : (j < n_pieces_b)%nat -> exists i, (i < n)%nat /\ stb i = true /\ cnt enb (S i) = j.
Proof.
  intros Hj. unfold n_pieces_b in Hj.
  assert (U : In (nth j (filter stb (seq 0 n)) 0%nat) (filter stb (seq 0 n))) by (apply nth_In; auto).
  set (i := nth j (filter stb (seq 0 n)) 0%nat) in *.
  apply filter_In in U. destruct U as [U1 U2]. apply in_seq in U1.
  exists i. split; [lia|split; auto].
  pose proof (nth_filter_le stb n j i Hj ltac:(lia)) as F. fold i in F.
  assert (V : vb i = true) by (unfold stb in U2; apply andb_prop in U2; tauto).
  pose proof (cnt_relation i) as Rel. rewrite V in Rel. pose proof (cnt_S stb i) as Cs. rewrite U2 in Cs.
  assert (j < cnt stb (S i))%nat by (apply F; lia).
  destruct (Nat.eq_dec i 0) as [E0|E0].
  - assert (cnt stb i = 0%nat) by (rewrite E0; reflexivity). lia.
  - pose proof (nth_filter_le stb n j (i - 1) Hj ltac:(lia)) as F'. fold i in F'.
    replace (S (i - 1)) with i in F' by lia. assert (~ (j < cnt stb i)%nat) by (intros K; apply F' in K; lia). lia.
Qed.
End Split.

(** ** bridge to the specification *)
Lemma Cmod_gt_far p q : far_apart p q = true <-> 0.1 < Cmod (q - p)%C.
Proof.
  unfold far_apart. rewrite Rltb_true.
  replace ((Re q - Re p) ^ 2 + (Im q - Im p) ^ 2) with (Cmod (q - p)%C ^ 2).
  2:{ unfold Cmod. rewrite pow2_sqrt. destruct p, q; reflexivity. apply Rplus_le_le_0_compat; apply pow2_ge_0. }
  pose proof (Cmod_ge_0 (q - p)%C). split; intros.
  - destruct (Rle_lt_dec (Cmod (q - p)%C) 0.1); auto. exfalso. nra.
  - nra.
Qed.
Lemma vb_true t i : vb t i = true <-> nth i (t_mask t) 0 = 1.
Proof. apply Reqb_true. Qed.
Lemma brkb_true t i : brkb t i = true <-> track_break (t_z t) (t_par t) i.
Proof.
  unfold brkb, track_break. rewrite orb_true_iff, Cmod_gt_far, nonzero_true.
  split; (intros [H|H]; [left|right]); auto; intros E; apply H; lra.
Qed.
Lemma stb_true t i : wf_track t -> stb t i = true <-> piece_begins (t_z t) (t_par t) (t_mask t) i.
Proof.
  intros W. unfold stb, piece_begins. rewrite andb_true_iff, !orb_true_iff, vb_true, Nat.eqb_eq, brkb_true, negb_true_iff.
  assert (H : vb t (i - 1) = false <-> nth (i - 1) (t_mask t) 0 = 0).
  { unfold vb. rewrite Reqb_false. destruct (wf_01 t W (i - 1)%nat) as [-> | ->]; lra. }
  rewrite H. tauto.
Qed.
Lemma n_pieces_list t : wf_track t ->
  exists L, NoDup L /\ (forall i, In i L <-> piece_begins (t_z t) (t_par t) (t_mask t) i) /\ length L = n_pieces_b t.
Proof.
  intros W. exists (filter (stb t) (seq 0 (length (t_z t)))). split; [|split].
  - apply NoDup_filter, seq_NoDup.
  - intros i. rewrite filter_In, stb_true by auto. split; [tauto|]. intros H; split; auto.
    apply in_seq. destruct H as [H _]. destruct (Nat.lt_ge_cases i (length (t_z t))); [lia|].
    rewrite nth_overflow in H by (rewrite (wf_len_m t W); auto). lra.
  - reflexivity.
Qed.

Lemma split_partition t np : wf_track t ->
  (forall L, NoDup L -> (forall i, In i L -> piece_begins (t_z t) (t_par t) (t_mask t) i) -> (length L <= 2 * np)%nat) ->
  let pieces := split_segment t np in
  length pieces = (2 * np)%nat /\
  exists slot : nat -> nat,
    (forall i, nth i (t_mask t) 0 = 1 ->
        (slot i < 2 * np)%nat /\ tsample (nth (slot i) pieces empty_track) i = tsample t i) /\
    (forall i j, (i < length (t_z t))%nat -> (j < 2 * np)%nat -> (nth i (t_mask t) 0 = 1 -> j <> slot i) ->
        tsample (nth j pieces empty_track) i = no_sample) /\
    (forall i, nth i (t_mask t) 0 = 1 -> nth (S i) (t_mask t) 0 = 1 ->
        (slot i = slot (S i) <-> ~ track_break (t_z t) (t_par t) (S i))) /\
    (forall i k, (i <= k)%nat -> (slot i <= slot k)%nat) /\
    (forall i j k, (i < j)%nat -> (j < k)%nat -> nth i (t_mask t) 0 = 1 -> nth k (t_mask t) 0 = 1 ->
        slot i = slot k -> nth j (t_mask t) 0 = 1).
Proof.
  intros W B pieces. split; [apply split_length; auto|].
  destruct (n_pieces_list t W) as (L & N & I & E).
  assert (Bd : (n_pieces_b t <= 2 * np)%nat) by (rewrite <- E; apply B; auto; intros i; apply I).
  exists (fun i => cnt (enb t) (S i)). repeat match goal with |- _ /\ _ => split end.
  - intros i Hi. apply vb_true in Hi. pose proof (slot_bound t W i Hi). split; [lia|].
    unfold pieces. rewrite split_sample; auto; try lia.
    + rewrite Hi, Nat.eqb_refl. reflexivity.
    + destruct (Nat.lt_ge_cases i (length (t_z t))); auto. rewrite (vb_over t W) in Hi; auto; discriminate.
  - intros i j Hi Hj Hne. unfold pieces. rewrite split_sample by auto.
    destruct (vb t i) eqn:V; auto. apply vb_true in V. specialize (Hne V).
    destruct (Nat.eqb_spec j (cnt (enb t) (S i))); auto. contradiction.
  - intros i H1 H2. apply vb_true in H1, H2. rewrite slot_next by auto.
    rewrite <- brkb_true. destruct (brkb t (S i)); split; intros; auto; try discriminate. exfalso; auto.
  - intros i k H. apply slot_mono. auto.
  - intros i j k Hij Hjk Vi Vk He. apply vb_true in Vi, Vk. apply vb_true. apply (slot_convex t i j k); auto.
Qed.

(** over budget: a valid sample disappears *)
Lemma split_overflow t np L : wf_track t -> NoDup L ->
  (forall i, In i L -> piece_begins (t_z t) (t_par t) (t_mask t) i) -> (2 * np < length L)%nat ->
  exists i, nth i (t_mask t) 0 = 1 /\
    forall j, (j < 2 * np)%nat -> tsample (nth j (split_segment t np) empty_track) i = no_sample.
Proof.
  intros W N B HL.
  assert (Hk : (2 * np < n_pieces_b t)%nat).
  { destruct (n_pieces_list t W) as (L' & N' & I' & E'). rewrite <- E'.
    enough (length L <= length L')%nat by lia. apply NoDup_incl_length; auto. intros i Hi. apply I'. auto. }
  destruct (slot_onto t _ Hk) as (i & Hi & Si & Ci).
  assert (V : vb t i = true) by (unfold stb in Si; apply andb_prop in Si; tauto).
  exists i. split; [apply vb_true; auto|]. intros j Hj. rewrite split_sample by auto. rewrite Ci.
  destruct (Nat.eqb_spec j (2 * np)); [lia|]. rewrite andb_false_r. reflexivity.
Qed.

(** ** merging *)
Lemma roll_length {A} (d : A) l k : length (roll d l k) = length l.
Proof. unfold roll. rewrite map_length, seq_length. auto. Qed.
Lemma nth_roll {A} (d : A) l k i : (i < length l)%nat ->
  nth i (roll d l k) d = nth (Z.to_nat ((Z.of_nat i - k) mod Z.of_nat (length l))) l d.
Proof.
  intros H. unfold roll. rewrite (nth_map_lt _ _ i 0%nat) by (rewrite seq_length; auto). rewrite seq_nth by auto. reflexivity.
Qed.
Lemma roll_fwd {A} (d : A) n l m i : (length l + m <= n)%nat -> (i < n)%nat ->
  nth i (roll d (packed d n l) (Z.of_nat m)) d = if (i <? m)%nat then d else nth (i - m) l d.
Proof.
  intros H Hi. assert (Lp : length (packed d n l) = n) by (apply packed_length; lia).
  rewrite nth_roll by (rewrite Lp; auto). rewrite Lp, nth_packed.
  destruct (Nat.ltb_spec i m).
  - rewrite (Z.mod_add (Z.of_nat i - Z.of_nat m) 1 (Z.of_nat n) ltac:(lia)) || idtac.
    replace ((Z.of_nat i - Z.of_nat m) mod Z.of_nat n)%Z with (Z.of_nat i - Z.of_nat m + Z.of_nat n)%Z.
    + apply nth_overflow. lia.
    + apply (Z.mod_unique_pos _ _ (-1)); lia.
  - rewrite Z.mod_small by lia. f_equal. lia.
Qed.

Lemma first_zero_packed n (l : list C) : (forall p, In p l -> p <> RtoC 0) -> (length l < n)%nat ->
  first_zero (map Cmod (packed (RtoC 0) n l)) = length l.
Proof.
  intros Hl Hn. destruct (first_zero_spec (map Cmod (packed (RtoC 0) n l))) as [A _].
  set (x := map Cmod _) in *.
  assert (Hx : forall i, nth i x 0 = Cmod (nth i l (RtoC 0))).
  { intros i. unfold x. rewrite <- (nth_packed (RtoC 0) n l i). etransitivity; [|exact (map_nth Cmod (packed (RtoC 0) n l) (RtoC 0) i)]. rewrite Cmod_0. reflexivity. }
  assert (Lx : length x = n) by (unfold x; rewrite map_length; apply packed_length; lia).
  assert (I0 : In 0 x). { rewrite <- Cmod_0. rewrite <- (nth_overflow l (RtoC 0) (Nat.le_refl _)). rewrite <- Hx. apply nth_In. lia. }
  destruct (A I0) as (F1 & F2 & F3).
  destruct (Nat.lt_trichotomy (first_zero x) (length l)) as [H|[H|H]]; auto; exfalso.
  - rewrite Hx in F2. apply Cmod_eq_0 in F2. apply (Hl (nth (first_zero x) l (RtoC 0))); auto. apply nth_In; auto.
  - apply (F3 _ H). rewrite Hx, nth_overflow by lia. apply Cmod_0.
Qed.

Definition pseg (n : nat) (pts : list C) (par : list R) : seg := (packed (RtoC 0) n pts, packed 0 n par).

Lemma packed_add {A} (d : A) (op : A -> A -> A) n l1 l2 : (forall a, op d a = a) -> (forall a, op a d = a) ->
  (length l1 + length l2 <= n)%nat ->
  map (fun pq => op (fst pq) (snd pq)) (combine (packed d n l1) (roll d (packed d n l2) (Z.of_nat (length l1)))) = packed d n (l1 ++ l2).
Proof.
  intros O1 O2 H.
  assert (L1 : length (packed d n l1) = n) by (apply packed_length; lia).
  assert (L2 : length (packed d n l2) = n) by (apply packed_length; lia).
  apply (list_eq_nth d).
  - rewrite map_length, combine_length, roll_length, L1, L2, packed_length; rewrite ?app_length; lia.
  - intros i Hi. rewrite map_length, combine_length, roll_length, L1, L2, Nat.min_id in Hi.
    rewrite (nth_map_lt _ _ i (d, d)) by (rewrite combine_length, roll_length; lia).
    rewrite combine_nth by (rewrite roll_length; lia). cbn [fst snd].
    rewrite roll_fwd by lia. rewrite !nth_packed. destruct (Nat.ltb_spec i (length l1)).
    + rewrite O2, app_nth1; auto.
    + rewrite (nth_overflow l1) by auto. rewrite O1, app_nth2; auto.
Qed.

Lemma concat_packed n p1 r1 p2 r2 : length r1 = length p1 -> length r2 = length p2 ->
  (forall p, In p p1 -> p <> RtoC 0) -> (length p1 < n)%nat -> (length p1 + length p2 <= n)%nat ->
  concatenate_segments (pseg n p1 r1) (pseg n p2 r2) = pseg n (p1 ++ p2) (r1 ++ r2).
Proof.
  intros E1 E2 Hz Hn Hl. unfold concatenate_segments, pseg, add_seg, roll_seg. cbn [fst snd].
  rewrite first_zero_packed by auto. f_equal.
  - apply (packed_add (RtoC 0) Cplus); auto. apply Cplus_0_l. apply Cplus_0_r.
  - rewrite <- E1. apply (packed_add 0 Rplus); try lia; intros; lra.
Qed.

Lemma roll_rev_packed {A} (d : A) n l : (length l <= n)%nat -> l <> [] ->
  roll d (rev (packed d n l)) (- (Z.of_nat n - Z.of_nat (length l - 1) - 1)) = packed d n (rev l).
Proof.
  intros H Hl. assert (0 < length l)%nat by (destruct l; simpl; [congruence|lia]).
  assert (Lr : length (rev (packed d n l)) = n) by (rewrite rev_length, packed_length; auto).
  assert (Q : rev (packed d n l) = repeat d (n - length l) ++ rev l).
  { unfold packed. rewrite rev_app_distr. f_equal. clear. induction (n - length l)%nat as [|k IH]; auto. simpl. rewrite IH.
    clear. induction k; simpl; congruence. }
  apply (list_eq_nth d).
  - rewrite roll_length, Lr, packed_length; rewrite ?rev_length; auto.
  - intros i Hi. rewrite roll_length, Lr in Hi. rewrite nth_roll by (rewrite Lr; auto). rewrite Lr, Q, nth_packed.
    replace (Z.of_nat i - - (Z.of_nat n - Z.of_nat (length l - 1) - 1))%Z with (Z.of_nat i + Z.of_nat n - Z.of_nat (length l))%Z by lia.
    destruct (Nat.lt_ge_cases i (length l)).
    + rewrite Z.mod_small by lia. rewrite app_nth2 by (rewrite repeat_length; lia). rewrite repeat_length. f_equal. lia.
    + replace ((Z.of_nat i + Z.of_nat n - Z.of_nat (length l)) mod Z.of_nat n)%Z with (Z.of_nat i - Z.of_nat (length l))%Z.
      * rewrite app_nth1 by (rewrite repeat_length; lia). rewrite nth_repeat, nth_overflow; auto. rewrite rev_length. auto.
      * apply (Z.mod_unique_pos _ _ 1); lia.
Qed.

Lemma map_packed (f : R -> R) n l : f 0 = 0 -> map f (packed 0 n l) = packed 0 n (map f l).
Proof. intros H. unfold packed. rewrite map_app, map_length. f_equal. induction (n - length l)%nat; simpl; congruence. Qed.

Lemma reverse_packed n p r : length r = length p -> p <> [] -> (length p <= n)%nat ->
  reverse_seg (pseg n p r) (length p - 1) = pseg n (rev p) (map Ropp (rev r)).
Proof.
  intros E Hp Hn. unfold reverse_seg, roll_seg, pseg. cbn [fst snd]. rewrite packed_length by auto. f_equal.
  - apply roll_rev_packed; auto.
  - rewrite <- E. assert (r <> []) by (destruct p, r; simpl in *; congruence). rewrite roll_rev_packed by (auto; lia).
    rewrite map_packed by lra. f_equal. apply map_ext. intros; lra.
Qed.

Lemma merge_two_correct n p1 r1 p2 r2 : length r1 = length p1 -> length r2 = length p2 -> p1 <> [] -> p2 <> [] ->
  (forall p, In p (p1 ++ p2) -> p <> RtoC 0) -> (length p1 + length p2 <= n)%nat ->
  let m := merge_two_segments (pseg n p1 r1) (pseg n p2 r2) (length p1 - 1) (length p2 - 1) in
  let t := (length p1 + length p2 - 1)%nat in
  m 0%nat = (pseg n (p1 ++ p2) (r1 ++ r2), t) /\
  m 1%nat = (pseg n (p2 ++ p1) (r2 ++ r1), t) /\
  m 2%nat = (pseg n (rev p2 ++ p1) (map Ropp (rev r2) ++ r1), t) /\
  m 3%nat = (pseg n (p1 ++ rev p2) (r1 ++ map Ropp (rev r2)), t).
Proof.
  intros E1 E2 H1 H2 Hz Hn m t.
  assert (0 < length p1)%nat by (destruct p1; simpl; [congruence|lia]).
  assert (0 < length p2)%nat by (destruct p2; simpl; [congruence|lia]).
  assert (T : (length p1 - 1 + (length p2 - 1) + 1)%nat = t) by (unfold t; lia).
  unfold m, merge_two_segments. rewrite T.
  assert (Hz1 : forall p, In p p1 -> p <> RtoC 0) by (intros; apply Hz, in_or_app; auto).
  assert (Hz2 : forall p, In p p2 -> p <> RtoC 0) by (intros; apply Hz, in_or_app; auto).
  repeat match goal with |- _ /\ _ => split end; f_equal.
  - apply concat_packed; auto; lia.
  - apply concat_packed; auto; lia.
  - rewrite reverse_packed by (auto; lia). apply concat_packed; rewrite ?map_length, ?rev_length; auto; try lia.
    intros p Hp. apply Hz2. apply in_rev. auto.
  - rewrite reverse_packed by (auto; lia). apply concat_packed; rewrite ?map_length, ?rev_length; auto; lia.
Qed.

(** the full buffer: points of the two segments are added on top of each other *)
Lemma concat_overflow : exists n p1 r1 p2 r2, length r1 = length p1 /\ length r2 = length p2 /\
  (forall p, In p (p1 ++ p2) -> p <> RtoC 0) /\ (length p1 <= n)%nat /\ (length p2 <= n)%nat /\
  ~ In (nth 0 p1 (RtoC 0)) (fst (concatenate_segments (pseg n p1 r1) (pseg n p2 r2))).
Proof.
  exists 2%nat, [RtoC 1; RtoC 2], [1; 1], [RtoC 1], [1].
  repeat match goal with |- _ /\ _ => split end; auto.
  - intros p Hp Ez. rewrite Ez in Hp. simpl in Hp.
    destruct Hp as [H|[H|[H|[]]]]; apply (f_equal fst) in H; simpl in H; lra.
  - unfold concatenate_segments, pseg, packed. cbn [fst app length repeat Nat.sub map]. unfold first_zero. cbn [map].
    rewrite !Cmod_R. unfold iszero. rewrite !Rabs_pos_eq by lra.
    destruct (Reqb_spec 1 0); [lra|]. destruct (Reqb_spec 2 0); [lra|].
    unfold argmax_bool. cbn [find_true option_map]. unfold roll_seg, roll, add_seg. simpl.
    intros [H|[H|[]]]; apply (f_equal fst) in H; simpl in H; lra.
Qed.

(** a sampled image exactly at the origin hides the rest of its segment *)
Lemma concat_origin : exists n p1 r1 p2 r2, length r1 = length p1 /\ length r2 = length p2 /\
  (length p1 + length p2 <= n)%nat /\
  ~ In (nth 2 p1 (RtoC 0)) (fst (concatenate_segments (pseg n p1 r1) (pseg n p2 r2))).
Proof.
  exists 5%nat, [RtoC 1; RtoC 0; RtoC 2], [1; 1; 1], [RtoC 1; RtoC 1], [1; 1].
  repeat match goal with |- _ /\ _ => split end; auto.
  unfold concatenate_segments, pseg, packed. cbn [fst app length repeat Nat.sub map nth]. unfold first_zero. cbn [map].
  rewrite !Cmod_R. unfold iszero. rewrite (Rabs_pos_eq 1), (Rabs_pos_eq 2), Rabs_R0 by lra.
  destruct (Reqb_spec 1 0); [lra|]. destruct (Reqb_spec 2 0); [lra|]. rewrite Reqb_refl.
  unfold argmax_bool. cbn [find_true option_map]. unfold roll_seg, roll, add_seg. simpl.
  intros [H|[H|[H|[H|[H|[]]]]]]; apply (f_equal fst) in H; simpl in H; lra.
Qed.
