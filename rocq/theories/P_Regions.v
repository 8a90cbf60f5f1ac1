(** Proofs about M_MergeArea: [define_regions] from end to end. *)
From Coq Require Import Reals List Bool Arith ZArith Lia Lra Psatz Permutation Sorted.
From Coquelicot Require Import Complex.
From Verif Require Import Base_R Base_List Base_C M_Utils P_Utils M_PointSource M_Limb M_MergeArea S_MergeArea M_ExtSource P_ExtSource P_MergeArea P_MergeRows P_Parallax.
Import ListNotations.
Local Open Scope R_scope.

(** ** sorting by a boolean key is a stable partition *)
Lemma sinsert_key {A} (key : A -> bool) x (l1 l2 : list A) : Forall (fun a => key a = false) l1 -> Forall (fun a => key a = true) l2 ->
  sinsert (fun a b => implb (key a) (key b)) x (l1 ++ l2) = if key x then l1 ++ x :: l2 else x :: l1 ++ l2.
Proof.
  intros H1 H2. destruct (key x) eqn:K.
  - induction H1 as [|a l1 Ha H1 IH]; cbn [app sinsert].
    + destruct H2 as [|b l2 Hb H2]; cbn [sinsert]; [reflexivity|]. rewrite K, Hb. reflexivity.
    + rewrite K, Ha. cbn [implb]. rewrite IH. reflexivity.
  - destruct (l1 ++ l2) as [|b l]; cbn [sinsert]; [reflexivity|]. rewrite K. reflexivity.
Qed.
Lemma sort_by_partition {A} (key : A -> bool) l : sort_by key l = filter (fun a => negb (key a)) l ++ filter key l.
Proof.
  unfold sort_by. induction l as [|x t IH]; cbn [ssort filter]; [reflexivity|]. rewrite IH, sinsert_key.
  - destruct (key x); reflexivity.
  - apply Forall_forall. intros a Ha. apply filter_In in Ha. destruct (key a); intuition.
  - apply Forall_forall. intros a Ha. apply filter_In in Ha. tauto.
Qed.
Lemma firstn_sorted {A} (key : A -> bool) l x n : In x l -> key x = false -> (length (filter (fun a => negb (key a)) l) <= n)%nat -> In x (firstn n (sort_by key l)).
Proof.
  intros Hx K Hn. rewrite sort_by_partition, firstn_app. apply in_or_app. left. rewrite firstn_all2 by auto. apply filter_In. rewrite K. auto.
Qed.
(** a relation that tells the elements of a list apart bounds its length *)
Lemma rel_count {A B} (Rel : A -> B -> Prop) (l : list A) (G : list B) : NoDup l -> (forall a, In a l -> exists b, In b G /\ Rel a b) ->
  (forall a a' b, In a l -> In a' l -> Rel a b -> Rel a' b -> a = a') -> (length l <= length G)%nat.
Proof.
  intros ND. revert G. induction ND as [|a l Ha ND IH]; intros G HT HI; [simpl; lia|]. destruct (HT a (or_introl eq_refl)) as (b & Hb & Rb).
  apply in_split in Hb as (G1 & G2 & ->). rewrite app_length. cbn [length]. rewrite Nat.add_succ_r, <- app_length. apply le_n_S, IH.
  - intros a' Ha'. destruct (HT a' (or_intror Ha')) as (b' & Hb' & Rb'). exists b'. split; auto. apply in_app_or in Hb' as [|[<-|]]; [apply in_or_app; auto| |apply in_or_app; auto].
    exfalso. apply Ha. rewrite (HI a a' b); simpl; auto.
  - intros x y c Hx Hy. apply HI; simpl; auto.
Qed.

(** ** groups of [cluster_1d] *)
Section Cluster.
Variables (arr : list R) (bins mc : nat) (mode_r : bool) (lo hi : R).
Hypothesis Hb : (1 <= bins)%nat.
Hypothesis Hr : bin_range mode_r arr = Some (lo, hi).
Hypothesis Hl : 0 <= lo <= hi.
Notation m := (occb lo hi bins arr).
Notation sb := (startb lo hi bins arr).
Notation eb := (endb lo hi bins arr).
Notation grp := (group lo hi bins arr).
Notation bl := (bin_left lo hi bins).
Lemma occb_iff k : m k = true <-> occupied lo hi bins arr k.
Proof. apply occb_occupied; auto. lra. Qed.
Lemma occb_not k : m k = false <-> ~ occupied lo hi bins arr k.
Proof. rewrite <- occb_iff. destruct (m k); split; congruence. Qed.
Lemma group_starts s e : grp s e -> sb (s - 1) = true /\ eb e = true /\ cnt eb e = cnt sb (s - 1).
Proof.
  intros (G1 & G2 & G3 & G4 & G5). assert (M : forall i, (s - 1 < i <= e)%nat -> m i = true) by (intros i Hi; apply occb_iff, G3; lia). apply occb_not in G4. apply occb_not in G5. rewrite Nat.add_1_r in G5.
  unfold startb, endb, isstart, isend. rewrite G4, G5, !M by lia. repeat split; auto. apply (run_rank m); auto; try lia. apply (m_0 arr bins lo hi Hb).
Qed.
Lemma start_group k : (k < bins + 1)%nat -> sb k = true -> exists e, grp (S k) e.
Proof.
  intros Hk H. unfold startb, isstart in H. apply andb_prop in H as [H1 H2]. apply negb_true_iff in H2. destruct (run_of arr bins lo hi Hb (S k) H1) as (k0 & k1 & R1 & R2 & R3 & R4 & R5 & R6).
  assert (k0 = k) by (destruct (Nat.eq_dec k0 k); auto; rewrite R6 in H2 by lia; discriminate). subst k0. exists k1. repeat split; try lia.
  - intros j Hj. apply occb_iff, R6. lia.
  - replace (S k - 1)%nat with k by lia. apply occb_not, H2.
  - unfold endb, isend in R4. apply andb_prop in R4 as [R4 _]. apply negb_true_iff in R4. rewrite Nat.add_1_r. apply occb_not, R4.
Qed.
Lemma group_end_unique s e e' : grp s e -> grp s e' -> e = e'.
Proof.
  intros (A1 & A2 & A3 & A4 & A5) (B1 & B2 & B3 & B4 & B5). destruct (Nat.lt_trichotomy e e') as [H|[H|H]]; auto; exfalso.
  - apply A5, B3. lia.
  - apply B5, A3. lia.
Qed.
Lemma group_apart s e s' e' : grp s e -> grp s' e' -> (s < s')%nat -> (e + 1 < s')%nat.
Proof.
  intros (A1 & A2 & A3 & A4 & A5) (B1 & B2 & B3 & B4 & B5) H. destruct (Nat.lt_ge_cases (e + 1) s') as [|Q]; auto. exfalso. apply B4, A3. lia.
Qed.
Lemma group_same s e s' e' j : grp s e -> grp s' e' -> (s <= j <= e)%nat -> (s' <= j <= e')%nat -> s = s' /\ e = e'.
Proof.
  intros G G' H H'. assert (s = s').
  { destruct (Nat.lt_trichotomy s s') as [Q|[Q|Q]]; auto; [pose proof (group_apart _ _ _ _ G G' Q)|pose proof (group_apart _ _ _ _ G' G Q)]; lia. }
  subst s'. split; auto. eapply group_end_unique; eauto.
Qed.
Definition span (s e : nat) : ival := (bl s, bl (e + 1)).
Lemma groups_exist x : In x arr -> exists s e, in_group lo hi bins arr x s e.
Proof.
  intros Hx. set (j := bidx lo hi bins x). assert (B : in_bin lo hi bins x j) by (apply bidx_in_bin; auto; lra). assert (Hj : m j = true) by (apply occb_iff; exists x; auto).
  destruct (run_of arr bins lo hi Hb j Hj) as (k0 & k1 & R1 & R2 & R3 & R4 & R5 & R6). exists (S k0), k1. split; [|exists j; split; auto; lia].
  unfold startb, isstart in R3. apply andb_prop in R3 as [_ R3]. apply negb_true_iff in R3. unfold endb, isend in R4. apply andb_prop in R4 as [R4 _]. apply negb_true_iff in R4.
  repeat split; try lia. intros i Hi; apply occb_iff, R6; lia. replace (S k0 - 1)%nat with k0 by lia. apply occb_not, R3. rewrite Nat.add_1_r. apply occb_not, R4.
Qed.
Lemma in_group_unique x s e s' e' : in_group lo hi bins arr x s e -> in_group lo hi bins arr x s' e' -> s = s' /\ e = e'.
Proof.
  intros (G & j & Hj & B) (G' & j' & Hj' & B'). apply bidx_in_bin in B; auto; [|lra]. apply bidx_in_bin in B'; auto; [|lra]. apply (group_same _ _ _ _ j G G' Hj). lia.
Qed.
(** the list of ranges: padding, then the groups in order *)
Definition rows : list ival := combine (skipn (bins + 1 - mc) (padded lo hi bins sb)) (skipn (bins + 1 - mc) (padded lo hi bins eb)).
Lemma rows_nth i : (i < Nat.min mc (bins + 1))%nat -> let p := (bins + 1 - mc + i)%nat in
  ((p < bins + 1 - cnt sb (bins + 1))%nat /\ nth i rows (0, 0) = (0, 0)) \/
  exists s e, grp s e /\ (bins + 1 - cnt sb (bins + 1) + cnt sb (s - 1) = p)%nat /\ nth i rows (0, 0) = span s e.
Proof.
  intros Hi p. pose proof (same_count arr bins lo hi Hb) as SC. unfold rows, ival. rewrite combine_nth by (rewrite !skipn_length, !padded_length; lia). rewrite !nth_skipn. fold p.
  destruct (Nat.lt_ge_cases p (bins + 1 - cnt sb (bins + 1))) as [Q|Q].
  - left. split; auto. unfold padded. rewrite !app_nth1 by (rewrite repeat_length; lia). rewrite !nth_repeat. reflexivity.
  - right. set (r := (p - (bins + 1 - cnt sb (bins + 1)))%nat). destruct (nth_error (filter sb (seq 0 (bins + 1))) r) as [k0|] eqn:Q0.
    2:{ apply nth_error_None in Q0. fold (cnt sb (bins + 1)) in Q0. pose proof (cnt_le sb (bins + 1)). unfold r, p in *. lia. }
    destruct (cnt_nth _ _ _ _ Q0) as (A1 & A2 & A3). destruct (start_group k0 A1 A2) as (e & G). exists (S k0), e. destruct (group_starts _ _ G) as (S1 & S2 & S3). replace (S k0 - 1)%nat with k0 in * by lia.
    split; auto. split; [unfold r in A3; lia|]. replace p with (bins + 1 - cnt sb (bins + 1) + cnt sb k0)%nat by (unfold r in A3; lia). rewrite padded_nth by auto. rewrite SC, <- S3.
    destruct G as (G1 & G2 & _). rewrite padded_nth by (auto; lia). unfold span. rewrite Nat.add_1_r. reflexivity.
Qed.
Lemma rows_length : length rows = Nat.min mc (bins + 1).
Proof. unfold rows, ival. rewrite combine_length, !skipn_length, !padded_length. lia. Qed.
Lemma cluster_rows : exists starts ends, cluster_1d arr bins mc mode_r = Some (starts, ends) /\ combine starts ends = rows.
Proof. rewrite (cluster_eq arr bins mc mode_r lo hi) by auto. eexists. eexists. split; reflexivity. Qed.
Lemma rows_in g : In g rows -> g = (0, 0) \/ exists s e, grp s e /\ g = span s e.
Proof.
  intros H. apply In_nth with (d := (0, 0)) in H as (i & Hi & <-). rewrite rows_length in Hi. destruct (rows_nth i Hi) as [[_ E]|(s & e & G & _ & E)]; auto. right. exists s, e. auto.
Qed.
Lemma group_in_rows s e : (cnt sb (bins + 1) <= mc)%nat -> grp s e -> In (span s e) rows.
Proof.
  intros Hc G. destruct (group_starts _ _ G) as (S1 & S2 & S3). pose proof G as (G1 & G2 & _). assert (Hk : (cnt sb (s - 1) < cnt sb (bins + 1))%nat).
  { assert (K : (cnt sb (S (s - 1)) <= cnt sb (bins + 1))%nat) by (apply cnt_mono; lia). rewrite cnt_S, S1 in K. lia. }
  pose proof (cnt_le sb (bins + 1)). set (i := (bins + 1 - cnt sb (bins + 1) + cnt sb (s - 1) - (bins + 1 - mc))%nat). assert (Hi : (i < Nat.min mc (bins + 1))%nat) by (unfold i; lia).
  destruct (rows_nth i Hi) as [[Q _]|(s' & e' & G' & Q & E)]; [unfold i in Q; lia|]. assert (C : cnt sb (s' - 1) = cnt sb (s - 1)) by (unfold i in Q; lia).
  destruct (group_starts _ _ G') as (S1' & _). pose proof G' as (G1' & G2' & _). assert (s' = s).
  { assert (W : forall a b, (a < b)%nat -> sb a = true -> (cnt sb a < cnt sb b)%nat). { intros a b Hab Ha. assert (K : (cnt sb (S a) <= cnt sb b)%nat) by (apply cnt_mono; lia). rewrite cnt_S, Ha in K. lia. }
    destruct (Nat.lt_trichotomy (s' - 1) (s - 1)) as [K|[K|K]]; [apply (W _ _ K) in S1'; lia|lia|apply (W _ _ K) in S1; lia]. }
  subst s'. rewrite (group_end_unique _ _ _ G G'). rewrite <- E. apply nth_In. rewrite rows_length. auto.
Qed.
Lemma bl_mono i j : (i <= j)%nat -> bl i <= bl j.
Proof. apply bin_left_mono; auto. lra. Qed.
Lemma bl_pos j : (1 <= j)%nat -> 0 <= bl j.
Proof. intros H. pose proof (bl_mono 1 j H) as M. rewrite bin_left_1 in M. lra. Qed.
Lemma rows_sorted : StronglySorted (fun a b => snd a <= fst b) rows.
Proof.
  assert (W : forall l : list ival, (forall i j, (i < j < length l)%nat -> snd (nth i l (0, 0)) <= fst (nth j l (0, 0))) -> StronglySorted (fun a b => snd a <= fst b) l).
  { induction l as [|a l IH]; intros H; constructor.
    - apply IH. intros i j Hij. apply (H (S i) (S j)). simpl. lia.
    - apply Forall_forall. intros b Hb'. apply In_nth with (d := (0, 0)) in Hb' as (k & Hk & <-). apply (H O (S k)). simpl. lia. }
  apply W. rewrite rows_length. intros i j Hij. destruct (rows_nth i ltac:(lia)) as [[Q1 E1]|(s & e & G & Q1 & E1)], (rows_nth j ltac:(lia)) as [[Q2 E2]|(s' & e' & G' & Q2 & E2)]; rewrite E1, E2; cbn [span fst snd].
  - lra.
  - apply bl_pos. destruct G'. lia.
  - exfalso. lia.
  - apply bl_mono. destruct (group_starts _ _ G) as (S1 & _). destruct (group_starts _ _ G') as (S1' & _). assert (s < s')%nat.
    { destruct (Nat.lt_ge_cases s s') as [|K]; auto. exfalso. assert (cnt sb (s' - 1) <= cnt sb (s - 1))%nat by (apply cnt_mono; lia). lia. }
    pose proof (group_apart _ _ _ _ G G' H). lia.
Qed.
(** a value strictly inside the span of a group belongs to it *)
Lemma inside_span x s e : lo <= x <= hi -> grp s e -> bl s < x < bl (e + 1) -> In x arr -> in_group lo hi bins arr x s e.
Proof.
  intros Hx G H Hin. destruct (groups_exist x Hin) as (s' & e' & G' & j & Hj & B). pose proof B as B0. apply bidx_in_bin in B; auto; [|lra]. pose proof (bidx_cover lo hi bins x Hx Hb) as C. rewrite B in C.
  assert (K : (s <= j <= e)%nat). { split; apply Nat.nlt_ge; intros Q; [pose proof (bl_mono (j + 1) s ltac:(lia))|pose proof (bl_mono (e + 1) j ltac:(lia))]; lra. }
  split; auto. exists j. auto.
Qed.
End Cluster.

(** ** lists of ranges *)
Lemma SS_of_nth {A} (Rel : A -> A -> Prop) (d : A) (l : list A) : (forall i j, (i < j < length l)%nat -> Rel (nth i l d) (nth j l d)) -> StronglySorted Rel l.
Proof.
  induction l as [|a l IH]; intros H; constructor.
  - apply IH. intros i j Hij. apply (H (S i) (S j)). simpl. lia.
  - apply Forall_forall. intros b Hb'. apply In_nth with (d := d) in Hb' as (k & Hk & <-). apply (H O (S k)). simpl. lia.
Qed.
Definition proper (a : ival) : bool := Rltb (fst a) (snd a).
Lemma proper_nodup (l : list ival) : StronglySorted (fun a b => a = (0, 0) \/ b = (0, 0) \/ snd a <= fst b) l -> NoDup (filter proper l).
Proof.
  induction 1 as [|a l H IH Hf]; cbn [filter]; [constructor|]. destruct (proper a) eqn:P; auto. unfold proper in P. apply Rltb_true in P. constructor; auto.
  intros Q. apply filter_In in Q as [Q _]. rewrite Forall_forall in Hf. destruct (Hf a Q) as [->|[->|Q']]; simpl in P; lra.
Qed.
Lemma pairs_nodup {A B} (la : list A) (lb : list B) (f : A * B -> bool) (p : A -> bool) (q : B -> bool) :
  (forall a b, f (a, b) = true -> p a = true /\ q b = true) -> NoDup (filter p la) -> NoDup (filter q lb) -> NoDup (filter f (flat_map (fun a => map (fun b => (a, b)) lb) la)).
Proof.
  intros Hf Ha Hb. assert (E : filter f (flat_map (fun a => map (fun b => (a, b)) lb) la) = filter f (flat_map (fun a => map (fun b => (a, b)) (filter q lb)) (filter p la))).
  { assert (E1 : forall a, filter f (map (fun b => (a, b)) (filter q lb)) = filter f (map (fun b => (a, b)) lb)).
    { intros a. induction lb as [|b l IH]; cbn [filter map]; auto. assert (IH' := IH ltac:(cbn [filter] in Hb; destruct (q b); [inversion Hb|]; auto)). destruct (q b) eqn:Q; cbn [filter map].
      - rewrite IH'. reflexivity.
      - destruct (f (a, b)) eqn:F; [|exact IH']. apply Hf in F as [_ F]. congruence. }
    clear Ha Hb. induction la as [|a l IH]; cbn [filter flat_map]; auto. rewrite filter_app, IH. destruct (p a) eqn:P; cbn [flat_map].
    - rewrite filter_app, E1. reflexivity.
    - assert (Z : filter f (map (fun b => (a, b)) lb) = []). { clear E1 IH. induction lb as [|b t IH]; cbn [filter map]; auto. destruct (f (a, b)) eqn:F; auto. apply Hf in F as [F _]. congruence. }
      rewrite Z. reflexivity. }
  rewrite E. apply NoDup_filter. clear E Hf. induction Ha as [|a l Hn Ha IH]; cbn [flat_map]; [constructor|].
  assert (D : forall (X Y : list (A * B)), NoDup X -> NoDup Y -> (forall x, In x X -> ~ In x Y) -> NoDup (X ++ Y)).
  { induction X as [|x X IHX]; intros Y HX HY HXY; cbn [app]; auto. inversion HX; subst. constructor; [|apply IHX; auto; intros; apply HXY; simpl; auto]. intros Q. apply in_app_or in Q as [Q|Q]; [auto|]. apply (HXY x); simpl; auto. }
  apply D; auto.
  - apply FinFun.Injective_map_NoDup; auto. intros x y Q. congruence.
  - intros x Hx Q. apply in_map_iff in Hx as (b & <- & _). apply in_flat_map in Q as (a' & Ha' & Q). apply in_map_iff in Q as (b' & Q & _). injection Q as -> _. auto.
Qed.

(** ** the merged radial rows *)
Section Radial.
Variables (r_limb : list R) (bins mc : nat) (lo hi margin : R).
Hypothesis Hb : (1 <= bins)%nat.
Hypothesis HS : sample_range r_limb lo hi.
Hypothesis Hlo : 0 < lo.
Hypothesis Hc : groups_at_most lo hi bins r_limb mc.
Hypothesis Hnn : forall r, In r r_limb -> 0 <= r.
Hypothesis Hm : 0 <= margin.
Hypothesis Hnear : forall r, In r r_limb -> r <> 0 -> exists s e r0, in_group lo hi bins r_limb r s e /\ In r0 r_limb /\ inside_group lo hi bins r_limb r0 s e /\ Rabs (r - r0) < margin.
Let Hr : bin_range true r_limb = Some (lo, hi) := bin_range_r _ _ _ HS.
Lemma lohi : 0 <= lo <= hi.
Proof. destruct HS as (H1 & H2 & H3 & H4 & H5). split; [lra|]. apply (H5 hi H3 H4). Qed.
Notation ranges := (rows r_limb bins mc lo hi).
Notation merged := (refine_addmargin_merge_r r_limb ranges margin).
Lemma ranges_good : good_ranges r_limb ranges.
Proof.
  pose proof lohi as Hl. split; [apply (rows_sorted r_limb bins mc lo hi Hb Hl)|]. intros g Hg. destruct (rows_in r_limb bins mc lo hi Hb Hl g Hg) as [|(s & e & G & ->)]; auto. right. cbn [span fst snd]. split; [apply bl_pos; auto; destruct G; lia|].
  assert (X : exists x, In x r_limb /\ x <> 0 /\ in_group lo hi bins r_limb x s e).
  { pose proof G as (G1 & G2 & G3 & _). destruct (G3 s ltac:(lia)) as (x & Hx & Bx). destruct (Req_dec x 0) as [->|N]; [|exists x; split; auto; split; auto; split; auto; exists s; split; auto; lia].
    destruct Bx as (B1 & [B2|B2] & B3); cycle 1. { pose proof (bin_left_mono lo hi bins 1 s ltac:(lra) Hb ltac:(lia)) as M. rewrite bin_left_1 in M. lra. }
    subst s. assert (S1 : In lo r_limb) by apply HS. assert (S2 : lo <> 0) by apply HS. exists lo. split; auto. split; auto. split; auto. exists 1%nat. split; [lia|]. split; [lia|]. split; auto.
    destruct (Hnear lo S1 S2) as (s' & e' & r0 & _ & _ & (_ & Hin) & _). destruct (Rle_lt_or_eq_dec lo hi ltac:(lra)) as [L|E].
    - right. unfold bin_left. simpl (INR (1 + 1)). assert (0 < (hi - lo) / INR bins) by (apply Rdiv_lt_0_compat; [lra|apply lt_0_INR; lia]). lra.
    - exfalso. unfold bin_left in Hin. rewrite <- E, Rminus_eq_0 in Hin. unfold Rdiv in Hin. rewrite Rmult_0_l, !Rmult_0_r in Hin. lra. }
  destruct X as (x & Hx & Nx & Gx). destruct (Hnear x Hx Nx) as (s' & e' & r0 & Gx' & H0 & (_ & H1) & _). destruct (in_group_unique r_limb bins lo hi Hb Hl x _ _ _ _ Gx Gx') as [-> ->]. exists r0. auto.
Qed.
Lemma row_exists s e : group lo hi bins r_limb s e -> exists row, In row merged /\ 0 <= fst row /\ forall r, In r r_limb -> r <> 0 -> in_group lo hi bins r_limb r s e -> fst row < r < snd row.
Proof.
  intros G. pose proof lohi as Hl. pose proof ranges_good as GR. pose proof (good_rows_sorted _ _ _ Hm GR) as SS. pose proof (group_in_rows r_limb bins mc lo hi Hb Hl s e (groups_count r_limb bins mc lo hi Hb Hl Hc) G) as I.
  assert (X : exists row, In row merged /\ fst row <= fst (refine_r r_limb margin (span bins lo hi s e)) /\ snd (refine_r r_limb margin (span bins lo hi s e)) <= snd row).
  { unfold refine_addmargin_merge_r. destruct ranges as [|c t] eqn:Q; [easy|]. replace (length (c :: t)) with (length (map (refine_r r_limb margin) (c :: t))) by apply map_length. cbn [map] in *. rewrite merge_rows_go. apply merge_go_covers; auto.
    exists (refine_r r_limb margin (span bins lo hi s e)). split; [apply (in_map (refine_r r_limb margin)) in I; exact I|]. lra. }
  destruct X as (row & R1 & R2 & R3). exists row. split; auto. split.
  - unfold refine_addmargin_merge_r in R1. destruct ranges as [|c t] eqn:Q; [easy|]. replace (length (c :: t)) with (length (map (refine_r r_limb margin) (c :: t))) in R1 by apply map_length. cbn [map] in R1. rewrite merge_rows_go in R1.
    destruct (merge_go_in _ _ _ R1) as [->|(a & Ha & <-)]; [simpl; lra|]. change (refine_r r_limb margin c :: map (refine_r r_limb margin) t) with (map (refine_r r_limb margin) (c :: t)) in Ha. apply in_map_iff in Ha as (g & <- & _). unfold refine_r. cbn [fst]. apply Rmax_l.
  - intros r Hin Hnz Gr. destruct (Hnear r Hin Hnz) as (s' & e' & r0 & Gr' & H0 & (H1 & H2) & H3). destruct (in_group_unique r_limb bins lo hi Hb Hl r _ _ _ _ Gr Gr') as [-> ->].
    assert (P0 : 0 < r0). { destruct G as (G1 & _). pose proof (bl_pos bins lo hi Hb Hl s' ltac:(lia)). lra. }
    pose proof (Hnn r Hin) as Pr. destruct (refine_r_in r_limb margin (span bins lo hi s' e') r0 Hm H0 H2 P0) as [A B]. apply Rabs_def2 in H3.
    split; [|lra]. eapply Rle_lt_trans; [exact R2|]. eapply Rle_lt_trans; [exact A|]. apply Rmax_lub_lt; lra.
Qed.
Lemma merged_sorted : StronglySorted (fun a b => a = (0, 0) \/ b = (0, 0) \/ snd a <= fst b) merged.
Proof. apply (SS_of_nth _ (0, 0)). exact (merge_r_disjoint r_limb ranges margin Hm ranges_good). Qed.
Lemma row_unique row row' r : In row merged -> In row' merged -> fst row < r < snd row -> fst row' < r < snd row' -> row = row'.
Proof.
  intros I I' H H'. apply In_nth with (d := (0, 0)) in I as (i & Hi & <-). apply In_nth with (d := (0, 0)) in I' as (j & Hj & <-). pose proof (merge_r_disjoint r_limb ranges margin Hm ranges_good) as D. cbv zeta in D.
  destruct (Nat.lt_trichotomy i j) as [Q|[->|Q]]; auto; exfalso; [destruct (D i j ltac:(lia)) as [E|[E|E]]|destruct (D j i ltac:(lia)) as [E|[E|E]]]; try rewrite E in *; simpl in *; lra.
Qed.
End Radial.

(** ** the wrap-around merge *)
Definition zz : region := ((0, 0), (0, 0)).
Lemma sumR_zero {A} (f : A -> R) l : (forall b, In b l -> f b = 0) -> sumR (map f l) = 0.
Proof. induction l as [|x l IH]; intros H; cbn [map sumR]; auto. rewrite (H x) by (simpl; auto). rewrite IH by (intros; apply H; simpl; auto). ring. Qed.
Lemma sumR_once {A} (f : A -> R) g l : NoDup l -> In g l -> (forall b, In b l -> b <> g -> f b = 0) -> sumR (map f l) = f g.
Proof.
  induction 1 as [|x l Hx ND IH]; [easy|]. intros [<-|Hg] H; cbn [map sumR].
  - rewrite sumR_zero; [ring|]. intros b Hb. apply H; simpl; auto. intros ->. auto.
  - rewrite (H x) by (simpl; auto; intros ->; auto). rewrite IH by (auto; intros; apply H; simpl; auto). ring.
Qed.
Lemma sumR_nonpos {A} (f : A -> R) l : (forall b, In b l -> f b <= 0) -> sumR (map f l) <= 0.
Proof. induction l as [|x l IH]; intros H; cbn [map sumR]; [lra|]. pose proof (H x (or_introl eq_refl)). assert (sumR (map f l) <= 0) by (apply IH; intros; apply H; simpl; auto). lra. Qed.
Lemma sumR_app l m : sumR (l ++ m) = sumR l + sumR m.
Proof. induction l as [|x l IH]; cbn [app sumR]; [ring|]. rewrite IH. ring. Qed.
Lemma filter_le {A} (f : A -> bool) l : (length (filter f l) <= length l)%nat.
Proof. induction l as [|x l IH]; cbn [filter length]; auto. destruct (f x); cbn [length]; lia. Qed.
Section Wrap.
Variables (TP : list region) (K nreal : nat).
Hypothesis ND : NoDup TP.
Hypothesis Hr : forall g, In g TP -> snd (fst g) <> 0.
Hypothesis Hth : forall g, In g TP -> 0 <= fst (snd g) < snd (snd g) /\ snd (snd g) <= 2 * PI.
Hypothesis Hsep : forall g g', In g TP -> In g' TP -> snd g = snd g' \/ snd (snd g) <= fst (snd g') \/ snd (snd g') <= fst (snd g).
Hypothesis Hwrap : forall g, In g TP -> snd (snd g) = 2 * PI -> fst (snd g) <> 0 -> exists g0, In g0 TP /\ fst g0 = fst g /\ fst (snd g0) = 0.
Hypothesis Hn : (length TP <= nreal)%nat.
Let all := TP ++ repeat zz K.
Lemma all_in g : In g all -> In g TP \/ g = zz.
Proof. intros H. apply in_app_or in H as [|H]; auto. right. apply repeat_spec in H. exact H. Qed.
Lemma thmin_le g : In g TP -> merged_th_min all g <= fst (snd g).
Proof.
  intros Hg. pose proof PI_RGT_0. unfold merged_th_min. set (f := fun b : region => if Reqb (fst (snd g)) 0 && same_r g b && Reqb (snd (snd b)) (2 * PI) then fst (snd b) - 2 * PI else 0).
  assert (F : forall b, In b all -> f b <= 0). { intros b Hb. unfold f. destruct (_ && _); [|lra]. destruct (all_in b Hb) as [B| ->]; [destruct (Hth b B)|simpl]; lra. }
  pose proof (sumR_nonpos f all F) as S. destruct (Reqb_spec (sumR (map f all)) 0) as [|N]; [lra|]. destruct (Reqb_spec (fst (snd g)) 0) as [E|E]; [lra|].
  exfalso. apply N, sumR_zero. intros b _. unfold f. destruct (Reqb_spec (fst (snd g)) 0); [contradiction|]. reflexivity.
Qed.
Lemma out_in g : In g TP -> vanishes all g = false -> In (fst g, (merged_th_min all g, snd (snd g))) (firstn nreal (merge_final all)).
Proof.
  intros Hg V. unfold merge_final. apply firstn_sorted.
  - apply in_map_iff. exists g. rewrite V. split; auto. unfold all. apply in_or_app. auto.
  - cbn [fst]. apply Reqb_false, Hr, Hg.
  - eapply Nat.le_trans; [|exact Hn]. set (F := fun a : region => if vanishes all a then (0, 0, (0, 0)) else (fst a, (merged_th_min all a, snd (snd a)))).
    assert (FZ : snd (fst (F zz)) = 0) by (unfold F; destruct (vanishes all zz); reflexivity). clearbody F. unfold all. rewrite map_app, filter_app, app_length.
    assert (Z : forall l : list region, (forall x, In x l -> x = zz) -> filter (fun a : region => negb (Reqb (snd (fst a)) 0)) (map F l) = []).
    { induction l as [|x l IH]; intros H; cbn [map filter]; auto. rewrite (H x) by (simpl; auto). rewrite IH by (intros; apply H; simpl; auto). match goal with |- context [Reqb ?u 0] => replace u with 0 by (symmetry; exact FZ) end. rewrite Reqb_refl. reflexivity. }
    match goal with |- (_ + length ?b <= _)%nat => replace (length b) with O by (symmetry; apply length_zero_iff_nil; exact (Z (repeat zz K) (fun x Hx => repeat_spec _ _ _ Hx))) end. rewrite Nat.add_0_r. eapply Nat.le_trans; [apply filter_le|]. rewrite map_length. lia.
Qed.
Lemma final_covers row a b : In (row, (a, b)) TP ->
  exists g, In g (firstn nreal (merge_final all)) /\ fst g = row /\ ((fst (snd g) <= a /\ snd (snd g) = b) \/ (b = 2 * PI /\ fst (snd g) = a - 2 * PI /\ 0 < snd (snd g))).
Proof.
  intros Hg. pose proof PI_RGT_0. destruct (vanishes all (row, (a, b))) eqn:V.
  - unfold vanishes in V. apply andb_prop in V as [V Eb]. apply Reqb_true in Eb. cbn [fst snd] in Eb. subst b. apply existsb_exists in V as (c & Hc & V). apply andb_prop in V as [V E0]. apply Reqb_true in E0. apply existsb_exists in V as (c' & Hc' & V). apply same_r_true in V as [V1 V2].
    assert (C : In c TP). { destruct (all_in c Hc) as [|E]; auto. subst c. exfalso. destruct (all_in c' Hc') as [C'|E]; [|congruence]. apply (Hr c' C'). rewrite <- V1. reflexivity. }
    assert (C' : In c' TP). { destruct (all_in c' Hc') as [|E]; auto. subst c'. exfalso. apply (Hr c C). rewrite V1. reflexivity. }
    destruct (Hth _ Hg) as [T1 _]. cbn [fst snd] in T1. assert (Na : a <> 0).
    { intros ->. destruct (Hth c C) as [C1 C2]. destruct (Hth c' C') as [C1' C2']. assert (Sc : forall d, In d TP -> snd d = (0, 2 * PI)).
      { intros d Hd. destruct (Hsep d _ Hd Hg) as [E|[E|E]]; auto; cbn [fst snd] in E; destruct (Hth d Hd); lra. }
      apply V2. destruct c as [cr ct], c' as [cr' ct']. cbn [fst] in V1. subst cr'. f_equal. pose proof (Sc _ C) as E1. pose proof (Sc _ C') as E2. cbn [snd] in E1, E2. congruence. }
    destruct (Hwrap _ Hg eq_refl Na) as (g0 & G0 & G1 & G2). cbn [fst] in G1. destruct (Hth g0 G0) as [G3 G4].
    assert (Ne : snd g0 <> (a, 2 * PI)) by (intros E; rewrite E in G2; cbn [fst] in G2; auto). assert (Lt : snd (snd g0) <= a). { destruct (Hsep g0 _ G0 Hg) as [E|[E|E]]; cbn [fst snd] in E; auto; [contradiction|lra]. }
    assert (V0 : vanishes all g0 = false). { unfold vanishes. apply andb_false_iff. right. apply Reqb_false. lra. }
    exists (fst g0, (merged_th_min all g0, snd (snd g0))). split; [apply out_in; auto|]. cbn [fst snd]. split; auto. right. split; auto. split; [|lra].
    unfold merged_th_min. set (f := fun b : region => if Reqb (fst (snd g0)) 0 && same_r g0 b && Reqb (snd (snd b)) (2 * PI) then fst (snd b) - 2 * PI else 0).
    assert (Fg : f (row, (a, 2 * PI)) = a - 2 * PI). { unfold f. rewrite G2. cbn [fst snd]. rewrite !Reqb_refl. assert (SR : same_r g0 (row, (a, 2 * PI)) = true) by (apply same_r_true; split; auto; intros E; apply Ne; rewrite E; reflexivity). rewrite SR. reflexivity. }
    assert (F : sumR (map f all) = a - 2 * PI).
    { unfold all. rewrite map_app, sumR_app, (sumR_once f (row, (a, 2 * PI)) TP ND Hg), Fg, (sumR_zero f (repeat zz K)); [ring| |].
      - intros d Hd. apply repeat_spec in Hd. subst d. unfold f. destruct (Reqb_spec (snd (snd zz)) (2 * PI)) as [E|]; [cbn [zz snd] in E; lra|]. rewrite andb_false_r. reflexivity.
      - intros d Hd Nd. unfold f. destruct (same_r g0 d) eqn:SR; [|rewrite andb_false_r; reflexivity]. destruct (Reqb_spec (snd (snd d)) (2 * PI)) as [E|]; [|rewrite andb_false_r; reflexivity].
        exfalso. apply Nd. apply same_r_true in SR as [S1 _]. destruct d as [dr dt]. cbn [fst snd] in *. rewrite <- S1, G1. f_equal. destruct (Hsep _ _ Hd Hg) as [Q|[Q|Q]]; cbn [fst snd] in Q; auto; destruct (Hth _ Hd) as [D1 D2]; cbn [fst snd] in D1, D2; lra. }
    rewrite F. destruct (Reqb_spec (a - 2 * PI) 0); [lra|reflexivity].
  - eexists. split; [apply out_in; [exact Hg|exact V]|]. cbn [fst snd]. split; auto. left. split; auto. apply (thmin_le _ Hg).
Qed.
Lemma thmin_cases g : In g TP -> merged_th_min all g = fst (snd g) \/
  (fst (snd g) = 0 /\ exists a, In (fst g, (a, 2 * PI)) TP /\ (fst g, (a, 2 * PI)) <> g /\ merged_th_min all g = a - 2 * PI).
Proof.
  intros Hg. pose proof PI_RGT_0 as HP. unfold merged_th_min. set (f := fun b : region => if Reqb (fst (snd g)) 0 && same_r g b && Reqb (snd (snd b)) (2 * PI) then fst (snd b) - 2 * PI else 0).
  destruct (Reqb_spec (sumR (map f all)) 0) as [|N]; auto. right. destruct (Reqb_spec (fst (snd g)) 0) as [E0|E0]; [|exfalso; apply N, sumR_zero; intros b _; reflexivity]. split; auto.
  assert (X : exists b, In b all /\ f b <> 0).
  { clear - N. induction all as [|b l IH]; cbn [map sumR] in N; [lra|]. destruct (Req_dec (f b) 0) as [Z|Z]; [|exists b; split; [left|]; auto]. destruct IH as (c & C1 & C2); [lra|]. exists c. split; [right|]; auto. }
  destruct X as (b & Hb & Nb). unfold f in Nb. destruct (same_r g b) eqn:SR; [|exfalso; apply Nb; reflexivity]. destruct (Reqb_spec (snd (snd b)) (2 * PI)) as [Eb|Eb]; [|exfalso; apply Nb; reflexivity].
  apply same_r_true in SR as [S1 S2]. destruct (all_in b Hb) as [B| ->]; [|cbn [zz snd] in Eb; lra]. destruct b as [br [ba bb]]. cbn [fst snd] in S1, Eb. subst bb. exists ba. rewrite S1. split; auto. split; [auto|].
  assert (Fb : f (br, (ba, 2 * PI)) = ba - 2 * PI). { unfold f. replace (same_r g (br, (ba, 2 * PI))) with true by (symmetry; apply same_r_true; auto). cbn [fst snd andb]. rewrite Reqb_refl. reflexivity. }
  unfold all. rewrite map_app, sumR_app, (sumR_once f (br, (ba, 2 * PI)) TP ND B), Fb, (sumR_zero f (repeat zz K)); [ring| |].
  - intros d Hd. apply repeat_spec in Hd. subst d. unfold f. destruct (Reqb_spec (snd (snd zz)) (2 * PI)) as [E|]; [cbn [zz snd] in E; lra|]. rewrite andb_false_r. reflexivity.
  - intros d Hd Nd. unfold f. destruct (same_r g d) eqn:SR; [|rewrite andb_false_r; reflexivity]. destruct (Reqb_spec (snd (snd d)) (2 * PI)) as [E|]; [|rewrite andb_false_r; reflexivity].
    exfalso. apply Nd. apply same_r_true in SR as [D1 _]. destruct d as [dr dt]. cbn [fst snd] in *. rewrite <- D1, S1. f_equal. destruct (Hsep _ _ Hd B) as [Q|[Q|Q]]; cbn [fst snd] in Q; auto; destruct (Hth _ Hd) as [T1 T2]; destruct (Hth _ B) as [T3 T4]; cbn [fst snd] in T1, T2, T3, T4; lra.
Qed.
Lemma last_vanishes g : In g TP -> snd (snd g) = 2 * PI -> fst (snd g) <> 0 -> vanishes all g = true.
Proof.
  intros Hg E N. destruct (Hwrap g Hg E N) as (g0 & G1 & G2 & G3). unfold vanishes. rewrite E, Reqb_refl, andb_true_r. apply existsb_exists. exists g0. split; [apply in_or_app; auto|]. rewrite G3, Reqb_refl, andb_true_r. apply existsb_exists. exists g. split; [apply in_or_app; auto|].
  apply same_r_true. split; auto. intros Q. apply N. rewrite <- Q. auto.
Qed.
Lemma merge_zz : (if vanishes all zz then zz else (fst zz, (merged_th_min all zz, snd (snd zz)))) = zz.
Proof.
  destruct (vanishes all zz); auto. unfold zz at 1 3. cbn [fst snd]. replace (merged_th_min all zz) with 0; [reflexivity|]. unfold merged_th_min. rewrite sumR_zero; [rewrite Reqb_refl; reflexivity|].
  intros b Hb. destruct (same_r zz b) eqn:SR; [|rewrite andb_false_r; reflexivity]. exfalso. apply same_r_true in SR as [S1 S2]. destruct (all_in b Hb) as [B| ->]; [|congruence]. apply (Hr b B). rewrite <- S1. reflexivity.
Qed.
(** the rows of the result are distinct: a relation between different regions holds between any two of them *)
Lemma final_pairs (D : region -> region -> Prop) :
  (forall x, D zz x) -> (forall x, D x zz) ->
  (forall x y, In x TP -> In y TP -> x <> y -> vanishes all x = false -> vanishes all y = false ->
     D (fst x, (merged_th_min all x, snd (snd x))) (fst y, (merged_th_min all y, snd (snd y)))) ->
  ForallOrdPairs D (firstn nreal (merge_final all)).
Proof.
  intros D1 D2 DD. set (F := fun a : region => if vanishes all a then zz else (fst a, (merged_th_min all a, snd (snd a)))).
  assert (Ff : forall l n, ForallOrdPairs D l -> ForallOrdPairs D (firstn n l)).
  { intros l n H. revert n. induction H as [|a l Ha H IH]; intros [|n]; cbn [firstn]; try constructor; auto. rewrite Forall_forall in *. intros x Hx. apply Ha. clear - Hx. revert l Hx. induction n as [|n IH]; intros [|b l] Hx; cbn [firstn] in Hx; try easy. destruct Hx as [->|Hx]; [left|right]; auto. }
  assert (FF : forall p l, ForallOrdPairs D l -> ForallOrdPairs D (filter p l)).
  { intros p l H. induction H as [|a l Ha H IH]; cbn [filter]; [constructor|]. destruct (p a); auto. constructor; auto. rewrite Forall_forall in *. intros x Hx. apply filter_In in Hx. apply Ha, Hx. }
  assert (FA : forall l1 l2, ForallOrdPairs D l1 -> ForallOrdPairs D l2 -> (forall x y, In x l1 -> In y l2 -> D x y) -> ForallOrdPairs D (l1 ++ l2)).
  { intros l1 l2 H H2. induction H as [|a l Ha H IH]; intros HX; cbn [app]; auto. constructor; [|apply IH; intros; apply HX; simpl; auto]. rewrite Forall_forall in *. intros x Hx. apply in_app_or in Hx as [Hx|Hx]; auto. apply HX; simpl; auto. }
  assert (FZ : forall l, (forall x : region, In x l -> x = zz) -> ForallOrdPairs D l).
  { induction l as [|x l IH]; intros H; constructor; [apply Forall_forall; intros y _; rewrite (H x (or_introl eq_refl)); apply D1|apply IH; intros; apply H; simpl; auto]. }
  assert (M : ForallOrdPairs D (map F all)).
  { unfold all at 1. rewrite map_app. apply FA.
    - assert (S : forall l, NoDup l -> incl l TP -> ForallOrdPairs D (map F l)).
      { intros l Hl. induction Hl as [|a l Ha Hl IH]; intros I; cbn [map]; constructor; [|apply IH; intros x Hx; apply I; simpl; auto]. apply Forall_forall. intros y Hy. apply in_map_iff in Hy as (b & <- & Hb).
        unfold F. destruct (vanishes all a) eqn:Va; [apply D1|]. destruct (vanishes all b) eqn:Vb; [apply D2|]. apply DD; auto; [apply I; simpl; auto|apply I; simpl; auto|intros ->; auto]. }
      apply S; [exact ND|apply incl_refl].
    - apply FZ. intros x Hx. apply in_map_iff in Hx as (y & <- & Hy). apply repeat_spec in Hy. subst y. apply merge_zz.
    - intros x y _ Hy. apply in_map_iff in Hy as (z & <- & Hz). apply repeat_spec in Hz. subst z. unfold F. rewrite merge_zz. apply D2. }
  unfold merge_final. change (fun a : region => if vanishes all a then (0, 0, (0, 0)) else (fst a, (merged_th_min all a, snd (snd a)))) with F. apply Ff. rewrite sort_by_partition. apply FA; auto.
  intros x y Hx Hy. apply filter_In in Hy as [Hy Ky]. apply Reqb_true in Ky. apply in_map_iff in Hy as (b & <- & Hb). revert Ky. unfold F. destruct (vanishes all b); [intros _; apply D2|]. cbn [fst snd]. intros Ky. destruct (all_in b Hb) as [B| ->]; [exfalso; apply (Hr b B Ky)|].
  pose proof merge_zz as Z. destruct (vanishes all zz) eqn:V; [|rewrite Z; apply D2]. exfalso. unfold vanishes in V. apply andb_prop in V as [_ V]. apply Reqb_true in V. cbn [zz snd] in V. pose proof PI_RGT_0. lra.
Qed.
Lemma final_in g : In g (firstn nreal (merge_final all)) -> g = zz \/ exists x, In x TP /\ vanishes all x = false /\ g = (fst x, (merged_th_min all x, snd (snd x))).
Proof.
  intros H. assert (H' : In g (merge_final all)) by (rewrite <- (firstn_skipn nreal (merge_final all)); apply in_or_app; auto). unfold merge_final in H'. apply sort_by_in in H'. apply in_map_iff in H' as (b & E & Hb).
  destruct (vanishes all b) eqn:V; [left; auto|]. destruct (all_in b Hb) as [B| ->]; [right; exists b; auto|]. left. pose proof merge_zz as Z. rewrite V in Z. congruence.
Qed.
End Wrap.

(** ** the pairs of ranges *)
Lemma combine_fst_snd {A B} (l : list (A * B)) : combine (map fst l) (map snd l) = l.
Proof. induction l as [|[a b] l IH]; cbn; congruence. Qed.
Lemma in_mask_iff limb rg tg : in_mask (map fst limb) (map snd limb) rg tg = true <-> exists r t, In (r, t) limb /\ fst rg < r < snd rg /\ fst tg < t < snd tg.
Proof.
  unfold in_mask. rewrite combine_fst_snd, existsb_exists. split.
  - intros ([r t] & H & Q). rewrite !andb_true_iff, !Rltb_true in Q. exists r, t. cbn [fst snd] in Q. intuition.
  - intros (r & t & H & Q1 & Q2). exists (r, t). split; auto. rewrite !andb_true_iff, !Rltb_true. cbn [fst snd]. intuition.
Qed.
Lemma masked_partition {A} (F : A -> ival) (mask : A -> bool) (l : list A) : (forall g, In g l -> mask g = true -> isclose (snd (F g)) 0 = false) ->
  sort_by (fun rg : ival => isclose (snd rg) 0) (map (fun g => (fst (F g) * b2R (mask g), snd (F g) * b2R (mask g))) l) = map F (filter mask l) ++ repeat (0, 0) (length (filter (fun g => negb (mask g)) l)).
Proof.
  intros H. rewrite sort_by_partition. assert (I0 : isclose 0 0 = true). { unfold isclose. rewrite Rminus_eq_0, Rabs_R0. apply Rleb_true. lra. }
  f_equal.
  - induction l as [|g l IH]; cbn [map filter]; auto. specialize (IH ltac:(intros; apply H; simpl; auto)). destruct (mask g) eqn:M; cbn [b2R snd map].
    + rewrite !Rmult_1_r. rewrite (H g (or_introl eq_refl) M). cbn [negb]. rewrite IH. destruct (F g); reflexivity.
    + rewrite !Rmult_0_r, I0. cbn [negb]. exact IH.
  - induction l as [|g l IH]; cbn [map filter]; auto. specialize (IH ltac:(intros; apply H; simpl; auto)). destruct (mask g) eqn:M; cbn [b2R snd negb].
    + rewrite !Rmult_1_r. rewrite (H g (or_introl eq_refl) M). exact IH.
    + rewrite !Rmult_0_r, I0. cbn [length repeat]. rewrite IH. reflexivity.
Qed.
Lemma firstn_rep {A} (z : A) n : forall k, firstn n (repeat z k) = repeat z (Nat.min n k).
Proof. induction n as [|n IH]; intros [|k]; cbn; auto. f_equal. apply IH. Qed.
Lemma combine_pad (l : list region) (z : ival) k n : (length l <= n)%nat ->
  combine (firstn n (map fst l ++ repeat z k)) (firstn n (map snd l ++ repeat z k)) = l ++ repeat (z, z) (Nat.min k (n - length l)).
Proof.
  intros H. rewrite !firstn_app, !map_length. rewrite (firstn_all2 (map fst l)), (firstn_all2 (map snd l)) by (rewrite map_length; auto). rewrite !firstn_rep. clear H.
  assert (E : forall j, combine (map fst l ++ repeat z j) (map snd l ++ repeat z j) = l ++ repeat (z, z) j).
  { intros j. induction l as [|[a b] l IH]; cbn; [induction j; cbn; congruence|]. f_equal. apply IH. }
  rewrite (Nat.min_comm k). apply E.
Qed.

(** ** how far the last stage can extend a region *)
Lemma refine_region_bounds limb mr mth r_min r_max th_min th_max : 0 <= mth ->
  (forall r t, In (r, t) limb -> r < 1e5 /\ 0 <= t < 2 * PI) ->
  let g := refine_region limb mr mth ((r_min, r_max), (th_min, th_max)) in
  snd (fst g) <= fst (fst g) \/
  (th_min - mth <= fst (snd g) /\ snd (snd g) <= th_max + mth /\
   (fst (fst g) = r_min \/ exists r t, In (r, t) limb /\ r_min < r < r_max /\ r <> 0 /\ fst (fst g) = Rmax 0 (r - mr)) /\
   (snd (fst g) = r_max \/ exists r t, In (r, t) limb /\ r_min < r < r_max /\ r <> 0 /\ snd (fst g) = r + mr)).
Proof.
  intros Hmth HL g. pose proof PI_RGT_0 as HPI. pose proof PI_4 as P4.
  set (flip := Rltb (- PI) th_min && Rltb th_min 0 && Rltb 0 th_max && Rltb th_max PI).
  set (th_new := fun t : R => if flip then if Rltb PI t then t - 2 * PI else t else t).
  set (inside := fun p : R * R => Rltb r_min (fst p) && Rltb (fst p) r_max &&
       (Rltb th_min (th_new (snd p)) && Rltb (th_new (snd p)) th_max && nonzero (th_new (snd p)) && nonzero (fst p))).
  set (rn := jmin (map (fun p => if inside p then fst p else 1e5) limb)).
  set (rx := jmax (map (fun p => if inside p then fst p else 0) limb)).
  set (tn := jmin (map (fun p => if inside p then th_new (snd p) else 1e5) limb)).
  set (tx := jmax (map (fun p => if inside p then th_new (snd p) else -1e5) limb)).
  set (rx' := if Reqb rx 0 then 0 else rx + mr).
  assert (Q : g = if Rltb 0 th_min || flip
    then ((Rmax 0 (rn - mr), rx'), (if Reqb (Rmax 0 (rn - mr)) 0 && Reqb rx' 0 then 0 else tn - mth, if Reqb (Rmax 0 (rn - mr)) 0 && Reqb rx' 0 then 0 else tx + mth))
    else ((r_min, r_max), (if Reqb r_min 0 && Reqb r_max 0 then 0 else th_min - mth, if Reqb r_min 0 && Reqb r_max 0 then 0 else th_max + mth))).
  { unfold g, refine_region. fold flip. destruct (Rltb 0 th_min || flip); reflexivity. }
  rewrite Q. clear Q g. destruct (Rltb 0 th_min || flip) eqn:C; cbn [fst snd]; cycle 1.
  - destruct (Reqb r_min 0 && Reqb r_max 0) eqn:E.
    + left. apply andb_prop in E as [E1 E2]. apply Reqb_true in E1. apply Reqb_true in E2. lra.
    + right. repeat split; auto; lra.
  - destruct (existsb inside limb) eqn:X; cycle 1.
    + left. assert (Z : rx = 0). { unfold rx. destruct limb as [|p l]; [reflexivity|]. set (L := p :: l) in *. destruct (jmax_spec (map (fun p => if inside p then fst p else 0) L)) as [J _]; [discriminate|]. apply in_map_iff in J as (p' & <- & Hp'). destruct (inside p') eqn:I; auto. exfalso. assert (existsb inside L = true) by (apply existsb_exists; eauto). congruence. }
      unfold rx'. rewrite Z, Reqb_refl. apply Rmax_l.
    + apply existsb_exists in X as (p0 & Hp0 & I0).
      assert (IN : forall p, inside p = true -> r_min < fst p < r_max /\ fst p <> 0 /\ th_min < th_new (snd p) < th_max).
      { intros p I. unfold inside, nonzero in I. rewrite !andb_true_iff, !Rltb_true, !negb_true_iff, !Reqb_false in I. tauto. }
      assert (TN : forall p, In p limb -> - 1e5 < th_new (snd p) < 1e5). { intros [r t] Hp. destruct (HL r t Hp) as [_ Ht]. unfold th_new. cbn [snd]. destruct flip; [destruct (Rltb PI t)|]; lra. }
      assert (NE : limb <> []) by (intros E; rewrite E in Hp0; easy).
      assert (NE' : forall f : R * R -> R, map f limb <> []) by (intros f E; apply map_eq_nil in E; auto).
      assert (J1 : exists p, In p limb /\ inside p = true /\ rn = fst p).
      { destruct (jmin_spec _ (NE' (fun p => if inside p then fst p else 1e5))) as [J K]. fold rn in J, K. apply in_map_iff in J as (p & E & Hp). destruct (inside p) eqn:I; [exists p; auto|]. exfalso.
        assert (rn <= fst p0) by (apply K, in_map_iff; exists p0; rewrite I0; auto). destruct p0 as [r0 t0]. destruct (HL _ _ Hp0). simpl in *. lra. }
      assert (J2 : rx' = 0 \/ exists p, In p limb /\ inside p = true /\ rx' = fst p + mr).
      { destruct (jmax_spec _ (NE' (fun p => if inside p then fst p else 0))) as [J _]. fold rx in J. apply in_map_iff in J as (p & E & Hp). unfold rx'. destruct (Reqb_spec rx 0) as [|N]; auto. right. destruct (inside p) eqn:I; [exists p; repeat split; auto; lra|lra]. }
      assert (J3 : th_min < tn).
      { destruct (jmin_spec _ (NE' (fun p => if inside p then th_new (snd p) else 1e5))) as [J K]. fold tn in J, K. apply in_map_iff in J as (p & E & Hp). destruct (inside p) eqn:I; [destruct (IN p I) as (_ & _ & ?); lra|]. exfalso.
        assert (tn <= th_new (snd p0)) by (apply K, in_map_iff; exists p0; rewrite I0; auto). pose proof (TN p0 Hp0). lra. }
      assert (J4 : tx < th_max).
      { destruct (jmax_spec _ (NE' (fun p => if inside p then th_new (snd p) else -1e5))) as [J K]. fold tx in J, K. apply in_map_iff in J as (p & E & Hp). destruct (inside p) eqn:I; [destruct (IN p I) as (_ & _ & ?); lra|]. exfalso.
        assert (th_new (snd p0) <= tx) by (apply K, in_map_iff; exists p0; rewrite I0; auto). pose proof (TN p0 Hp0). lra. }
      destruct J2 as [J2|(p2 & Hp2 & I2 & J2)]; [left; rewrite J2; apply Rmax_l|].
      destruct (Reqb (Rmax 0 (rn - mr)) 0 && Reqb rx' 0) eqn:E; [left; apply andb_prop in E as [E1 E2]; apply Reqb_true in E1; apply Reqb_true in E2; lra|].
      right. split; [lra|]. split; [lra|]. destruct J1 as (p1 & Hp1 & I1 & J1). destruct (IN p1 I1) as (A1 & A2 & _). destruct (IN p2 I2) as (B1 & B2 & _).
      split; right; [exists (fst p1), (snd p1)|exists (fst p2), (snd p2)]; rewrite <- surjective_pairing; repeat split; try tauto; try lra; rewrite J1; reflexivity.
Qed.

(** ** from the limb samples to the regions *)
Lemma bin_left_th bins k : (1 <= bins)%nat -> bin_left 0 (2 * PI) bins k = (INR k - 1) * (2 * PI / INR bins).
Proof. intros _. unfold bin_left, Rdiv. ring. Qed.
Lemma snap_edge bins k : (1 <= bins)%nat -> INR bins <= 10000 -> (1 <= k <= bins + 1)%nat -> snap_th (bin_left 0 (2 * PI) bins k) = bin_left 0 (2 * PI) bins k.
Proof.
  intros Hb Hb' Hk. pose proof PI_RGT_0 as HP. pose proof PI_4 as P4. assert (P3 : 3 <= PI). { pose proof PI2_3_2 as Q. unfold PI2 in Q. lra. }
  assert (Bp : 0 < INR bins) by (apply lt_0_INR; lia). assert (D : 6e-4 <= 2 * PI / INR bins). { apply (Rmult_le_reg_r (INR bins)); auto. replace (2 * PI / INR bins * INR bins) with (2 * PI) by (field; lra). lra. }
  unfold snap_th, isclose. destruct (Nat.eq_dec k 1) as [->|N1].
  - rewrite bin_left_1, Rminus_eq_0, Rabs_R0. destruct (Rleb_spec 0 (1e-8 + 1e-5 * 0)); [|lra]. destruct (Rleb_spec (Rabs (0 - 2 * PI)) (1e-8 + 1e-5 * Rabs (2 * PI))) as [Q|]; auto. rewrite Rabs_left1, Rabs_pos_eq in Q by lra. lra.
  - assert (L : 6e-4 <= bin_left 0 (2 * PI) bins k). { rewrite bin_left_th by auto. assert (2 <= INR k) by (change 2 with (INR 2); apply le_INR; lia). pose proof (Rmult_le_compat_r (2 * PI / INR bins) 1 (INR k - 1) ltac:(lra) ltac:(lra)). lra. }
    set (x := bin_left 0 (2 * PI) bins k) in *. destruct (Rleb_spec (Rabs (x - 0)) (1e-8 + 1e-5 * Rabs 0)) as [Q|_]; [rewrite Rabs_R0, Rabs_pos_eq in Q by lra; lra|].
    destruct (Rleb_spec (Rabs (x - 2 * PI)) (1e-8 + 1e-5 * Rabs (2 * PI))) as [Q|]; auto. destruct (Nat.eq_dec k (bins + 1)) as [->|N2]; [unfold x; rewrite bin_left_last; auto|]. exfalso.
    assert (U : x <= 2 * PI - 6e-4). { pose proof (bin_left_mono 0 (2 * PI) bins k bins ltac:(lra) Hb ltac:(lia)) as M. fold x in M. rewrite bin_left_th in M by auto. replace ((INR bins - 1) * (2 * PI / INR bins)) with (2 * PI - 2 * PI / INR bins) in M by (field; lra). lra. }
    rewrite Rabs_left1, (Rabs_pos_eq (2 * PI)) in Q by lra. lra.
Qed.
Section Main.
Variables (limb : list (R * R)) (rho : R) (bins_r bins_th : nat) (margin_r margin_th : R) (n0 nreal : nat) (lo hi : R).
Let r_limb := map fst limb.
Let th_limb := map snd limb.
Let margin := margin_r * rho.
Hypothesis Hn : (nreal <= n0)%nat.
Hypothesis Hbr : (1 <= bins_r)%nat. Hypothesis Hbt : (1 <= bins_th)%nat. Hypothesis Hbt' : INR bins_th <= 10000.
Hypothesis Hm : 0 < margin. Hypothesis Hmth : 0 <= margin_th.
Hypothesis Hlimb : forall r t, In (r, t) limb -> (r, t) = (0, 0) \/ (1e-8 < r /\ 0 <= t < 2 * PI).
Hypothesis HS : sample_range r_limb lo hi.
Hypothesis Hcr : groups_at_most lo hi bins_r r_limb n0. Hypothesis Hct : groups_at_most 0 (2 * PI) bins_th th_limb n0.
Hypothesis Hnear : forall r, In r r_limb -> r <> 0 -> exists s e r0, in_group lo hi bins_r r_limb r s e /\ In r0 r_limb /\ inside_group lo hi bins_r r_limb r0 s e /\ Rabs (r - r0) < margin.
Hypothesis Hbudget : exists G : list (nat * nat), (length G <= nreal)%nat /\ forall r t s e u v, In (r, t) limb -> r <> 0 -> in_group lo hi bins_r r_limb r s e -> in_group 0 (2 * PI) bins_th th_limb t u v -> In (s, u) G.
Hypothesis Hwrap : forall r t s e u, In (r, t) limb -> r <> 0 -> in_group lo hi bins_r r_limb r s e -> in_group 0 (2 * PI) bins_th th_limb t u bins_th -> (1 < u)%nat ->
  exists r' t' v, In (r', t') limb /\ r' <> 0 /\ in_group lo hi bins_r r_limb r' s e /\ inside_group 0 (2 * PI) bins_th th_limb t' 1 v.
Notation tspan := (span bins_th 0 (2 * PI)).
Lemma lo_pos : 1e-8 < lo.
Proof. destruct HS as (S1 & S2 & _). unfold r_limb in S1. apply in_map_iff in S1 as ([r t] & E & S1). cbn [fst] in E. subst r. destruct (Hlimb _ _ S1) as [E|[H _]]; [injection E; intros; lra|lra]. Qed.
Lemma r_nonneg r : In r r_limb -> 0 <= r.
Proof. unfold r_limb. intros H. apply in_map_iff in H as ([r' t] & <- & H). destruct (Hlimb _ _ H) as [E|[? _]]; [injection E as -> ->; simpl; lra|simpl; lra]. Qed.
Lemma tau : 0 <= 0 <= 2 * PI. Proof. pose proof PI_RGT_0. lra. Qed.
Lemma th_range t : In t th_limb -> 0 <= t < 2 * PI.
Proof. unfold th_limb. intros H. apply in_map_iff in H as ([r t'] & <- & H). pose proof PI_RGT_0. destruct (Hlimb _ _ H) as [E|[_ ?]]; [injection E as -> ->; simpl; lra|simpl; auto]. Qed.
Let rr := refine_addmargin_merge_r r_limb (rows r_limb bins_r n0 lo hi) margin.
Let tt := rows th_limb bins_th n0 0 (2 * PI).
Let mask (g : region) := in_mask r_limb th_limb (fst g) (snd g).
Let pairs : list region := flat_map (fun rg => map (fun tg => (rg, tg)) tt) rr.
Let TP := filter mask pairs.
Lemma TP_in g : In g TP <-> In (fst g) rr /\ In (snd g) tt /\ exists r t, In (r, t) limb /\ fst (fst g) < r < snd (fst g) /\ fst (snd g) < t < snd (snd g).
Proof.
  unfold TP. rewrite filter_In. unfold mask. fold r_limb th_limb. unfold r_limb, th_limb. rewrite in_mask_iff. unfold pairs. rewrite in_flat_map. destruct g as [rg tg]. cbn [fst snd]. split.
  - intros [(rg' & H1 & H2) H3]. apply in_map_iff in H2 as (tg' & E & H2). injection E as -> ->. auto.
  - intros (H1 & H2 & H3). split; auto. exists rg. split; auto. apply in_map_iff. exists tg. auto.
Qed.
Lemma mid_lo : 0 < lo. Proof. pose proof lo_pos. lra. Qed.
Lemma Hm' : 0 <= margin. Proof. lra. Qed.
Lemma tt_in tg t : In tg tt -> fst tg < t < snd tg -> In t th_limb -> exists u v, in_group 0 (2 * PI) bins_th th_limb t u v /\ tg = tspan u v.
Proof.
  intros H Ht Hin. destruct (rows_in th_limb bins_th n0 0 (2 * PI) Hbt tau tg H) as [->|(u & v & G & ->)]; [simpl in Ht; lra|]. exists u, v. split; auto. apply inside_span; auto using tau. pose proof (th_range t Hin). lra.
Qed.
(** a sample strictly inside a pair of ranges determines the groups, and the groups determine the pair *)
Lemma TP_groups g r t : In g TP -> In (r, t) limb -> fst (fst g) < r < snd (fst g) -> fst (snd g) < t < snd (snd g) ->
  r <> 0 -> exists s e u v, in_group lo hi bins_r r_limb r s e /\ in_group 0 (2 * PI) bins_th th_limb t u v /\ snd g = tspan u v /\ forall row, In row rr -> fst row < r < snd row -> row = fst g.
Proof.
  intros Hg Hin H1 H2 Nr. apply TP_in in Hg as (G1 & G2 & _). assert (Ir : In r r_limb) by (apply (in_map fst) in Hin; exact Hin). assert (It : In t th_limb) by (apply (in_map snd) in Hin; exact Hin).
  destruct (groups_exist r_limb bins_r lo hi Hbr (lohi r_limb lo hi HS mid_lo) r Ir) as (s & e & Gs). destruct (tt_in _ _ G2 H2 It) as (u & v & Gu & E). exists s, e, u, v. split; auto. split; auto. split; auto.
  intros row I1 I2. apply (row_unique r_limb bins_r n0 lo hi margin Hbr HS mid_lo Hm' Hnear row (fst g) r); auto.
Qed.
Lemma row_nonneg row : In row rr -> 0 <= fst row.
Proof.
  unfold rr, refine_addmargin_merge_r. intros R1. destruct (rows r_limb bins_r n0 lo hi) as [|c t] eqn:Q; [easy|]. replace (length (c :: t)) with (length (map (refine_r r_limb margin) (c :: t))) in R1 by apply map_length. cbn [map] in R1. rewrite merge_rows_go in R1.
  destruct (merge_go_in _ _ _ R1) as [->|(a & Ha & <-)]; [simpl; lra|]. change (refine_r r_limb margin c :: map (refine_r r_limb margin) t) with (map (refine_r r_limb margin) (c :: t)) in Ha. apply in_map_iff in Ha as (g & <- & _). unfold refine_r. cbn [fst]. apply Rmax_l.
Qed.
Lemma TP_nodup : NoDup TP.
Proof.
  unfold TP, pairs. apply (pairs_nodup rr tt mask proper proper).
  - intros a b H. assert (H' := H). unfold mask, r_limb, th_limb in H'. apply in_mask_iff in H' as (r & t & _ & H1 & H2). unfold proper. cbn [fst snd] in *. rewrite !Rltb_true. lra.
  - apply proper_nodup. apply (merged_sorted r_limb bins_r n0 lo hi margin Hbr HS mid_lo Hm' Hnear).
  - apply proper_nodup. pose proof (rows_sorted th_limb bins_th n0 0 (2 * PI) Hbt tau) as S. fold tt in S. clear - S. induction S; constructor; auto. eapply Forall_impl; [|exact H]. auto.
Qed.
Lemma TP_sample g : In g TP -> exists r t, In (r, t) limb /\ r <> 0 /\ 1e-8 < r /\ fst (fst g) < r < snd (fst g) /\ fst (snd g) < t < snd (snd g).
Proof.
  intros Hg. pose proof Hg as Hg'. apply TP_in in Hg' as (G1 & _ & r & t & H & H1 & H2). pose proof (row_nonneg _ G1). exists r, t. destruct (Hlimb _ _ H) as [E|[E _]]; [injection E; intros; lra|]. repeat split; auto; lra.
Qed.
Lemma TP_count : (length TP <= nreal)%nat.
Proof.
  destruct Hbudget as (G & LG & HG). eapply Nat.le_trans; [|exact LG].
  apply (rel_count (fun g (su : nat * nat) => exists r t e v, In (r, t) limb /\ r <> 0 /\ fst (fst g) < r < snd (fst g) /\ fst (snd g) < t < snd (snd g) /\ in_group lo hi bins_r r_limb r (fst su) e /\ in_group 0 (2 * PI) bins_th th_limb t (snd su) v) TP G TP_nodup).
  - intros g Hg. destruct (TP_sample g Hg) as (r & t & H & N & _ & H1 & H2). destruct (TP_groups g r t Hg H H1 H2 N) as (s & e & u & v & A & B & _). exists (s, u). split; [eapply HG; eauto|]. exists r, t, e, v. auto 10.
  - intros g g' [s u] Hg Hg' (r & t & e & v & H & N & H1 & H2 & A & B) (r' & t' & e' & v' & H' & N' & H1' & H2' & A' & B'). cbn [fst snd] in *.
    destruct (TP_groups g r t Hg H H1 H2 N) as (s1 & e1 & u1 & v1 & A1 & B1 & E1 & U1). destruct (TP_groups g' r' t' Hg' H' H1' H2' N') as (s2 & e2 & u2 & v2 & A2 & B2 & E2 & U2).
    pose proof (lohi r_limb lo hi HS mid_lo) as LH. destruct (in_group_unique r_limb bins_r lo hi Hbr LH _ _ _ _ _ A A1) as [-> ->]. destruct (in_group_unique r_limb bins_r lo hi Hbr LH _ _ _ _ _ A' A2) as [-> ->].
    destruct (in_group_unique th_limb bins_th 0 (2 * PI) Hbt tau _ _ _ _ _ B B1) as [-> ->]. destruct (in_group_unique th_limb bins_th 0 (2 * PI) Hbt tau _ _ _ _ _ B' B2) as [-> ->].
    pose proof (group_end_unique r_limb bins_r lo hi Hbr _ _ _ (proj1 A1) (proj1 A2)) as Ee. subst e2. pose proof (group_end_unique th_limb bins_th 0 (2 * PI) Hbt _ _ _ (proj1 B1) (proj1 B2)) as Ev. subst v2.
    destruct (row_exists r_limb bins_r n0 lo hi margin Hbr HS mid_lo Hcr r_nonneg Hm' Hnear s2 e1 (proj1 A1)) as (row & R1 & _ & R2).
    assert (Ir : In r r_limb) by (apply (in_map fst) in H; exact H). assert (Ir' : In r' r_limb) by (apply (in_map fst) in H'; exact H').
    destruct g as [gr gt], g' as [gr' gt']. cbn [fst snd] in *. rewrite <- (U1 row R1 (R2 r Ir N A1)), <- (U2 row R1 (R2 r' Ir' N' A2)), E1, E2. reflexivity.
Qed.
(** the pair of a sample *)
Lemma TP_pair r t s e u v : In (r, t) limb -> r <> 0 -> in_group lo hi bins_r r_limb r s e -> inside_group 0 (2 * PI) bins_th th_limb t u v ->
  exists row, In (row, tspan u v) TP /\ fst row < r < snd row /\ forall r' t', In (r', t') limb -> r' <> 0 -> in_group lo hi bins_r r_limb r' s e -> fst row < r' < snd row.
Proof.
  intros H N A (B & B'). destruct (row_exists r_limb bins_r n0 lo hi margin Hbr HS mid_lo Hcr r_nonneg Hm' Hnear s e (proj1 A)) as (row & R1 & _ & R2). assert (Ir : In r r_limb) by (apply (in_map fst) in H; exact H).
  exists row. split; [|split; [apply R2; auto|intros r' t' H' N' A'; apply R2; auto; apply (in_map fst) in H'; exact H']]. apply TP_in. cbn [fst snd]. split; auto. split; [|exists r, t; split; [exact H|split; [apply R2; auto|exact B']]].
  apply group_in_rows; auto using tau; [|apply (proj1 B)]. apply (groups_count th_limb bins_th n0 0 (2 * PI) Hbt tau Hct).
Qed.
Lemma TP_r g : In g TP -> snd (fst g) <> 0.
Proof. intros Hg. destruct (TP_sample g Hg) as (r1 & t1 & _ & _ & P1 & R1 & _). lra. Qed.
Lemma TP_group g : In g TP -> exists u v, group 0 (2 * PI) bins_th th_limb u v /\ snd g = tspan u v.
Proof.
  intros Hg. destruct (TP_sample g Hg) as (r1 & t1 & H1 & N1 & _ & R1 & T1). destruct (TP_groups g r1 t1 Hg H1 R1 T1 N1) as (s1 & e1 & u1 & v1 & _ & (Gr1 & _) & E1 & _). exists u1, v1. auto.
Qed.
Lemma TP_th g : In g TP -> 0 <= fst (snd g) < snd (snd g) /\ snd (snd g) <= 2 * PI.
Proof.
  pose proof PI_RGT_0 as HP. intros Hg. destruct (TP_sample g Hg) as (r1 & t1 & H1 & N1 & _ & R1 & T1). destruct (TP_groups g r1 t1 Hg H1 R1 T1 N1) as (s1 & e1 & u1 & v1 & _ & ((G1 & G2 & _) & _) & E1 & _). rewrite E1 in *. cbn [span fst snd] in *.
  pose proof (bl_pos bins_th 0 (2 * PI) Hbt tau u1 ltac:(lia)). pose proof (bin_left_mono 0 (2 * PI) bins_th (v1 + 1) (bins_th + 1) ltac:(lra) Hbt ltac:(lia)) as M. rewrite bin_left_last in M by auto. lra.
Qed.
Lemma TP_sep g g' : In g TP -> In g' TP -> snd g = snd g' \/ snd (snd g) <= fst (snd g') \/ snd (snd g') <= fst (snd g).
Proof.
  pose proof PI_RGT_0 as HP. intros Hg Hg'. destruct (TP_group g Hg) as (u1 & v1 & Gr1 & E1). destruct (TP_group g' Hg') as (u2 & v2 & Gr2 & E2). rewrite E1, E2. cbn [span fst snd].
  destruct (Nat.lt_trichotomy u1 u2) as [Q|[Q|Q]].
  - right. left. apply bin_left_mono; auto; [lra|]. pose proof (group_apart th_limb bins_th 0 (2 * PI) Hbt _ _ _ _ Gr1 Gr2 Q). lia.
  - left. subst u2. rewrite (group_end_unique th_limb bins_th 0 (2 * PI) Hbt _ _ _ Gr1 Gr2). reflexivity.
  - right. right. apply bin_left_mono; auto; [lra|]. pose proof (group_apart th_limb bins_th 0 (2 * PI) Hbt _ _ _ _ Gr2 Gr1 Q). lia.
Qed.
Lemma bin_width : 0 < 2 * PI / INR bins_th /\ forall k, bin_left 0 (2 * PI) bins_th (k + 1) = bin_left 0 (2 * PI) bins_th k + 2 * PI / INR bins_th.
Proof. pose proof PI_RGT_0 as HP. assert (Bp : 0 < INR bins_th) by (apply lt_0_INR; lia). split; [apply Rdiv_lt_0_compat; lra|]. intros k. rewrite !bin_left_th by auto. rewrite plus_INR. simpl (INR 1). ring. Qed.
Lemma group_last u v : group 0 (2 * PI) bins_th th_limb u v -> snd (tspan u v) = 2 * PI \/ snd (tspan u v) + 2 * PI / INR bins_th <= 2 * PI.
Proof.
  intros (G1 & G2 & _). destruct bin_width as [W1 W2]. pose proof PI_RGT_0. cbn [span snd]. destruct (Nat.eq_dec v bins_th) as [->|N]; [left; apply bin_left_last; auto|]. right. pose proof (bin_left_mono 0 (2 * PI) bins_th (v + 1 + 1) (bins_th + 1) ltac:(lra) Hbt ltac:(lia)) as M. rewrite bin_left_last, (W2 (v + 1)%nat) in M by auto. lra.
Qed.
Lemma TP_wrap g : In g TP -> snd (snd g) = 2 * PI -> fst (snd g) <> 0 -> exists g0, In g0 TP /\ fst g0 = fst g /\ fst (snd g0) = 0.
Proof.
  pose proof PI_RGT_0 as HP. intros Hg Eg Ng. destruct (TP_sample g Hg) as (r1 & t1 & H1 & N1 & _ & R1 & T1). destruct (TP_groups g r1 t1 Hg H1 R1 T1 N1) as (s1 & e1 & u1 & v1 & A1 & B1 & E1 & U1). pose proof B1 as ((Gu & Gv & _) & _).
  destruct bin_width as [D _].
  assert (Ev : v1 = bins_th). { rewrite E1 in Eg. cbn [span snd] in Eg. destruct (Nat.eq_dec v1 bins_th); auto. exfalso. pose proof (bin_left_mono 0 (2 * PI) bins_th (v1 + 1) bins_th ltac:(lra) Hbt ltac:(lia)) as M. rewrite (bin_left_th bins_th bins_th) in M by auto. replace ((INR bins_th - 1) * (2 * PI / INR bins_th)) with (2 * PI - 2 * PI / INR bins_th) in M by (field; apply not_0_INR; lia). lra. }
  assert (Nu : (1 < u1)%nat). { destruct (Nat.eq_dec u1 1) as [->|]; [|lia]. exfalso. apply Ng. rewrite E1. cbn [span fst]. apply bin_left_1. }
  rewrite Ev in B1. destruct (Hwrap r1 t1 s1 e1 u1 H1 N1 A1 B1 Nu) as (r' & t' & v' & H' & N' & A' & B'). destruct (TP_pair r' t' s1 e1 1 v' H' N' A' B') as (row' & T' & _ & Rw). exists (row', tspan 1 v'). split; auto. cbn [fst snd span]. split; [|apply bin_left_1].
  apply U1; [apply TP_in in T'; apply T'|]. apply (Rw r1 t1); auto.
Qed.
Lemma regions_eq : exists K, regions_of_limb limb rho bins_r bins_th margin_r margin_th n0 nreal =
  Some (map (refine_region limb margin (margin_th * PI / 180)) (firstn nreal (merge_final (TP ++ repeat zz K)))).
Proof.
  destruct (cluster_rows r_limb bins_r n0 true lo hi Hbr (bin_range_r _ _ _ HS) (lohi r_limb lo hi HS mid_lo)) as (rs & re & C1 & C2).
  destruct (cluster_rows th_limb bins_th n0 false 0 (2 * PI) Hbt eq_refl tau) as (ts & te & D1 & D2).
  unfold regions_of_limb. fold r_limb th_limb. rewrite C1, D1, C2, D2. cbv zeta. fold margin rr tt.
  assert (ST : map (fun p => (snap_th (fst p), snap_th (snd p))) tt = tt).
  { rewrite <- map_id. apply map_ext_in. intros g Hg. destruct (rows_in th_limb bins_th n0 0 (2 * PI) Hbt tau g Hg) as [->|(u & v & G & ->)].
    - pose proof (snap_edge bins_th 1 Hbt Hbt' ltac:(lia)) as E. rewrite bin_left_1 in E. cbn [fst snd]. rewrite E. reflexivity.
    - destruct G as (G1 & G2 & _). unfold span. cbn [fst snd]. rewrite !snap_edge by (auto; lia). reflexivity. }
  rewrite ST.
  change (exists K, Some (map (refine_region limb margin (margin_th * PI / 180)) (firstn nreal (merge_final (combine
    (firstn n0 (sort_by (fun rg : ival => isclose (snd rg) 0) (map (fun g : region => (fst (fst g) * b2R (mask g), snd (fst g) * b2R (mask g))) pairs)))
    (firstn n0 (sort_by (fun rg : ival => isclose (snd rg) 0) (map (fun g : region => (fst (snd g) * b2R (mask g), snd (snd g) * b2R (mask g))) pairs))))))) =
    Some (map (refine_region limb margin (margin_th * PI / 180)) (firstn nreal (merge_final (TP ++ repeat zz K))))).
  assert (I0 : forall x, 1e-8 < x -> isclose x 0 = false). { intros x Hx. unfold isclose. destruct (Rleb_spec (Rabs (x - 0)) (1e-8 + 1e-5 * Rabs 0)) as [Q|]; auto. rewrite Rabs_R0, Rabs_pos_eq in Q by lra. lra. }
  pose proof (masked_partition (fun g : region => fst g) mask pairs) as Qr. pose proof (masked_partition (fun g : region => snd g) mask pairs) as Qt. cbv beta in Qr, Qt. rewrite Qr, Qt; clear Qr Qt.
  - fold TP. eexists. rewrite combine_pad; [reflexivity|]. eapply Nat.le_trans; [apply TP_count|auto].
  - intros g Hg Hmk. assert (T : In g TP) by (apply filter_In; auto). destruct (TP_sample g T) as (r & t & H & N & _ & H1 & H2). destruct (TP_groups g r t T H H1 H2 N) as (s & e & u & v & _ & ((G1 & _) & _) & E & _). apply I0. rewrite E. cbn [span snd].
    pose proof (bin_left_mono 0 (2 * PI) bins_th 2 (v + 1) ltac:(pose proof PI_RGT_0; lra) Hbt ltac:(lia)) as M. rewrite (bin_left_th bins_th 2) in M by auto. simpl (INR 2) in M.
    assert (Bp : 0 < INR bins_th) by (apply lt_0_INR; lia). assert (D : 6e-4 <= 2 * PI / INR bins_th). { apply (Rmult_le_reg_r (INR bins_th)); auto. replace (2 * PI / INR bins_th * INR bins_th) with (2 * PI) by (field; lra). pose proof PI2_3_2 as Q. unfold PI2 in Q. lra. } lra.
  - intros g Hg Hmk. assert (T : In g TP) by (apply filter_In; auto). destruct (TP_sample g T) as (r & t & _ & _ & N & H1 & _). apply I0. lra.
Qed.
Theorem regions_cover : exists out, regions_of_limb limb rho bins_r bins_th margin_r margin_th n0 nreal = Some out /\ (length out <= nreal)%nat /\
  forall r t u v, In (r, t) limb -> r <> 0 -> inside_group 0 (2 * PI) bins_th th_limb t u v ->
  exists g t', In g out /\ (t' = t \/ t' = t - 2 * PI) /\ fst (fst g) <= r <= snd (fst g) /\ fst (snd g) <= t' - margin_th * PI / 180 /\ t' + margin_th * PI / 180 <= snd (snd g).
Proof.
  destruct regions_eq as (K & E). rewrite E. eexists. split; [reflexivity|]. split; [rewrite map_length, firstn_length; lia|]. intros r t u v H N B. pose proof PI_RGT_0 as HP.
  assert (Ir : In r r_limb) by (apply (in_map fst) in H; exact H). assert (It : In t th_limb) by (apply (in_map snd) in H; exact H). pose proof (th_range t It) as Tr.
  destruct (groups_exist r_limb bins_r lo hi Hbr (lohi r_limb lo hi HS mid_lo) r Ir) as (s & e & A). destruct (TP_pair r t s e u v H N A B) as (row & T & Hrow & _).
  destruct (final_covers TP K nreal TP_nodup TP_r TP_th TP_sep TP_wrap TP_count) with (row := row) (a := fst (tspan u v)) (b := snd (tspan u v)) as (g & G1 & G2 & G3); auto.
  - exists (refine_region limb margin (margin_th * PI / 180) g). destruct g as [[g1 g2] [g3 g4]]. cbn [fst snd] in G2, G3. subst row. cbn [fst snd] in Hrow. destruct B as [B B']. cbn [span fst snd] in G3.
    assert (Mt : 0 <= margin_th * PI / 180) by (apply Rmult_le_pos; [apply Rmult_le_pos; lra|lra]). assert (R0 : 0 <= g1) by (apply TP_in in T; apply (row_nonneg (g1, g2)), T).
    assert (X : exists t', (t' = t \/ t' = t - 2 * PI) /\ g3 < t' < g4 /\ t' <> 0).
    { assert (T0 : 0 <= bin_left 0 (2 * PI) bins_th u) by (apply bl_pos; auto using tau; destruct B as ((? & _) & _); lia). destruct G3 as [[G3 G4]|(G3 & G4 & G5)]; [exists t|exists (t - 2 * PI)]; repeat split; auto; lra. }
    destruct X as (t' & X1 & X2 & X3). exists t'. split; [apply in_map; exact G1|]. split; auto.
    pose proof (refine_region_covers limb margin (margin_th * PI / 180) g1 g2 g3 g4 r t t' Hm' Mt R0 H Tr X1 Hrow X2 X3) as C. exact C.
Qed.
(** every region runs from a smaller to a larger radius and angle *)
Lemma refine_r_nonneg limb' mr mth (g : region) : 0 <= fst (fst g) -> 0 <= fst (fst (refine_region limb' mr mth g)).
Proof. destruct g as [[g1 g2] [g3 g4]]. intros H. unfold refine_region. cbv zeta. cbn [fst] in *. destruct (_ || _); [apply Rmax_l|exact H]. Qed.
Theorem regions_ordered : exists out, regions_of_limb limb rho bins_r bins_th margin_r margin_th n0 nreal = Some out /\
  forall g, In g out -> 0 <= fst (fst g) <= snd (fst g) /\ fst (snd g) <= snd (snd g).
Proof.
  destruct regions_eq as (K & E). rewrite E. eexists. split; [reflexivity|]. intros g Hg. apply in_map_iff in Hg as (g0 & <- & Hg). pose proof PI_RGT_0 as HP.
  assert (Mt : 0 <= margin_th * PI / 180) by (apply Rmult_le_pos; [apply Rmult_le_pos; lra|lra]).
  destruct (final_in TP K nreal TP_r g0 Hg) as [-> |(x & Hx & _ & ->)].
  - assert (Z : refine_region limb margin (margin_th * PI / 180) zz = zz). { unfold refine_region, zz. destruct (Rltb_spec (- PI) 0); [|lra]. destruct (Rltb_spec 0 0); [lra|]. cbn [andb orb]. rewrite !Reqb_refl. reflexivity. } rewrite Z. cbn. lra.
  - pose proof (TP_th x Hx) as Tx. destruct (TP_sample x Hx) as (r & t & L1 & L2 & _ & L3 & L4). assert (R0 : 0 <= fst (fst x)) by (pose proof Hx as Hx'; apply TP_in in Hx'; apply (row_nonneg (fst x)), Hx').
    assert (M : merged_th_min (TP ++ repeat zz K) x <= fst (snd x)). { destruct (thmin_cases TP K TP_nodup TP_th TP_sep x Hx) as [-> |(_ & a & A1 & _ & ->)]; [lra|]. pose proof (TP_th _ A1) as Ta. cbn [fst snd] in Ta. lra. }
    assert (It : In t th_limb) by (apply (in_map snd) in L1; exact L1). pose proof (th_range t It) as Tr.
    assert (M1 : merged_th_min (TP ++ repeat zz K) x < t < snd (snd x)) by lra. assert (T0 : t <> 0) by (apply Rgt_not_eq; lra). set (m := merged_th_min (TP ++ repeat zz K) x) in *. clearbody m.
    split; [split; [apply refine_r_nonneg; exact R0|]|]; destruct x as [[r0 r1] [a b]]; cbn [fst snd] in *;
      pose proof (refine_region_covers limb margin (margin_th * PI / 180) r0 r1 m b r t t Hm' Mt R0 L1 Tr (or_introl eq_refl) L3 M1 T0) as (C1 & C2 & C3); [apply Rle_trans with r; apply C1|].
    apply Rle_trans with (t - margin_th * PI / 180); [exact C2|]. apply Rle_trans with (t + margin_th * PI / 180); [clear - Mt; lra|exact C3].
Qed.
Lemma ring_region : group 0 (2 * PI) bins_th th_limb 1 bins_th -> exists out, regions_of_limb limb rho bins_r bins_th margin_r margin_th n0 nreal = Some out /\
  forall r t, In (r, t) limb -> r <> 0 -> 0 < t -> exists g, In g out /\ fst (fst g) < r < snd (fst g) /\ snd g = (- (margin_th * PI / 180), 2 * PI + margin_th * PI / 180).
Proof.
  intros HG. destruct regions_eq as (K & E). rewrite E. eexists. split; [reflexivity|]. intros r t H N Ht. pose proof PI_RGT_0 as HP.
  assert (Ir : In r r_limb) by (apply (in_map fst) in H; exact H). assert (It : In t th_limb) by (apply (in_map snd) in H; exact H). pose proof (th_range t It) as Tr.
  destruct (groups_exist r_limb bins_r lo hi Hbr (lohi r_limb lo hi HS mid_lo) r Ir) as (s & e & A).
  assert (B : inside_group 0 (2 * PI) bins_th th_limb t 1 bins_th). { assert (B' : bin_left 0 (2 * PI) bins_th 1 < t < bin_left 0 (2 * PI) bins_th (bins_th + 1)) by (rewrite bin_left_1, bin_left_last by auto; lra). split; auto. apply inside_span; auto using tau. lra. }
  destruct (TP_pair r t s e 1 bins_th H N A B) as (row & T & Hrow & _).
  assert (AT : forall g, In g TP -> snd g = (0, 2 * PI)).
  { intros g Hg. destruct (TP_sample g Hg) as (r1 & t1 & H1 & N1 & _ & R1 & T1). destruct (TP_groups g r1 t1 Hg H1 R1 T1 N1) as (s1 & e1 & u1 & v1 & _ & B1 & E1 & _). destruct B1 as (G1 & j & Hj & _). pose proof G1 as (G2 & G3 & _).
    destruct (group_same th_limb bins_th 0 (2 * PI) Hbt _ _ _ _ j G1 HG Hj ltac:(lia)) as [-> ->]. rewrite E1. unfold span. rewrite bin_left_1, bin_left_last by auto. reflexivity. }
  assert (NR : forall g, In g TP -> snd (fst g) <> 0) by (intros g Hg; destruct (TP_sample g Hg) as (r1 & t1 & _ & _ & P1 & R1 & _); lra).
  assert (IA : forall g, In g (TP ++ repeat zz K) -> In g TP \/ g = zz) by (intros g Hg; apply in_app_or in Hg as [|Hg]; auto; right; apply repeat_spec in Hg; exact Hg).
  assert (NS : forall a b, In a (TP ++ repeat zz K) -> In b (TP ++ repeat zz K) -> same_r a b = false).
  { intros a b Ha Hb. destruct (same_r a b) eqn:Q; auto. exfalso. apply same_r_true in Q as [Q1 Q2]. destruct (IA a Ha) as [Ha'|Ea], (IA b Hb) as [Hb'|Eb].
    - apply Q2. destruct a as [a1 a2], b as [b1 b2]. pose proof (AT _ Ha') as X. pose proof (AT _ Hb') as Y. cbn [fst snd] in *. congruence.
    - subst b. apply (NR a Ha'). rewrite Q1. reflexivity.
    - subst a. apply (NR b Hb'). rewrite <- Q1. reflexivity.
    - congruence. }
  set (al := TP ++ repeat zz K) in *.
  assert (V : vanishes al (row, tspan 1 bins_th) = false). { unfold vanishes. replace (existsb _ al) with false; [reflexivity|]. symmetry. apply not_true_is_false. intros Q. apply existsb_exists in Q as (a & Ha & Q). apply andb_prop in Q as [Q _]. apply existsb_exists in Q as (b & Hb & Q). rewrite (NS a b Ha Hb) in Q. discriminate Q. }
  assert (I0 : In (row, tspan 1 bins_th) al) by (apply in_or_app; auto).
  assert (M : merged_th_min al (row, tspan 1 bins_th) = 0). { unfold merged_th_min. replace (sumR _) with 0. { destruct (Reqb_spec 0 0); [|lra]. cbn [snd span fst]. apply bin_left_1. } symmetry. apply sumR_zero. intros b Hb. rewrite (NS _ b I0 Hb). rewrite andb_false_r. reflexivity. }
  assert (SP : snd (tspan 1 bins_th) = 2 * PI) by (unfold span; cbn [snd]; apply bin_left_last; auto).
  exists (refine_region limb margin (margin_th * PI / 180) (row, (0, 2 * PI))). split.
  - apply in_map. assert (OI : In (fst (row, tspan 1 bins_th), (merged_th_min al (row, tspan 1 bins_th), snd (snd (row, tspan 1 bins_th)))) (firstn nreal (merge_final al))).
    { apply out_in; auto using TP_nodup, TP_count. }
    cbn [fst snd] in OI. rewrite M, SP in OI. exact OI.
  - destruct row as [g1 g2]. cbn [fst snd] in Hrow. unfold refine_region. destruct (Rltb_spec (- PI) 0); [|lra]. destruct (Rltb_spec 0 0); [lra|]. cbn [andb orb]. cbn [fst snd]. split; auto.
    pose proof (row_nonneg (g1, g2) ltac:(apply TP_in in T; apply T)) as R0. cbn [fst] in R0. destruct (Reqb_spec g2 0); [lra|]. rewrite andb_false_r. f_equal; ring.
Qed.
(** ** no two regions overlap *)
Section Apart.
Hypothesis Hinside : forall r, In r r_limb -> r <> 0 -> r <> lo -> r <> hi -> exists s e, inside_group lo hi bins_r r_limb r s e.
Hypothesis Hhi : hi < 1e5.
Let mth := margin_th * PI / 180.
Hypothesis Hbin : 2 * mth <= 2 * PI / INR bins_th.
Lemma mth_pos : 0 <= mth.
Proof. pose proof PI_RGT_0. apply Rmult_le_pos; [apply Rmult_le_pos; lra|lra]. Qed.
Lemma r_bounds r : In r r_limb -> r <> 0 -> lo <= r <= hi.
Proof. destruct HS as (_ & _ & _ & _ & H). auto. Qed.
(** a radius inside a row is there with its margin, except for the smallest and the largest *)
Lemma near_row r r0 s e : In r0 r_limb -> inside_group lo hi bins_r r_limb r0 s e -> exists row, In row rr /\ fst row <= Rmax 0 (r0 - margin) /\ r0 + margin <= snd row /\ (r <> 0 -> In r r_limb -> Rabs (r - r0) < margin -> fst row < r < snd row).
Proof.
  intros H0 (G & H1). pose proof (lohi r_limb lo hi HS mid_lo) as Hl. pose proof (ranges_good r_limb bins_r n0 lo hi margin Hbr HS mid_lo Hnear) as GR.
  assert (P0 : 0 < r0). { destruct G as ((G1 & _) & _). pose proof (bl_pos bins_r lo hi Hbr Hl s ltac:(lia)). lra. }
  destruct (merge_r_covers r_limb (rows r_limb bins_r n0 lo hi) margin Hm' GR (span bins_r lo hi s e) r0) as (row & R1 & R2 & R3); auto.
  - apply group_in_rows; auto; [|apply G]. apply (groups_count r_limb bins_r n0 lo hi Hbr Hl Hcr).
  - exists row. split; [exact R1|]. split; auto. split; auto. intros N Ir Ha. apply Rabs_def2 in Ha. pose proof (r_bounds r Ir N). pose proof mid_lo. split; [|lra]. eapply Rle_lt_trans; [exact R2|]. apply Rmax_lub_lt; lra.
Qed.
Lemma row_margin row r : In row rr -> In r r_limb -> r <> 0 -> fst row < r < snd row -> (r <> hi -> r + margin <= snd row) /\ (r <> lo -> fst row <= Rmax 0 (r - margin)).
Proof.
  intros I Ir N H. assert (U : forall row', In row' rr -> fst row' < r < snd row' -> row' = row) by (intros row' I' H'; apply (row_unique r_limb bins_r n0 lo hi margin Hbr HS mid_lo Hm' Hnear row' row r); auto).
  assert (Z : Rabs (r - r) < margin) by (rewrite Rminus_eq_0, Rabs_R0; apply Hm).
  assert (In1 : r <> lo -> r <> hi -> r + margin <= snd row /\ fst row <= Rmax 0 (r - margin)).
  { intros N1 N2. destruct (Hinside r Ir N N1 N2) as (s & e & G). destruct (near_row r r s e Ir G) as (row' & R1 & R2 & R3 & R4). rewrite <- (U row' R1 (R4 N Ir Z)). auto. }
  destruct (Hnear r Ir N) as (s & e & r0 & _ & I0 & G0 & A0). destruct (near_row r r0 s e I0 G0) as (row' & R1 & R2 & R3 & R4). specialize (R4 N Ir A0). rewrite (U row' R1 R4) in *.
  assert (N0 : r0 <> 0). { destruct G0 as (((G1 & _) & _) & G0). pose proof (bl_pos bins_r lo hi Hbr (lohi r_limb lo hi HS mid_lo) s ltac:(lia)). lra. } pose proof (r_bounds r0 I0 N0).
  split; intros Q.
  - destruct (Req_dec r lo) as [E|E]; [subst r; lra|]. apply In1; auto.
  - destruct (Req_dec r hi) as [E|E]; [subst r|apply In1; auto]. eapply Rle_trans; [exact R2|]. apply Rle_max_compat_l. lra.
Qed.
Lemma limb_lt r t : In (r, t) limb -> r < 1e5 /\ 0 <= t < 2 * PI.
Proof.
  intros H. assert (Ir : In r r_limb) by (apply (in_map fst) in H; exact H). assert (It : In t th_limb) by (apply (in_map snd) in H; exact H). split; [|apply th_range; auto]. destruct (Req_dec r 0) as [->|N]; [lra|]. pose proof (r_bounds r Ir N). lra.
Qed.
Let ref := refine_region limb margin mth.
Definition no_overlap (g g' : region) : Prop := forall r t (k : Z), fst (fst g) < r < snd (fst g) -> fst (fst g') < r < snd (fst g') ->
  fst (snd g) < t < snd (snd g) -> ~ (fst (snd g') < t + 2 * PI * IZR k < snd (snd g')).
Lemma no_overlap_sym (g g' : region) : no_overlap g g' -> no_overlap g' g.
Proof. intros H r t k H1 H2 H3 H4. apply (H r (t + 2 * PI * IZR k) (- k)%Z H2 H1 H4). rewrite opp_IZR. replace (t + 2 * PI * IZR k + 2 * PI * - IZR k) with t by ring. exact H3. Qed.
Lemma apart_r (g g' : region) : snd (fst g) <= fst (fst g') -> no_overlap g g'.
Proof. intros H r t k H1 H2 _ _. lra. Qed.
Lemma empty_l (g g' : region) : snd (fst g) <= fst (fst g) -> no_overlap g g'.
Proof. intros H r t k H1 H2 _ _. lra. Qed.
Lemma apart_th (g g' : region) : snd (snd g) <= fst (snd g') -> snd (snd g') <= fst (snd g) + 2 * PI -> no_overlap g g'.
Proof.
  intros H1 H2 r t k _ _ H3 H4. pose proof PI_RGT_0. assert (K1 : 0 < IZR k) by nra. apply lt_IZR in K1. assert (K2 : 1 <= IZR k) by (apply IZR_le; lia). nra.
Qed.
Variable K : nat.
Let al := TP ++ repeat zz K.
Let F (x : region) : region := (fst x, (merged_th_min al x, snd (snd x))).
Lemma ref_zz : ref zz = zz.
Proof. unfold ref, refine_region, zz. pose proof PI_RGT_0. destruct (Rltb_spec (- PI) 0); [|lra]. destruct (Rltb_spec 0 0); [lra|]. cbn [andb orb]. rewrite !Reqb_refl. reflexivity. Qed.
Lemma ref_bounds x : In x TP -> snd (fst (ref (F x))) <= fst (fst (ref (F x))) \/
  (merged_th_min al x - mth <= fst (snd (ref (F x))) /\ snd (snd (ref (F x))) <= snd (snd x) + mth /\
   ((exists r t, In (r, t) limb /\ r <> 0 /\ r < hi /\ fst (fst x) < r < snd (fst x)) -> (forall r, In r r_limb -> r <> 0 -> fst (fst x) < r < snd (fst x) -> r < hi) -> snd (fst (ref (F x))) <= snd (fst x)) /\
   ((forall r, In r r_limb -> r <> 0 -> fst (fst x) < r < snd (fst x) -> lo < r) -> fst (fst x) <= fst (fst (ref (F x))))).
Proof.
  intros Hx. pose proof Hx as Hx'. apply TP_in in Hx' as (X1 & X2 & _). destruct x as [[r0 r1] [a b]]. cbn [fst snd] in *. unfold F. cbn [fst snd].
  destruct (refine_region_bounds limb margin mth r0 r1 (merged_th_min al (r0, r1, (a, b))) b mth_pos limb_lt) as [Q|(Q1 & Q2 & Q3 & Q4)]; [left; exact Q|right]. split; [exact Q1|]. split; [exact Q2|]. split.
  - intros _ Hlt. destruct Q4 as [Q4|(r & t & L1 & L2 & L3 & L4)]; [apply Req_le; exact Q4|]. assert (Ir : In r r_limb) by (apply (in_map fst) in L1; exact L1). eapply Rle_trans; [apply Req_le; exact L4|]. apply (row_margin (r0, r1) r X1 Ir L3 L2). pose proof (Hlt r Ir L3 L2). lra.
  - intros Hgt. destruct Q3 as [Q3|(r & t & L1 & L2 & L3 & L4)]; [apply Req_le; symmetry; exact Q3|]. assert (Ir : In r r_limb) by (apply (in_map fst) in L1; exact L1). eapply Rle_trans; [|apply Req_le; symmetry; exact L4]. apply (row_margin (r0, r1) r X1 Ir L3 L2). pose proof (Hgt r Ir L3 L2). lra.
Qed.
Lemma al_cases x : In x TP -> merged_th_min al x = fst (snd x) \/
  (fst (snd x) = 0 /\ exists a, In (fst x, (a, 2 * PI)) TP /\ (fst x, (a, 2 * PI)) <> x /\ merged_th_min al x = a - 2 * PI).
Proof. exact (thmin_cases TP K TP_nodup TP_th TP_sep x). Qed.
Lemma al_last x : In x TP -> snd (snd x) = 2 * PI -> fst (snd x) <> 0 -> vanishes al x = true.
Proof. exact (last_vanishes TP K TP_wrap x). Qed.
Lemma pair_apart x y : In x TP -> In y TP -> x <> y -> vanishes al x = false -> vanishes al y = false -> no_overlap (ref (F x)) (ref (F y)).
Proof.
  intros Hx Hy Nxy Vx Vy. pose proof PI_RGT_0 as HP. pose proof mth_pos as Mp. destruct bin_width as [W1 W2].
  assert (RowCase : forall x y, In x TP -> In y TP -> snd (fst x) <= fst (fst y) -> no_overlap (ref (F x)) (ref (F y))).
  { clear x y Hx Hy Nxy Vx Vy. intros x y Hx Hy L. destruct (TP_sample x Hx) as (rx & tx & X1 & X2 & _ & X3 & _). destruct (TP_sample y Hy) as (ry & ty & Y1 & Y2 & _ & Y3 & _).
    assert (Irx : In rx r_limb) by (apply (in_map fst) in X1; exact X1). assert (Iry : In ry r_limb) by (apply (in_map fst) in Y1; exact Y1). pose proof (r_bounds rx Irx X2). pose proof (r_bounds ry Iry Y2).
    destruct (ref_bounds x Hx) as [Q|(_ & _ & Qx & _)]; [apply empty_l; auto|]. destruct (ref_bounds y Hy) as [Q|(_ & _ & _ & Qy)]; [apply no_overlap_sym, empty_l; auto|].
    apply apart_r. apply Rle_trans with (snd (fst x)); [apply Qx|apply Rle_trans with (fst (fst y)); [exact L|apply Qy]].
    - exists rx, tx. split; auto. split; auto. split; [lra|exact X3].
    - intros r _ _ Hr. lra.
    - intros r _ _ Hr. lra. }
  destruct (TP_sample x Hx) as (rx & tx & _ & _ & _ & X3 & _). destruct (TP_sample y Hy) as (ry & ty & _ & _ & _ & Y3 & _).
  assert (Rows : fst x = fst y \/ snd (fst x) <= fst (fst y) \/ snd (fst y) <= fst (fst x)).
  { pose proof Hx as Hx'. apply TP_in in Hx' as (I1 & _). pose proof Hy as Hy'. apply TP_in in Hy' as (I2 & _). apply In_nth with (d := (0, 0)) in I1 as (i & Hi & Ei). apply In_nth with (d := (0, 0)) in I2 as (j & Hj & Ej).
    pose proof (merge_r_disjoint r_limb (rows r_limb bins_r n0 lo hi) margin Hm' (ranges_good r_limb bins_r n0 lo hi margin Hbr HS mid_lo Hnear)) as D. cbv zeta in D. fold rr in D.
    assert (Nx : fst x <> (0, 0)) by (intros E; rewrite E in X3; simpl in X3; lra). assert (Ny : fst y <> (0, 0)) by (intros E; rewrite E in Y3; simpl in Y3; lra).
    destruct (Nat.lt_trichotomy i j) as [Q|[Q|Q]].
    - destruct (D i j ltac:(lia)) as [E|[E|E]]; rewrite ?Ei, ?Ej in E; auto; contradiction.
    - left. congruence.
    - destruct (D j i ltac:(lia)) as [E|[E|E]]; rewrite ?Ei, ?Ej in E; auto; contradiction. }
  destruct Rows as [Rows|[Rows|Rows]]; [|auto|apply no_overlap_sym; auto].
  assert (ThCase : forall x y u v u' v', In x TP -> In y TP -> fst x = fst y -> group 0 (2 * PI) bins_th th_limb u v -> group 0 (2 * PI) bins_th th_limb u' v' -> snd x = tspan u v -> snd y = tspan u' v' -> (u < u')%nat ->
     vanishes al y = false -> no_overlap (ref (F x)) (ref (F y))).
  { clear x y Hx Hy Nxy Vx Vy rx tx X3 ry ty Y3 Rows. intros x y u v u' v' Hx Hy Rows Gx Gy Ex Ey Lu Vy.
    destruct (ref_bounds x Hx) as [Q|(Q1 & Q2 & _)]; [apply empty_l; auto|]. destruct (ref_bounds y Hy) as [Q|(P1 & P2 & _)]; [apply no_overlap_sym, empty_l; auto|].
    pose proof (group_apart th_limb bins_th 0 (2 * PI) Hbt _ _ _ _ Gx Gy Lu) as Ap. pose proof (TP_th x Hx) as Tx. pose proof (TP_th y Hy) as Ty.
    assert (GapXY : snd (snd x) + 2 * PI / INR bins_th <= fst (snd y)). { rewrite Ex, Ey. cbn [span fst snd]. rewrite <- W2. apply bin_left_mono; auto; [lra|lia]. }
    assert (Ny : fst (snd y) <> 0) by lra.
    assert (Ly : snd (snd y) + 2 * PI / INR bins_th <= 2 * PI). { destruct (group_last u' v' Gy) as [Q|Q]; rewrite <- Ey in Q; [|exact Q]. exfalso. pose proof (al_last y Hy Q Ny) as V. congruence. }
    assert (My : merged_th_min al y = fst (snd y)) by (destruct (al_cases y Hy) as [Q|(Q & _)]; [exact Q|contradiction]).
    apply apart_th; [lra|]. enough (snd (snd y) + 2 * PI / INR bins_th <= merged_th_min al x + 2 * PI) by lra.
    destruct (al_cases x Hx) as [Q|(Q & a & A1 & A2 & A3)]; [lra|]. rewrite A3. destruct (TP_group _ A1) as (u3 & v3 & G3 & E3). cbn [snd] in E3. pose proof (TP_th _ A1) as T3. cbn [fst snd] in T3.
    assert (L3 : (u' < u3)%nat). { destruct (Nat.lt_ge_cases u' u3) as [|Lq]; auto. exfalso. destruct (Nat.eq_dec u' u3) as [E|N].
      - subst u3. pose proof (group_end_unique th_limb bins_th 0 (2 * PI) Hbt _ _ _ Gy G3) as E. subst v3. rewrite Ey, <- E3 in Ly. cbn [snd] in Ly. lra.
      - pose proof (group_apart th_limb bins_th 0 (2 * PI) Hbt _ _ _ _ G3 Gy ltac:(lia)) as Ap3. assert (snd (tspan u3 v3) <= fst (tspan u' v')) by (cbn [span fst snd]; apply bin_left_mono; auto; [lra|lia]). rewrite <- E3, <- Ey in H. cbn [snd] in H. lra. }
    pose proof (group_apart th_limb bins_th 0 (2 * PI) Hbt _ _ _ _ Gy G3 L3) as Ap3. replace a with (fst (tspan u3 v3)) by (rewrite <- E3; reflexivity). rewrite Ey. cbn [span fst snd]. rewrite <- W2. pose proof (bin_left_mono 0 (2 * PI) bins_th (v' + 1 + 1) u3 ltac:(lra) Hbt ltac:(lia)). lra. }
  destruct (TP_group x Hx) as (u & v & Gx & Ex). destruct (TP_group y Hy) as (u' & v' & Gy & Ey).
  destruct (Nat.lt_trichotomy u u') as [Q|[Q|Q]].
  - apply (ThCase x y u v u' v'); auto.
  - exfalso. apply Nxy. subst u'. rewrite (group_end_unique th_limb bins_th 0 (2 * PI) Hbt _ _ _ Gx Gy) in Ex. destruct x as [x1 x2], y as [y1 y2]. cbn [fst snd] in *. congruence.
  - apply no_overlap_sym. apply (ThCase y x u' v' u v); auto.
Qed.
(** a region does not overlap itself, unless the images go all the way round *)
Lemma self_apart x : In x TP -> vanishes al x = false -> ~ group 0 (2 * PI) bins_th th_limb 1 bins_th -> snd (fst (ref (F x))) <= fst (fst (ref (F x))) \/ snd (snd (ref (F x))) <= fst (snd (ref (F x))) + 2 * PI.
Proof.
  intros Hx Vx NR. pose proof PI_RGT_0 as HP. pose proof mth_pos as Mp. destruct bin_width as [W1 W2]. destruct (ref_bounds x Hx) as [Q|(Q1 & Q2 & _)]; [left; auto|right]. pose proof (TP_th x Hx) as Tx. destruct (TP_group x Hx) as (u & v & Gx & Ex).
  assert (Lx : snd (snd x) + 2 * PI / INR bins_th <= 2 * PI).
  { destruct (group_last u v Gx) as [Q|Q]; rewrite <- Ex in Q; [|exact Q]. exfalso. destruct (Req_dec (fst (snd x)) 0) as [Z|Z].
    - apply NR. assert (u = 1)%nat. { destruct (Nat.eq_dec u 1) as [|N]; auto. exfalso. destruct Gx as (G1 & _). pose proof (bin_left_mono 0 (2 * PI) bins_th (1 + 1) u ltac:(lra) Hbt ltac:(lia)) as M. rewrite (W2 1%nat), bin_left_1 in M. rewrite Ex in Z. cbn [span fst] in Z. lra. }
      assert (v = bins_th). { destruct (Nat.eq_dec v bins_th) as [|N]; auto. exfalso. destruct Gx as (G1 & G2 & _). pose proof (bin_left_mono 0 (2 * PI) bins_th (v + 1 + 1) (bins_th + 1) ltac:(lra) Hbt ltac:(lia)) as M. rewrite bin_left_last, (W2 (v + 1)%nat) in M by auto. rewrite Ex in Q. cbn [span snd] in Q. lra. }
      subst u v. exact Gx.
    - pose proof (al_last x Hx Q Z) as V. congruence. }
  enough (snd (snd x) + 2 * PI / INR bins_th <= merged_th_min al x + 2 * PI) by lra.
  destruct (al_cases x Hx) as [Q|(Q & a & A1 & A2 & A3)]; [lra|]. rewrite A3. destruct (TP_group _ A1) as (u3 & v3 & G3 & E3). cbn [snd] in E3. pose proof (TP_th _ A1) as T3. cbn [fst snd] in T3.
  assert (L3 : (u < u3)%nat). { destruct (Nat.lt_ge_cases u u3) as [|Lq]; auto. exfalso. destruct (Nat.eq_dec u u3) as [E|N].
    - subst u3. pose proof (group_end_unique th_limb bins_th 0 (2 * PI) Hbt _ _ _ Gx G3) as E. subst v3. rewrite Ex, <- E3 in Lx. cbn [snd] in Lx. lra.
    - pose proof (group_apart th_limb bins_th 0 (2 * PI) Hbt _ _ _ _ G3 Gx ltac:(lia)) as Ap3. assert (snd (tspan u3 v3) <= fst (tspan u v)) by (cbn [span fst snd]; apply bin_left_mono; auto; [lra|lia]). rewrite <- E3, <- Ex in H. cbn [snd] in H. lra. }
  pose proof (group_apart th_limb bins_th 0 (2 * PI) Hbt _ _ _ _ Gx G3 L3) as Ap3. replace a with (fst (tspan u3 v3)) by (rewrite <- E3; reflexivity). rewrite Ex. cbn [span fst snd]. rewrite <- W2. pose proof (bin_left_mono 0 (2 * PI) bins_th (v + 1 + 1) u3 ltac:(lra) Hbt ltac:(lia)). lra.
Qed.
End Apart.
Theorem regions_apart : (forall r, In r r_limb -> r <> 0 -> r <> lo -> r <> hi -> exists s e, inside_group lo hi bins_r r_limb r s e) -> hi < 1e5 -> margin_th * INR bins_th <= 180 ->
  exists out, regions_of_limb limb rho bins_r bins_th margin_r margin_th n0 nreal = Some out /\
  forall i j r t (k l : Z), (i < length out)%nat -> (j < length out)%nat -> let g := nth i out zz in let g' := nth j out zz in
    fst (fst g) < r < snd (fst g) -> fst (fst g') < r < snd (fst g') ->
    fst (snd g) < t + 2 * PI * IZR k < snd (snd g) -> fst (snd g') < t + 2 * PI * IZR l < snd (snd g') ->
    i = j /\ (~ group 0 (2 * PI) bins_th th_limb 1 bins_th -> k = l).
Proof.
  intros Hin Hhi Hb. destruct regions_eq as (K & E). rewrite E. eexists. split; [reflexivity|]. intros i j r t k l Hi Hj g g' H1 H2 H3 H4. pose proof PI_RGT_0 as HP.
  assert (Hbin : 2 * (margin_th * PI / 180) <= 2 * PI / INR bins_th).
  { assert (Bp : 0 < INR bins_th) by (apply lt_0_INR; lia). apply (Rmult_le_reg_r (INR bins_th)); auto. replace (2 * PI / INR bins_th * INR bins_th) with (2 * PI) by (field; lra). replace (2 * (margin_th * PI / 180) * INR bins_th) with (margin_th * INR bins_th * (2 * PI / 180)) by field.
    apply Rle_trans with (180 * (2 * PI / 180)); [apply Rmult_le_compat_r; lra|lra]. }
  set (ref := refine_region limb margin (margin_th * PI / 180)) in *. set (sc := firstn nreal (merge_final (TP ++ repeat zz K))) in *. rewrite map_length in Hi, Hj. pose proof ref_zz as RZ. fold ref in RZ.
  assert (N : forall m, nth m (map ref sc) zz = ref (nth m sc zz)) by (intros m; rewrite <- RZ at 1; apply map_nth). unfold g, g' in *. rewrite N in H1, H2, H3, H4. clear g g'.
  assert (FP : ForallOrdPairs (fun x y => no_overlap (ref x) (ref y)) sc).
  { apply final_pairs; auto using TP_nodup, TP_r.
    - intros x. apply empty_l. rewrite RZ. simpl. lra.
    - intros x. apply no_overlap_sym, empty_l. rewrite RZ. simpl. lra.
    - intros x y Hx Hy Nxy Vx Vy. apply (pair_apart Hin Hhi Hbin K x y); auto. }
  assert (PW : forall (D : region -> region -> Prop) l, ForallOrdPairs D l -> forall a b, (a < b < length l)%nat -> D (nth a l zz) (nth b l zz)).
  { clear. intros D l H. induction H as [|x l Hx H IH]; intros a b Hab; cbn [length] in Hab; [lia|]. destruct b as [|b]; [lia|]. destruct a as [|a]; cbn [nth]; [|apply IH; lia]. rewrite Forall_forall in Hx. apply Hx, nth_In. lia. }
  assert (C : forall a b, (a < b < length sc)%nat -> no_overlap (ref (nth a sc zz)) (ref (nth b sc zz))) by (intros a b Hab; apply (PW _ sc FP); auto).
  assert (Eij : i = j).
  { destruct (Nat.lt_trichotomy i j) as [Q|[Q|Q]]; auto; exfalso.
    - apply (C i j ltac:(lia) r (t + 2 * PI * IZR k) (l - k)%Z H1 H2 H3). rewrite minus_IZR. replace (t + 2 * PI * IZR k + 2 * PI * (IZR l - IZR k)) with (t + 2 * PI * IZR l) by ring. exact H4.
    - apply (C j i ltac:(lia) r (t + 2 * PI * IZR l) (k - l)%Z H2 H1 H4). rewrite minus_IZR. replace (t + 2 * PI * IZR l + 2 * PI * (IZR k - IZR l)) with (t + 2 * PI * IZR k) by ring. exact H3. }
  split; auto. intros NR. subst j. assert (S : snd (snd (ref (nth i sc zz))) <= fst (snd (ref (nth i sc zz))) + 2 * PI).
  { destruct (final_in TP K nreal TP_r (nth i sc zz) (nth_In sc zz Hi)) as [Z|(x & X1 & X2 & X3)].
    - rewrite Z, RZ. simpl. lra.
    - rewrite X3 in *. destruct (self_apart Hin Hhi Hbin K x X1 X2 NR) as [Q|Q]; [exfalso; fold ref in Q; lra|exact Q]. }
  assert (D : IZR k - IZR l < 1 /\ IZR l - IZR k < 1) by nra. destruct D as [D1 D2]. rewrite <- minus_IZR in D1, D2. apply lt_IZR in D1. apply lt_IZR in D2. lia.
Qed.
End Main.

(** ** from the images *)
Lemma cos_one d : - (2 * PI) < d < 2 * PI -> cos d = 1 -> d = 0.
Proof.
  intros Hd H. assert (S : sin (d / 2) = 0). { replace d with (2 * (d / 2)) in H by field. rewrite cos_2a_sin in H. nra. }
  destruct (Rtotal_order d 0) as [L|[L|L]]; auto; exfalso.
  - pose proof (sin_gt_0 (- (d / 2)) ltac:(lra) ltac:(lra)) as Q. rewrite sin_neg in Q. lra.
  - pose proof (sin_gt_0 (d / 2) ltac:(lra) ltac:(lra)). lra.
Qed.
Lemma polar_fun z r t r' t' : polar z r t -> polar z r' t' -> r = r' /\ t = t'.
Proof.
  intros (R1 & T1 & E1) (R2 & T2 & E2). rewrite E1 in E2. injection E2 as Ec Es. pose proof (sin2_cos2 t) as P1. pose proof (sin2_cos2 t') as P2. unfold Rsqr in *.
  assert (E : r = r'). { assert (Q : r * r = r' * r'). { transitivity ((r * cos t) * (r * cos t) + (r * sin t) * (r * sin t)); [replace (r * cos t * (r * cos t) + r * sin t * (r * sin t)) with (r * r * (sin t * sin t + cos t * cos t)) by ring; rewrite P1; ring|]. rewrite Ec, Es. replace (r' * cos t' * (r' * cos t') + r' * sin t' * (r' * sin t')) with (r' * r' * (sin t' * sin t' + cos t' * cos t')) by ring. rewrite P2. ring. } nra. }
  subst r'. split; auto. apply Rmult_eq_reg_l in Ec; [|lra]. apply Rmult_eq_reg_l in Es; [|lra]. enough (t - t' = 0) by lra. apply cos_one; [lra|]. rewrite cos_minus, Ec, Es. lra.
Qed.
Lemma arctan2_scale r x y : 0 < r -> arctan2 (y / r) (x / r) = arctan2 y x.
Proof.
  intros Hr. assert (I : forall a, exists b, a / r = b /\ a = b * r) by (intros a; exists (a / r); split; auto; field; lra).
  assert (L : forall a, Rltb 0 (a / r) = Rltb 0 a). { intros a. destruct (I a) as (b & -> & ->). destruct (Rltb_spec 0 b), (Rltb_spec 0 (b * r)); auto; exfalso; nra. }
  assert (L' : forall a, Rltb (a / r) 0 = Rltb a 0). { intros a. destruct (I a) as (b & -> & ->). destruct (Rltb_spec b 0), (Rltb_spec (b * r) 0); auto; exfalso; nra. }
  assert (L2 : Rleb 0 (y / r) = Rleb 0 y). { destruct (I y) as (b & -> & ->). destruct (Rleb_spec 0 b), (Rleb_spec 0 (b * r)); auto; exfalso; nra. }
  unfold arctan2. rewrite !L, !L', L2. destruct (Rltb_spec 0 x) as [A|A]; [f_equal; field; lra|]. destruct (Rltb_spec x 0) as [B|B]; auto. replace (y / r / (x / r)) with (y / x) by (field; lra). reflexivity.
Qed.
Lemma arctan2_range y x : - PI < arctan2 y x <= PI.
Proof.
  pose proof PI_RGT_0 as HP. unfold arctan2. pose proof (atan_bound (y / x)) as B. destruct (Rltb_spec 0 x) as [A|A]; [lra|]. destruct (Rltb_spec x 0) as [A'|A'].
  - destruct (Rleb_spec 0 y) as [Y|Y].
    + assert (atan (y / x) <= 0); [|lra]. destruct (Req_dec y 0) as [->|N]; [unfold Rdiv; rewrite Rmult_0_l, atan_0; lra|]. rewrite <- atan_0. apply Rlt_le, atan_increasing. unfold Rdiv. pose proof (Rinv_lt_0_compat x A'). nra.
    + assert (0 < atan (y / x)); [|lra]. rewrite <- atan_0. apply atan_increasing. unfold Rdiv. pose proof (Rinv_lt_0_compat x A'). nra.
  - destruct (Rltb 0 y); [lra|]. destruct (Rltb y 0); lra.
Qed.
Lemma polar_code z : z <> RtoC 0 -> polar z (Cmod z) (mod_2pi (arctan2 (Im z) (Re z))).
Proof.
  intros Hz. pose proof (Cmod_gt_0 z) as [P _]. specialize (P Hz). split; auto. pose proof (arctan2_range (Im z) (Re z)) as B. pose proof PI_RGT_0 as HP.
  split; [unfold mod_2pi; destruct (Rltb_spec (arctan2 (Im z) (Re z)) 0); lra|]. destruct (mod_2pi_trig (arctan2 (Im z) (Re z))) as [-> ->]. rewrite <- (arctan2_scale (Cmod z)) by auto.
  destruct (arctan2_unit (Re z / Cmod z) (Im z / Cmod z)) as [-> ->].
  - assert (Q : Re z * Re z + Im z * Im z = Cmod z * Cmod z). { unfold Cmod. rewrite sqrt_sqrt; [unfold Re, Im; ring|]. nra. } replace (Re z / Cmod z * (Re z / Cmod z) + Im z / Cmod z * (Im z / Cmod z)) with ((Re z * Re z + Im z * Im z) / (Cmod z * Cmod z)) by (field; lra). rewrite Q. field. lra.
  - destruct z as [x y]. cbn [Re Im fst snd]. f_equal; field; lra.
Qed.
Lemma polar_nz z r t : polar z r t -> z <> RtoC 0.
Proof. intros (R1 & _ & E) Q. rewrite E in Q. injection Q as Qc Qs. pose proof (sin2_cos2 t) as P. unfold Rsqr in P. assert (cos t = 0) by nra. assert (sin t = 0) by nra. nra. Qed.
Lemma limb_polar_eq images mask samples : Forall2 limb_sample (combine images mask) samples -> limb_polar images mask = samples.
Proof.
  unfold limb_polar. intros H. induction H as [|[z m] [r t] l l' H _ IH]; cbn [map]; auto. rewrite IH. f_equal. unfold limb_sample in H. cbn [fst snd] in *. destruct m; cbn [b2R].
  - pose proof (polar_code z (polar_nz z r t H)) as Q. destruct (polar_fun _ _ _ _ _ H Q) as [-> ->]. rewrite Rmult_1_r, Cmult_1_r. reflexivity.
  - injection H as -> ->. rewrite Cmult_0_r, Cmod_0, Rmult_0_r. reflexivity.
Qed.
Lemma limb_in images mask samples z r t : Forall2 limb_sample (combine images mask) samples -> In (z, true) (combine images mask) -> polar z r t -> In (r, t) samples.
Proof.
  intros HF Hz Hp. induction HF as [|[z' m] [r' t'] l l' H _ IH]; [easy|]. destruct Hz as [Hz|Hz]; [|right; auto]. injection Hz as -> ->. left. unfold limb_sample in H. cbn [fst snd] in H. destruct (polar_fun _ _ _ _ _ H Hp) as [-> ->]. reflexivity.
Qed.
Lemma limb_range pm samples : Forall2 limb_sample pm samples -> (forall r t, In (r, t) samples -> r <> 0 -> 1e-8 < r) -> forall r t, In (r, t) samples -> (r, t) = (0, 0) \/ (1e-8 < r /\ 0 <= t < 2 * PI).
Proof.
  intros HF S1 r t H. assert (D : (r, t) = (0, 0) \/ (0 < r /\ 0 <= t < 2 * PI)). { clear - HF H. induction HF as [|[z' m] [r' t'] l l' H0 _ IH]; [easy|]. destruct H as [H|H]; [|auto]. injection H as -> ->. unfold limb_sample in H0. cbn [fst snd] in H0. destruct m; [right|left; auto]. destruct H0 as (A & B & _). auto. }
  destruct D as [|[D1 D2]]; auto. right. split; auto. apply (S1 r t); auto. lra.
Qed.
Theorem define_regions_cover : forall images mask samples rho bins_r bins_th margin_r margin_th nl n0 nreal lo hi,
  Forall2 limb_sample (combine images mask) samples ->
  nl = 2%Z /\ n0 = 10%nat /\ nreal = 5%nat \/ nl = 3%Z /\ n0 = 18%nat /\ nreal = 9%nat ->
  (1 <= bins_r)%nat -> (1 <= bins_th)%nat -> INR bins_th <= 10000 -> 0 < margin_r * rho -> 0 <= margin_th ->
  separated samples lo hi bins_r bins_th (margin_r * rho) n0 nreal ->
  exists out, define_regions images mask rho bins_r bins_th margin_r margin_th nl = Ok (Some out) /\ (length out <= nreal)%nat /\
  forall z r t u v, In (z, true) (combine images mask) -> polar z r t -> inside_group 0 (2 * PI) bins_th (map snd samples) t u v ->
  exists g t', In g out /\ (t' = t \/ t' = t - 2 * PI) /\ fst (fst g) <= r <= snd (fst g) /\
    fst (snd g) <= t' - margin_th * PI / 180 /\ t' + margin_th * PI / 180 <= snd (snd g).
Proof.
  intros images mask samples rho bins_r bins_th margin_r margin_th nl n0 nreal lo hi HF Hnl Hbr Hbt Hbt' Hm Hmth (S1 & S2 & S3 & S4 & S5 & S6 & S7). pose proof (limb_polar_eq images mask samples HF) as E.
  assert (Hn : (nreal <= n0)%nat) by lia.
  destruct (regions_cover samples rho bins_r bins_th margin_r margin_th n0 nreal lo hi Hn Hbr Hbt Hbt' Hm Hmth (limb_range _ _ HF S1) S2 S3 S4 S5 S6 S7) as (out & O1 & O2 & O3).
  exists out. split; [|split; auto].
  - unfold define_regions. rewrite E. destruct Hnl as [(-> & -> & ->)|(-> & -> & ->)]; cbn [Z.eqb Pos.eqb]; rewrite O1; reflexivity.
  - intros z r t u v Hz Hp Hi. apply (O3 r t u v); auto; [eapply limb_in; eauto|]. destruct Hp; lra.
Qed.
Theorem define_regions_ring : forall images mask samples rho bins_r bins_th margin_r margin_th nl n0 nreal lo hi,
  Forall2 limb_sample (combine images mask) samples ->
  nl = 2%Z /\ n0 = 10%nat /\ nreal = 5%nat \/ nl = 3%Z /\ n0 = 18%nat /\ nreal = 9%nat ->
  (1 <= bins_r)%nat -> (1 <= bins_th)%nat -> INR bins_th <= 10000 -> 0 < margin_r * rho -> 0 <= margin_th ->
  separated samples lo hi bins_r bins_th (margin_r * rho) n0 nreal ->
  group 0 (2 * PI) bins_th (map snd samples) 1 bins_th ->
  exists out, define_regions images mask rho bins_r bins_th margin_r margin_th nl = Ok (Some out) /\
  forall z r t, In (z, true) (combine images mask) -> polar z r t -> 0 < t ->
  exists g, In g out /\ fst (fst g) < r < snd (fst g) /\ snd g = (- (margin_th * PI / 180), 2 * PI + margin_th * PI / 180).
Proof.
  intros images mask samples rho bins_r bins_th margin_r margin_th nl n0 nreal lo hi HF Hnl Hbr Hbt Hbt' Hm Hmth (S1 & S2 & S3 & S4 & S5 & S6 & S7) HG. pose proof (limb_polar_eq images mask samples HF) as E.
  assert (Hn : (nreal <= n0)%nat) by lia.
  destruct (ring_region samples rho bins_r bins_th margin_r margin_th n0 nreal lo hi Hn Hbr Hbt Hbt' Hm (limb_range _ _ HF S1) S2 S3 S4 S5 S6 HG) as (out & O1 & O3).
  exists out. split.
  - unfold define_regions. rewrite E. destruct Hnl as [(-> & -> & ->)|(-> & -> & ->)]; cbn [Z.eqb Pos.eqb]; rewrite O1; reflexivity.
  - intros z r t Hz Hp Ht. apply (O3 r t); auto; [eapply limb_in; eauto|]. destruct Hp; lra.
Qed.

Theorem define_regions_apart : forall images mask samples rho bins_r bins_th margin_r margin_th nl n0 nreal lo hi,
  Forall2 limb_sample (combine images mask) samples ->
  nl = 2%Z /\ n0 = 10%nat /\ nreal = 5%nat \/ nl = 3%Z /\ n0 = 18%nat /\ nreal = 9%nat ->
  (1 <= bins_r)%nat -> (1 <= bins_th)%nat -> INR bins_th <= 10000 -> 0 < margin_r * rho -> 0 <= margin_th ->
  separated samples lo hi bins_r bins_th (margin_r * rho) n0 nreal ->
  (forall r, In r (map fst samples) -> r <> 0 -> r <> lo -> r <> hi -> exists s e, inside_group lo hi bins_r (map fst samples) r s e) ->
  hi < 1e5 -> margin_th * INR bins_th <= 180 ->
  exists out, define_regions images mask rho bins_r bins_th margin_r margin_th nl = Ok (Some out) /\
  forall i j g g' r t (k l : Z), nth_error out i = Some g -> nth_error out j = Some g' ->
    scans g r (t + 2 * PI * IZR k) -> scans g' r (t + 2 * PI * IZR l) ->
    i = j /\ (~ group 0 (2 * PI) bins_th (map snd samples) 1 bins_th -> k = l).
Proof.
  intros images mask samples rho bins_r bins_th margin_r margin_th nl n0 nreal lo hi HF Hnl Hbr Hbt Hbt' Hm Hmth (S1 & S2 & S3 & S4 & S5 & S6 & S7) H1 H2 H3. pose proof (limb_polar_eq images mask samples HF) as E.
  assert (Hn : (nreal <= n0)%nat) by lia.
  destruct (regions_apart samples rho bins_r bins_th margin_r margin_th n0 nreal lo hi Hn Hbr Hbt Hbt' Hm Hmth (limb_range _ _ HF S1) S2 S3 S4 S5 S6 S7 H1 H2 H3) as (out & O1 & O3).
  exists out. split.
  - unfold define_regions. rewrite E. destruct Hnl as [(-> & -> & ->)|(-> & -> & ->)]; cbn [Z.eqb Pos.eqb]; rewrite O1; reflexivity.
  - intros i j g g' r t k l Ei Ej [A1 A2] [B1 B2]. assert (Li : (i < length out)%nat) by (apply nth_error_Some; congruence). assert (Lj : (j < length out)%nat) by (apply nth_error_Some; congruence).
    apply (O3 i j r t k l Li Lj); rewrite ?(nth_error_nth _ _ zz Ei), ?(nth_error_nth _ _ zz Ej); auto.
Qed.

Theorem define_regions_ordered : forall images mask samples rho bins_r bins_th margin_r margin_th nl n0 nreal lo hi,
  Forall2 limb_sample (combine images mask) samples ->
  nl = 2%Z /\ n0 = 10%nat /\ nreal = 5%nat \/ nl = 3%Z /\ n0 = 18%nat /\ nreal = 9%nat ->
  (1 <= bins_r)%nat -> (1 <= bins_th)%nat -> INR bins_th <= 10000 -> 0 < margin_r * rho -> 0 <= margin_th ->
  separated samples lo hi bins_r bins_th (margin_r * rho) n0 nreal ->
  exists out, define_regions images mask rho bins_r bins_th margin_r margin_th nl = Ok (Some out) /\
  forall g, In g out -> 0 <= fst (fst g) <= snd (fst g) /\ fst (snd g) <= snd (snd g).
Proof.
  intros images mask samples rho bins_r bins_th margin_r margin_th nl n0 nreal lo hi HF Hnl Hbr Hbt Hbt' Hm Hmth (S1 & S2 & S3 & S4 & S5 & S6 & S7). pose proof (limb_polar_eq images mask samples HF) as E.
  assert (Hn : (nreal <= n0)%nat) by lia.
  destruct (regions_ordered samples rho bins_r bins_th margin_r margin_th n0 nreal lo hi Hn Hbr Hbt Hbt' Hm Hmth (limb_range _ _ HF S1) S2 S3 S5 S6) as (out & O1 & O3).
  exists out. split; [|exact O3]. unfold define_regions. rewrite E. destruct Hnl as [(-> & -> & ->)|(-> & -> & ->)]; cbn [Z.eqb Pos.eqb]; rewrite O1; reflexivity.
Qed.

(** ** two limbs *)
Section Cases.
Variables (lo hi : R) (bins : nat) (arr : list R).
Hypothesis Hb : (1 <= bins)%nat. Hypothesis Hl : 0 <= lo <= hi.
Lemma at_most_of_bins n : (bins <= n)%nat -> groups_at_most lo hi bins arr n.
Proof. intros H. exists (seq 1 bins). split; [rewrite seq_length; auto|]. intros j ((x & _ & (B & _)) & _). apply in_seq. lia. Qed.
End Cases.
Definition samples0 : list (R * R) := [(1, PI / 4); (1.1, PI / 4); (0, 0); (1.9, 7 * PI / 4); (2, PI / 4)].
Definition samples1 : list (R * R) := [(1, PI / 4); (1.5, 3 * PI / 4); (1.5, 5 * PI / 4); (2, 7 * PI / 4)].
Ltac binj := unfold in_bin, bin_left; pose proof PI_RGT_0; split; [lia|]; split; simpl; try (left; reflexivity); right; lra.
Ltac noocc := let x := fresh in let Hx := fresh in let B := fresh in intros (x & Hx & B); pose proof PI_RGT_0; unfold in_bin, bin_left in B; simpl in Hx, B; destruct B as (B1 & B2 & B3); try lia; destruct B2 as [B2|B2]; try lia; destruct B3 as [B3|B3]; try lia; repeat (destruct Hx as [Hx|Hx]; [subst x; lra|]); contradiction.
Lemma r0_1 : group 1 2 4 (map fst samples0) 1 1.
Proof. split; [lia|]. split; [lia|]. split; [intros j Hj; replace j with 1%nat by lia; exists 1; split; [simpl; auto|binj]|]. split; noocc. Qed.
Lemma r0_4 : group 1 2 4 (map fst samples0) 4 4.
Proof. split; [lia|]. split; [lia|]. split; [intros j Hj; replace j with 4%nat by lia; exists 2; split; [simpl; tauto|binj]|]. split; noocc. Qed.
Lemma t0_1 : group 0 (2 * PI) 4 (map snd samples0) 1 1.
Proof. split; [lia|]. split; [lia|]. split; [intros j Hj; replace j with 1%nat by lia; exists (PI / 4); split; [simpl; auto|binj]|]. split; noocc. Qed.
Lemma t0_4 : group 0 (2 * PI) 4 (map snd samples0) 4 4.
Proof. split; [lia|]. split; [lia|]. split; [intros j Hj; replace j with 4%nat by lia; exists (7 * PI / 4); split; [simpl; auto|binj]|]. split; noocc. Qed.
Lemma samples0_separated : separated samples0 1 2 4 4 (1 / 5) 10 5.
Proof.
  pose proof PI_RGT_0 as HP. assert (I : forall lo hi bins arr x s j, group lo hi bins arr s j -> in_bin lo hi bins x j -> in_group lo hi bins arr x s j) by (intros; split; [auto|exists j; split; auto; destruct H as ((? & ?) & _); lia]).
  assert (A1 : forall r, 1 <= r < 1.25 -> in_group 1 2 4 (map fst samples0) r 1 1) by (intros r Hr; apply I; [apply r0_1|binj]).
  assert (A4 : forall r, 1.75 <= r <= 2 -> in_group 1 2 4 (map fst samples0) r 4 4) by (intros r Hr; apply I; [apply r0_4|binj]).
  assert (B1 : in_group 0 (2 * PI) 4 (map snd samples0) (PI / 4) 1 1) by (apply I; [apply t0_1|binj]).
  assert (B4 : in_group 0 (2 * PI) 4 (map snd samples0) (7 * PI / 4) 4 4) by (apply I; [apply t0_4|binj]).
  assert (U : forall r s e s' e', in_group 1 2 4 (map fst samples0) r s e -> in_group 1 2 4 (map fst samples0) r s' e' -> s = s' /\ e = e') by (intros *; apply in_group_unique; [lia|lra]).
  assert (W : forall r s e s' e', in_group 0 (2 * PI) 4 (map snd samples0) r s e -> in_group 0 (2 * PI) 4 (map snd samples0) r s' e' -> s = s' /\ e = e') by (intros *; apply in_group_unique; [lia|lra]).
  unfold separated. cbv zeta. repeat split.
  - intros r t H N. simpl in H. repeat (destruct H as [H|H]; [injection H; intros; lra|]); contradiction.
  - simpl; auto.
  - lra.
  - simpl; tauto.
  - lra.
  - simpl in H; repeat (destruct H as [H|H]; [lra|]); contradiction.
  - simpl in H; repeat (destruct H as [H|H]; [lra|]); contradiction.
  - apply at_most_of_bins; lia.
  - apply at_most_of_bins; lia.
  - intros r H N. assert (N1 : inside_group 1 2 4 (map fst samples0) 1.1 1 1) by (split; [apply A1; lra|unfold bin_left; simpl; lra]). assert (N4 : inside_group 1 2 4 (map fst samples0) 1.9 4 4) by (split; [apply A4; lra|unfold bin_left; simpl; lra]).
    simpl in H. destruct H as [<-|[<-|[<-|[<-|[<-|[]]]]]]; [exists 1%nat, 1%nat, 1.1|exists 1%nat, 1%nat, 1.1|lra|exists 4%nat, 4%nat, 1.9|exists 4%nat, 4%nat, 1.9]; (split; [first [apply A1; lra|apply A4; lra]|split; [simpl; tauto|split; [assumption|unfold Rabs; destruct Rcase_abs; lra]]]).
  - exists [(1, 1); (4, 4); (4, 1)]%nat. split; [simpl; lia|]. intros r t s e u v H N G1 G2. simpl in H. destruct H as [E|[E|[E|[E|[E|[]]]]]]; injection E as <- <-; try lra;
      (match type of G1 with in_group _ _ _ _ ?r _ _ => first [destruct (U _ _ _ _ _ G1 (A1 r ltac:(lra))) as [-> ->]|destruct (U _ _ _ _ _ G1 (A4 r ltac:(lra))) as [-> ->]] end);
      (first [destruct (W _ _ _ _ _ G2 B1) as [-> ->]|destruct (W _ _ _ _ _ G2 B4) as [-> ->]]); simpl; tauto.
  - intros r t s e u H N G1 G2 Hu. simpl in H. destruct H as [E|[E|[E|[E|[E|[]]]]]]; injection E as <- <-; try lra.
    + destruct (W _ _ _ _ _ G2 B1) as [_ Q]. discriminate.
    + destruct (W _ _ _ _ _ G2 B1) as [_ Q]. discriminate.
    + destruct (U _ _ _ _ _ G1 (A4 1.9 ltac:(lra))) as [-> ->]. exists 2, (PI / 4), 1%nat. split; [simpl; tauto|]. split; [lra|]. split; [apply A4; lra|]. split; auto. unfold bin_left; simpl; lra.
    + destruct (W _ _ _ _ _ G2 B1) as [_ Q]. discriminate.
Qed.
Lemma samples0_apart : (forall r, In r (map fst samples0) -> r <> 0 -> r <> 1 -> r <> 2 -> exists s e, inside_group 1 2 4 (map fst samples0) r s e) /\
  ~ group 0 (2 * PI) 4 (map snd samples0) 1 4.
Proof.
  split.
  - intros r H H0 H1 H2. simpl in H. destruct H as [<-|[<-|[<-|[<-|[<-|[]]]]]]; try lra.
    + exists 1%nat, 1%nat. split; [split; [apply r0_1|exists 1%nat; split; [lia|binj]]|unfold bin_left; simpl; lra].
    + exists 4%nat, 4%nat. split; [split; [apply r0_4|exists 4%nat; split; [lia|binj]]|unfold bin_left; simpl; lra].
  - intros (_ & _ & H & _). pose proof (H 2%nat ltac:(lia)) as O. revert O. noocc.
Qed.
Lemma r1_1 : group 1 2 1 (map fst samples1) 1 1.
Proof. split; [lia|]. split; [lia|]. split; [intros j Hj; replace j with 1%nat by lia; exists 1; split; [simpl; auto|binj]|]. split; noocc. Qed.
Lemma t1_1 : group 0 (2 * PI) 4 (map snd samples1) 1 4.
Proof.
  split; [lia|]. split; [lia|]. split; [|split; noocc]. intros j Hj. assert (J : j = 1%nat \/ j = 2%nat \/ j = 3%nat \/ j = 4%nat) by lia.
  destruct J as [-> | [-> | [-> | ->]]]; [exists (PI / 4)|exists (3 * PI / 4)|exists (5 * PI / 4)|exists (7 * PI / 4)]; (split; [simpl; tauto|binj]).
Qed.
Lemma samples1_separated : separated samples1 1 2 1 4 1 10 5.
Proof.
  pose proof PI_RGT_0 as HP. assert (A1 : forall r, 1 <= r <= 2 -> in_group 1 2 1 (map fst samples1) r 1 1) by (intros r Hr; split; [apply r1_1|exists 1%nat; split; [lia|binj]]).
  assert (U : forall r s e s' e', in_group 1 2 1 (map fst samples1) r s e -> in_group 1 2 1 (map fst samples1) r s' e' -> s = s' /\ e = e') by (intros *; apply in_group_unique; [lia|lra]).
  assert (W : forall t s e, In t (map snd samples1) -> in_group 0 (2 * PI) 4 (map snd samples1) t s e -> s = 1%nat /\ e = 4%nat).
  { intros t s e Ht (G & j & Hj & B). pose proof G as (G1 & G2 & _). apply (group_same (map snd samples1) 4 0 (2 * PI) ltac:(lia) s e 1 4 j G t1_1 Hj). lia. }
  unfold separated. cbv zeta. repeat split.
  - intros r t H N. simpl in H. repeat (destruct H as [H|H]; [injection H; intros; lra|]); contradiction.
  - simpl; auto.
  - lra.
  - simpl; tauto.
  - lra.
  - simpl in H; repeat (destruct H as [H|H]; [lra|]); contradiction.
  - simpl in H; repeat (destruct H as [H|H]; [lra|]); contradiction.
  - apply at_most_of_bins; lia.
  - apply at_most_of_bins; lia.
  - intros r H N. assert (N1 : inside_group 1 2 1 (map fst samples1) 1.5 1 1) by (split; [apply A1; lra|unfold bin_left; simpl; lra]).
    exists 1%nat, 1%nat, 1.5. assert (Hr : 1 <= r <= 2) by (simpl in H; repeat (destruct H as [H|H]; [lra|]); contradiction). split; [apply A1; auto|]. split; [simpl; tauto|]. split; [assumption|]. unfold Rabs; destruct Rcase_abs; lra.
  - exists [(1, 1)]%nat. split; [simpl; lia|]. intros r t s e u v H N G1 G2. destruct (W t u v (in_map snd _ _ H) G2) as [-> ->]. assert (Hr : 1 <= r <= 2) by (simpl in H; repeat (destruct H as [H|H]; [injection H; intros; lra|]); contradiction). destruct (U _ _ _ _ _ G1 (A1 r Hr)) as [-> ->]. simpl; auto.
  - intros r t s e u H N G1 G2 Hu. destruct (W t u 4%nat (in_map snd _ _ H) G2) as [-> _]. lia.
Qed.
