(** Proofs about M_MergeArea: merging of radial rows, wrap-around merging, final refinement. *)
From Coq Require Import Reals List Bool Arith ZArith Lia Lra Psatz Permutation Sorted.
From Coquelicot Require Import Complex.
From Verif Require Import Base_R Base_List Base_C M_Utils P_Utils M_PointSource M_Limb M_MergeArea S_MergeArea M_ExtSource P_ExtSource P_MergeArea.
Import ListNotations.
Local Open Scope R_scope.

(** ** the merging loop as a recursion *)
Fixpoint merge_go (cur : ival) (rest : list ival) : list ival :=
  match rest with
  | [] => [cur]
  | r :: t => if Rltb (fst r) (snd cur) then (0, 0) :: merge_go (fst cur, snd r) t else cur :: merge_go r t
  end.
Lemma upd_app {A} (P l : list A) v : upd (P ++ l) (length P) v = P ++ upd l 0 v.
Proof. induction P; simpl; congruence. Qed.
Lemma merge_fold P cur t : fold_left merge_step (seq (length P) (length t)) (P ++ cur :: t) = P ++ merge_go cur t.
Proof.
  revert P cur. induction t as [|r t IH]; intros P cur; [reflexivity|].
  cbn [length seq fold_left]. unfold merge_step at 2. cbv zeta.
  rewrite (app_nth2 P (cur :: r :: t) (0, 0) (n := length P)), Nat.sub_diag by lia. rewrite app_nth2 by lia. replace (length P + 1 - length P)%nat with 1%nat by lia. cbn [nth].
  cbn [merge_go]. destruct (Rltb (fst r) (snd cur)).
  - rewrite upd_app. cbn [upd]. set (z := (0, 0) : ival).
    assert (L : length (P ++ [z]) = (length P + 1)%nat) by (rewrite app_length; reflexivity).
    assert (Q : P ++ z :: r :: t = (P ++ [z]) ++ r :: t) by (rewrite <- app_assoc; reflexivity).
    change (fold_left merge_step (seq (S (length P)) (length t)) (upd (P ++ z :: r :: t) (length P + 1) (fst cur, snd r)) = P ++ z :: merge_go (fst cur, snd r) t).
    rewrite Q, <- L, upd_app. cbn [upd]. replace (S (length P)) with (length (P ++ [z])) by lia.
    rewrite IH, <- app_assoc. reflexivity.
  - replace (P ++ cur :: r :: t) with ((P ++ [cur]) ++ r :: t) by (rewrite <- app_assoc; reflexivity).
    replace (S (length P)) with (length (P ++ [cur])) by (rewrite app_length; simpl; lia).
    rewrite IH, <- app_assoc. reflexivity.
Qed.
Lemma merge_rows_go cur t : fold_left merge_step (seq 0 (length (cur :: t) - 1)) (cur :: t) = merge_go cur t.
Proof. simpl length. replace (S (length t) - 1)%nat with (length t) by lia. exact (merge_fold [] cur t). Qed.

Definition row_le (a b : ival) : Prop := fst a <= fst b /\ snd a <= snd b.
Lemma merge_go_covers cur t lo hi : StronglySorted row_le (cur :: t) ->
  (exists g, In g (cur :: t) /\ fst g <= lo /\ hi <= snd g) -> exists g, In g (merge_go cur t) /\ fst g <= lo /\ hi <= snd g.
Proof.
  revert cur. induction t as [|r t IH]; intros cur Hs (g & Hg & G1 & G2); [exists g; auto|].
  inversion Hs as [|? ? Hs' Hf]; subst. inversion Hs' as [|? ? Hs'' Hf']; subst.
  rewrite Forall_forall in Hf, Hf'. simpl. destruct (Hf r (or_introl eq_refl)) as [F1 F2].
  destruct (Rltb (fst r) (snd cur)).
  - destruct (IH (fst cur, snd r)) as (g' & I1 & I2).
    + constructor; auto. apply Forall_forall. intros b Hb. split; simpl; [apply Hf; simpl; auto|apply Hf'; auto].
    + destruct Hg as [<-|[<-|Hg]].
      * exists (fst cur, snd r). simpl. repeat split; auto; lra.
      * exists (fst cur, snd r). simpl. repeat split; auto; lra.
      * exists g. simpl. auto.
    + exists g'. simpl. auto.
  - destruct Hg as [<-|Hg]; [exists cur; simpl; auto|].
    destruct (IH r Hs') as (g' & I1 & I2); [exists g; auto|]. exists g'. simpl; auto.
Qed.
Lemma merge_go_in cur t g : In g (merge_go cur t) -> g = (0, 0) \/ exists a, In a (cur :: t) /\ fst a = fst g.
Proof.
  revert cur. induction t as [|r t IH]; intros cur; simpl; [intros [<-|[]]; right; exists cur; auto|].
  destruct (Rltb (fst r) (snd cur)); intros [<-|H]; auto.
  - destruct (IH _ H) as [|(a & [<-|Ha] & A)]; auto; right; [exists cur; auto|exists a; auto].
  - right; exists cur; auto.
  - destruct (IH _ H) as [|(a & Ha & A)]; auto; right. exists a. simpl in Ha. auto.
Qed.
Lemma merge_go_disjoint cur t : StronglySorted row_le (cur :: t) ->
  forall i j, (i < j < length (merge_go cur t))%nat ->
    nth i (merge_go cur t) (0, 0) = (0, 0) \/ nth j (merge_go cur t) (0, 0) = (0, 0) \/
    snd (nth i (merge_go cur t) (0, 0)) <= fst (nth j (merge_go cur t) (0, 0)).
Proof.
  revert cur. induction t as [|r t IH]; intros cur Hs i j Hij; [simpl in Hij; lia|].
  inversion Hs as [|? ? Hs' Hf]; subst. inversion Hs' as [|? ? Hs'' Hf']; subst.
  rewrite Forall_forall in Hf, Hf'. simpl in Hij |- *. destruct (Hf r (or_introl eq_refl)) as [F1 F2].
  destruct (Rltb_spec (fst r) (snd cur)); cbn [length] in Hij.
  - destruct i as [|i]; [auto|]. destruct j as [|j]; [lia|]. apply IH; [|lia].
    constructor; auto. apply Forall_forall. intros b Hb. split; simpl; [apply Hf; simpl; auto|apply Hf'; auto].
  - destruct j as [|j]; [lia|]. destruct i as [|i].
    + right. cbn [nth]. assert (Hj : In (nth j (merge_go r t) (0, 0)) (merge_go r t)) by (apply nth_In; lia).
      destruct (merge_go_in _ _ _ Hj) as [|(a & [<-|Ha] & A)]; auto; right; rewrite <- A; [lra|].
      destruct (Hf' a Ha). lra.
    + apply IH; auto. lia.
Qed.

(** ** [refine_r] *)
Lemma filter_in_iff (lo hi : R) l x : In x (filter (fun r => Rltb lo r && Rltb r hi) l) <-> In x l /\ lo < x < hi.
Proof. rewrite filter_In, andb_true_iff, !Rltb_true. tauto. Qed.
Lemma refine_r_in r_limb margin rg r : 0 <= margin -> In r r_limb -> fst rg < r < snd rg -> 0 < r ->
  let row := refine_r r_limb margin rg in
  fst row <= Rmax 0 (r - margin) /\ r + margin <= snd row.
Proof.
  intros Hm Hr Hin Hp row. unfold row, refine_r.
  set (ins := filter (fun r => Rltb (fst rg) r && Rltb r (snd rg)) r_limb).
  assert (I : In r ins) by (apply filter_in_iff; auto).
  destruct ins as [|a t] eqn:Q; [easy|]. rewrite <- Q in *. assert (NE : ins <> []) by congruence.
  destruct (jmin_spec _ NE) as [M1 M2]. destruct (jmax_spec _ NE) as [X1 X2].
  specialize (M2 r I). specialize (X2 r I). cbn [fst snd]. split.
  - apply Rle_max_compat_l. lra.
  - destruct (Reqb_spec (jmax ins) 0); lra.
Qed.
(** all bounds of a refined row come from samples of its range *)
Lemma refine_r_bounds r_limb margin rg : 0 <= margin -> 0 <= fst rg -> (exists r, In r r_limb /\ fst rg < r < snd rg) ->
  exists a b, In a r_limb /\ In b r_limb /\ fst rg < a /\ a <= b /\ b < snd rg /\ refine_r r_limb margin rg = (Rmax 0 (a - margin), b + margin).
Proof.
  intros Hm H0 (r & Hr & Hin). unfold refine_r.
  set (ins := filter (fun r => Rltb (fst rg) r && Rltb r (snd rg)) r_limb).
  assert (I : In r ins) by (apply filter_in_iff; auto).
  destruct ins as [|a t] eqn:Q; [easy|]. rewrite <- Q in *. assert (NE : ins <> []) by congruence.
  destruct (jmin_spec _ NE) as [M1 M2]. destruct (jmax_spec _ NE) as [X1 X2].
  apply filter_in_iff in M1. apply filter_in_iff in X1. exists (jmin ins), (jmax ins).
  repeat split; try tauto. apply (Rle_trans _ r); auto. f_equal. destruct (Reqb_spec (jmax ins) 0); [lra|auto].
Qed.
Lemma refine_r_empty r_limb margin rg : 0 <= margin -> (forall r, In r r_limb -> ~ (fst rg < r < snd rg)) -> refine_r r_limb margin rg = (0, 0).
Proof.
  intros Hm H. unfold refine_r.
  assert (E : filter (fun r => Rltb (fst rg) r && Rltb r (snd rg)) r_limb = []).
  { destruct (filter _ r_limb) as [|a t] eqn:Q; auto. exfalso.
    assert (In a (a :: t)) by (simpl; auto). rewrite <- Q in H0. apply filter_in_iff in H0. apply (H a); tauto. }
  rewrite E, Reqb_refl, Rmax_left by lra. reflexivity.
Qed.

(** ranges in increasing order, each either the padding (0,0) or holding a sample strictly inside *)
Definition good_ranges (r_limb : list R) (ranges : list ival) : Prop :=
  StronglySorted (fun a b => snd a <= fst b) ranges /\
  forall g, In g ranges -> g = (0, 0) \/ (0 <= fst g /\ exists r, In r r_limb /\ fst g < r < snd g).
Lemma good_rows_sorted r_limb margin ranges : 0 <= margin -> good_ranges r_limb ranges -> StronglySorted row_le (map (refine_r r_limb margin) ranges).
Proof.
  intros Hm [Hs Hg]. induction Hs as [|g t Hs IH Hf]; simpl; constructor.
  - apply IH. intros; apply Hg; simpl; auto.
  - rewrite Forall_forall in *. intros b Hb. apply in_map_iff in Hb. destruct Hb as (b' & <- & Hb').
    specialize (Hf b' Hb').
    assert (Z : refine_r r_limb margin (0, 0) = (0, 0)) by (apply refine_r_empty; auto; simpl; intros; lra).
    destruct (Hg b') as [->|(B0 & B1)]; [simpl; auto| |].
    + rewrite Z. destruct (Hg g) as [->|(G0 & (r & _ & G1))]; [simpl; auto|rewrite Z; split; simpl; lra|].
      simpl in Hf. lra.
    + destruct (refine_r_bounds r_limb margin b' Hm B0 B1) as (a2 & b2 & _ & _ & C1 & C2 & C3 & ->).
      destruct (Hg g) as [->|(G0 & G1)]; [simpl; auto| |].
      * rewrite Z. split; simpl; [apply Rmax_l|lra].
      * destruct (refine_r_bounds r_limb margin g Hm G0 G1) as (a1 & b1 & _ & _ & D1 & D2 & D3 & ->).
        split; simpl; [|lra]. apply Rle_max_compat_l. lra.
Qed.
Lemma merge_r_covers : forall r_limb ranges margin, 0 <= margin -> good_ranges r_limb ranges ->
  forall g r, In g ranges -> In r r_limb -> fst g < r < snd g -> 0 < r ->
  exists row, In row (refine_addmargin_merge_r r_limb ranges margin) /\ fst row <= Rmax 0 (r - margin) /\ r + margin <= snd row.
Proof.
  intros r_limb ranges margin Hm HG g r Hg Hr Hin Hp. pose proof (good_rows_sorted _ _ _ Hm HG) as HS.
  unfold refine_addmargin_merge_r.
  destruct ranges as [|c t]; [easy|]. replace (length (c :: t)) with (length (map (refine_r r_limb margin) (c :: t))) by apply map_length.
  cbn [map] in *. rewrite merge_rows_go. apply merge_go_covers; auto.
  exists (refine_r r_limb margin g). split; [apply (in_map (refine_r r_limb margin)) in Hg; exact Hg|]. now apply refine_r_in.
Qed.
Lemma merge_r_disjoint : forall r_limb ranges margin, 0 <= margin -> good_ranges r_limb ranges ->
  let rows := refine_addmargin_merge_r r_limb ranges margin in
  forall i j, (i < j < length rows)%nat -> nth i rows (0, 0) = (0, 0) \/ nth j rows (0, 0) = (0, 0) \/ snd (nth i rows (0, 0)) <= fst (nth j rows (0, 0)).
Proof.
  intros r_limb ranges margin Hm HG rows. pose proof (good_rows_sorted _ _ _ Hm HG) as HS. unfold rows, refine_addmargin_merge_r.
  destruct ranges as [|c t]; [simpl; intros; lia|]. replace (length (c :: t)) with (length (map (refine_r r_limb margin) (c :: t))) by apply map_length.
  cbn [map] in *. rewrite merge_rows_go. now apply merge_go_disjoint.
Qed.

(** a range whose only samples sit on its edges is dropped, together with the range before it *)
Lemma edge_samples_lost : forall margin, 0 <= margin ->
  refine_addmargin_merge_r [1; 2] [(1, 5 / 4); (7 / 4, 2)] margin = [(0, 0); (0, 0)].
Proof.
  intros m Hm. unfold refine_addmargin_merge_r. cbn [map length Nat.sub seq fold_left].
  rewrite !refine_r_empty by (auto; simpl; intros r [<-|[<-|[]]]; lra).
  unfold merge_step. cbn [nth Nat.add fst snd]. destruct (Rltb_spec 0 0); [lra|]. reflexivity.
Qed.
Lemma last_range_swallowed : forall a b margin, 1 < a <= b -> b < 5 / 4 -> 0 <= margin <= 1 ->
  refine_addmargin_merge_r [1; a; b; 2] [(1, 5 / 4); (7 / 4, 2)] margin = [(0, 0); (a - margin, 0)].
Proof.
  intros a b m Ha Hb Hm. unfold refine_addmargin_merge_r. cbn [map length Nat.sub seq fold_left].
  rewrite (refine_r_empty _ _ (7 / 4, 2)) by (try lra; simpl; intros r [<-|[<-|[<-|[<-|[]]]]]; lra).
  assert (E : refine_r [1; a; b; 2] m (1, 5 / 4) = (a - m, b + m)).
  { unfold refine_r. cbn [fst snd filter].
    destruct (Rltb_spec 1 1); [lra|]. destruct (Rltb_spec 1 a); [|lra]. destruct (Rltb_spec a (5 / 4)); [|lra].
    destruct (Rltb_spec 1 b); [|lra]. destruct (Rltb_spec b (5 / 4)); [|lra]. destruct (Rltb_spec 2 (5 / 4)); [lra|].
    rewrite ?andb_false_r. cbn [andb jmin jmax fold_left]. rewrite Rmin_left, Rmax_right by lra. rewrite Rmax_right by lra.
    destruct (Reqb_spec b 0); [lra|auto]. }
  rewrite E. unfold merge_step. cbn [nth Nat.add fst snd upd]. destruct (Rltb_spec 0 (b + m)); [|lra]. reflexivity.
Qed.

(** ** wrap-around merging *)
Lemma sort_by_in {A} (key : A -> bool) l x : In x (sort_by key l) <-> In x l.
Proof. split; apply Permutation_in; [|apply Permutation_sym]; apply ssort_perm. Qed.
Lemma region_eqb_true a b : region_eqb a b = true <-> a = b.
Proof.
  unfold region_eqb, ival_eqb. rewrite !andb_true_iff, !Reqb_true. destruct a as [[a1 a2] [a3 a4]], b as [[b1 b2] [b3 b4]]; simpl.
  split; [intros [[-> ->] [-> ->]]; auto|intros H; injection H; auto].
Qed.
Lemma same_r_true a b : same_r a b = true <-> fst a = fst b /\ a <> b.
Proof.
  unfold same_r. rewrite andb_true_iff, negb_true_iff. unfold ival_eqb. rewrite andb_true_iff, !Reqb_true.
  rewrite <- not_true_iff_false, region_eqb_true. destruct a as [[a1 a2] ?], b as [[b1 b2] ?]; simpl. split; intros [H K]; split; auto.
  - destruct H; congruence.
  - injection H; auto.
Qed.
(** a region ending at 2 pi disappears because of two regions of another radial range *)
Lemma merge_final_drops : forall ra rb t1 t2 t3 t4, ra <> rb -> snd ra <> 0 -> snd rb <> 0 -> 0 < t1 -> t1 < t2 < t3 -> t3 < 2 * PI ->
  let rows := [(ra, (0, t1)); (ra, (t2, t3)); (rb, (t4, 2 * PI))] in
  ~ exists g, In g (merge_final rows) /\ fst g = rb.
Proof.
  intros ra rb t1 t2 t3 t4 Hab Hna Hnb H1 H2 H3 rows (g & Hg & G).
  unfold merge_final in Hg. apply sort_by_in in Hg. apply in_map_iff in Hg. destruct Hg as (a & <- & Ha).
  assert (Ex : existsb (fun a => existsb (same_r a) rows && Reqb (fst (snd a)) 0) rows = true).
  { apply existsb_exists. exists (ra, (0, t1)). split; [simpl; auto|]. rewrite Reqb_refl, andb_true_r.
    apply existsb_exists. exists (ra, (t2, t3)). split; [simpl; auto|]. apply same_r_true. split; auto. intros Q; injection Q; lra. }
  unfold vanishes in G. rewrite Ex in G. cbn [andb] in G.
  destruct Ha as [<-|[<-|[<-|[]]]]; cbn [snd fst] in G.
  - destruct (Reqb_spec t1 (2 * PI)); cbn [fst] in G; [lra|contradiction].
  - destruct (Reqb_spec t3 (2 * PI)); cbn [fst] in G; [lra|contradiction].
  - rewrite Reqb_refl in G. cbn [fst] in G. apply Hnb. rewrite <- G. reflexivity.
Qed.

(** ** final refinement *)
Lemma refine_region_covers : forall limb mr mth r_min r_max th_min th_max r t t', 0 <= mr -> 0 <= mth -> 0 <= r_min ->
  In (r, t) limb -> 0 <= t < 2 * PI -> t' = t \/ t' = t - 2 * PI ->
  r_min < r < r_max -> th_min < t' < th_max -> t' <> 0 ->
  let g := refine_region limb mr mth ((r_min, r_max), (th_min, th_max)) in
  fst (fst g) <= r <= snd (fst g) /\ fst (snd g) <= t' - mth /\ t' + mth <= snd (snd g).
Proof.
  intros limb mr mth r_min r_max th_min th_max r t t' Hmr Hmth Hr0 Hin Ht Ht' Hr Hth Hnz g.
  pose proof PI_RGT_0 as HPI.
  set (flip := Rltb (- PI) th_min && Rltb th_min 0 && Rltb 0 th_max && Rltb th_max PI).
  set (th_new := fun t : R => if flip then if Rltb PI t then t - 2 * PI else t else t).
  set (inside := fun p : R * R => Rltb r_min (fst p) && Rltb (fst p) r_max &&
       (Rltb th_min (th_new (snd p)) && Rltb (th_new (snd p)) th_max && nonzero (th_new (snd p)) && nonzero (fst p))).
  set (rn := jmin (map (fun p => if inside p then fst p else 1e5) limb)).
  set (rx := jmax (map (fun p => if inside p then fst p else 0) limb)).
  set (tn := jmin (map (fun p => if inside p then th_new (snd p) else 1e5) limb)).
  set (tx := jmax (map (fun p => if inside p then th_new (snd p) else -1e5) limb)).
  set (rx' := if Reqb rx 0 then 0 else rx + mr).
  assert (Q : g = if Rltb 0 th_min || flip
    then ((Rmax 0 (rn - mr), rx'), (if Reqb (Rmax 0 (rn - mr)) 0 && Reqb rx' 0 then 0 else tn - mth, if Reqb (Rmax 0 (rn - mr)) 0 && Reqb rx' 0 then 0 else tx + mth))
    else ((r_min, r_max), (if Reqb r_min 0 && Reqb r_max 0 then 0 else th_min - mth, if Reqb r_min 0 && Reqb r_max 0 then 0 else th_max + mth))).
  { unfold g, refine_region. fold flip. destruct (Rltb 0 th_min || flip); reflexivity. }
  rewrite Q. clear Q g.
  destruct (Rltb 0 th_min || flip) eqn:C; cycle 1.
  - cbn [fst snd]. assert (E : Reqb r_min 0 && Reqb r_max 0 = false).
    { rewrite andb_false_iff. right. apply Reqb_false. lra. }
    rewrite E. repeat split; lra.
  - assert (T : th_new t = t').
    { unfold th_new. destruct flip eqn:F.
      - unfold flip in F. rewrite !andb_true_iff, !Rltb_true in F. destruct (Rltb_spec PI t); destruct Ht'; lra.
      - rewrite orb_false_r, Rltb_true in C. destruct Ht'; [auto|lra]. }
    assert (I : inside (r, t) = true).
    { unfold inside. cbn [fst snd]. rewrite T. unfold nonzero. rewrite !andb_true_iff, !Rltb_true, !negb_true_iff, !Reqb_false. repeat split; lra. }
    assert (J1 : rn <= r) by (apply jmin_le, in_map_iff; exists (r, t); rewrite I; auto).
    assert (J2 : r <= rx) by (apply jmax_ge, in_map_iff; exists (r, t); rewrite I; auto).
    assert (J3 : tn <= t') by (apply jmin_le, in_map_iff; exists (r, t); rewrite I; auto).
    assert (J4 : t' <= tx) by (apply jmax_ge, in_map_iff; exists (r, t); rewrite I; auto).
    assert (R1 : rx' = rx + mr) by (unfold rx'; destruct (Reqb_spec rx 0); lra).
    cbn [fst snd]. rewrite R1.
    assert (E : Reqb (Rmax 0 (rn - mr)) 0 && Reqb (rx + mr) 0 = false).
    { rewrite andb_false_iff. right. apply Reqb_false. lra. }
    rewrite E. repeat split; try lra. apply Rmax_lub; lra.
Qed.
