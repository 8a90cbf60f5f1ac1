(** The open tracks handed to the merger are exactly the long runs of the tracks. *)
From Coq Require Import Reals Lra Lia Bool List Arith ZArith Permutation Sorted.
From Coquelicot Require Import Complex.
From Verif Require Import Base_R Base_List M_Utils S_Utils P_Utils M_Contour S_Contour P_Contour M_Segments P_Segments M_SegMerge P_SegMerge.
Import ListNotations.
Local Open Scope R_scope.

Definition trun (t : track) (a b : nat) : Prop :=
  (a <= b)%nat /\ (forall i, (a <= i <= b)%nat -> vb t i = true) /\ (forall i, (a < i <= b)%nat -> brkb t i = false) /\
  stb t a = true /\ enb t (S b) = true.

Lemma max_below (P : nat -> bool) n a : (a < n)%nat -> P a = true ->
  exists b, (b < n)%nat /\ P b = true /\ forall i, (i < n)%nat -> P i = true -> (i <= b)%nat.
Proof.
  induction n as [|n IH]; intros Ha Hp; [lia|].
  destruct (P n) eqn:E. { exists n. repeat split; auto; lia. }
  destruct (Nat.eq_dec a n) as [->|]; [congruence|].
  destruct (IH ltac:(lia) Hp) as (b & A & B & D). exists b. repeat split; auto; try lia.
  intros i Hi Pi. destruct (Nat.eq_dec i n) as [->|]; [congruence|]. apply D; auto; lia.
Qed.

Section Runs.
Variable t : track.
Hypothesis W : wf_track t.
Let n := length (t_z t).

Lemma vb_lt i : vb t i = true -> (i < n)%nat.
Proof. intros H. destruct (Nat.lt_ge_cases i n); auto. rewrite (vb_over t W) in H; auto; discriminate. Qed.
Lemma enb_S i : enb t (S i) = (vb t i && (negb (vb t (S i)) || brkb t (S i)))%bool.
Proof. unfold enb. simpl. rewrite Nat.sub_0_r. auto. Qed.
Lemma stb_vb a : stb t a = true -> vb t a = true.
Proof. unfold stb. intros H. apply andb_prop in H. tauto. Qed.

Lemma slot_run j : (j < n_pieces_b t)%nat -> exists a b, trun t a b /\ cnt (enb t) (S a) = j /\
  forall i, (vb t i && (j =? cnt (enb t) (S i))%nat)%bool = ((a <=? i) && (i <=? b))%nat%bool.
Proof.
  intros Hj. destruct (slot_onto t j Hj) as (a & Ha & Sa & Ca). fold n in Ha.
  set (P := fun i => (vb t i && (j =? cnt (enb t) (S i))%nat)%bool).
  assert (Pa : P a = true) by (unfold P; rewrite (stb_vb a Sa), Ca, Nat.eqb_refl; auto).
  destruct (max_below P n a Ha Pa) as (b & Hb & Pb & Mb).
  assert (Hab : (a <= b)%nat) by auto.
  assert (PP : forall i, P i = true <-> vb t i = true /\ cnt (enb t) (S i) = j).
  { intros i. unfold P. rewrite andb_true_iff, Nat.eqb_eq. intuition. }
  apply PP in Pb as [Vb Cb].
  assert (In1 : forall i, (a <= i <= b)%nat -> vb t i = true /\ cnt (enb t) (S i) = j).
  { intros i Hi. pose proof (slot_mono t a i ltac:(lia)). pose proof (slot_mono t i b ltac:(lia)).
    split; [|lia]. destruct (Nat.eq_dec i a) as [->|]; [apply stb_vb; auto|]. destruct (Nat.eq_dec i b) as [->|]; auto.
    apply (slot_convex t a i b); auto; try lia. apply stb_vb; auto. }
  assert (Out : forall i, P i = true -> (a <= i <= b)%nat).
  { intros i Hi. pose proof Hi as Hi0. apply PP in Hi as [Vi Ci]. split; [|apply Mb; auto; apply vb_lt; auto].
    destruct (Nat.le_gt_cases a i); auto. exfalso.
    assert (Va : vb t (a - 1) = true).
    { destruct (Nat.eq_dec i (a - 1)) as [->|]; auto. apply (slot_convex t i (a - 1) a); auto; try lia. apply stb_vb; auto. }
    destruct a as [|a']; [lia|]. simpl in Va. rewrite Nat.sub_0_r in Va.
    assert (En : enb t (S a') = true).
    { rewrite enb_S, Va. simpl. unfold stb in Sa. simpl in Sa. rewrite Nat.sub_0_r, Va in Sa. simpl in Sa.
      apply andb_prop in Sa as [_ Sa]. rewrite Sa. apply orb_true_r. }
    rewrite (cnt_S (enb t) (S a')), En in Ca. pose proof (slot_mono t i a' ltac:(lia)). lia. }
  exists a, b. split; [|split; auto].
  - split; auto. split; [intros i Hi; apply In1; auto|]. split; [|split; auto].
    + intros i Hi. destruct i as [|i]; [lia|]. destruct (brkb t (S i)) eqn:Eb; auto. exfalso.
      destruct (In1 i ltac:(lia)) as [Vi Ci]. destruct (In1 (S i) ltac:(lia)) as [Vi' Ci'].
      assert (En : enb t (S i) = true) by (rewrite enb_S, Vi, Eb, orb_true_r; auto).
      rewrite (cnt_S (enb t) (S i)), En in Ci'. lia.
    + rewrite enb_S, Vb. simpl. destruct (vb t (S b)) eqn:V; auto. simpl. destruct (brkb t (S b)) eqn:B; auto. exfalso.
      assert (P (S b) = true). { apply PP. split; auto. rewrite (cnt_S (enb t) (S b)), enb_S, Vb, V, B. simpl. lia. }
      apply Out in H. lia.
  - intros i. fold (P i). destruct (P i) eqn:E.
    + apply Out in E. symmetry. apply andb_true_iff. split; apply Nat.leb_le; lia.
    + symmetry. apply not_true_is_false. intros H. apply andb_true_iff in H as [H1 H2]. apply Nat.leb_le in H1, H2.
      assert (P i = true) by (apply PP, In1; lia). congruence.
Qed.

Lemma trun_le a b a' b' i : trun t a b -> trun t a' b' -> (a <= i <= b)%nat -> (a' <= i <= b')%nat -> (a <= a')%nat /\ (b' <= b)%nat.
Proof.
  intros (A1 & A2 & A3 & A4 & A5) (B1 & B2 & B3 & B4 & B5) Hi Hi'. split.
  - destruct (Nat.le_gt_cases a a'); auto. exfalso.
    assert (V : vb t (a - 1) = true) by (apply B2; lia). assert (Bk : brkb t a = false) by (apply B3; lia).
    unfold stb in A4. rewrite V, Bk in A4. destruct (Nat.eqb_spec a 0); [lia|]. simpl in A4. rewrite andb_false_r in A4. discriminate.
  - destruct (Nat.le_gt_cases b' b); auto. exfalso.
    assert (V : vb t (S b) = true) by (apply B2; lia). assert (Bk : brkb t (S b) = false) by (apply B3; lia).
    rewrite enb_S, V, Bk in A5. simpl in A5. rewrite andb_false_r in A5. discriminate.
Qed.
Lemma trun_eq a b a' b' i : trun t a b -> trun t a' b' -> (a <= i <= b)%nat -> (a' <= i <= b')%nat -> a = a' /\ b = b'.
Proof. intros H H' Hi Hi'. destruct (trun_le _ _ _ _ _ H H' Hi Hi'). destruct (trun_le _ _ _ _ _ H' H Hi' Hi). lia. Qed.

Lemma finite_choice {A} (d : A) (P : nat -> A -> Prop) m : (forall j, (j < m)%nat -> exists x, P j x) ->
  exists l, length l = m /\ forall j, (j < m)%nat -> P j (nth j l d).
Proof.
  induction m as [|m IH]; intros H. { exists []. split; auto; intros; lia. }
  destruct IH as (l & L & Hl). { intros; apply H; lia. }
  destruct (H m ltac:(lia)) as [x Hx]. exists (l ++ [x]). split; [rewrite app_length, L; simpl; lia|].
  intros j Hj. destruct (Nat.eq_dec j m) as [->|].
  - rewrite app_nth2 by lia. rewrite L, Nat.sub_diag. auto.
  - rewrite app_nth1 by lia. apply Hl; lia.
Qed.

Lemma runs_list : exists RL : list (nat * nat), length RL = n_pieces_b t /\ NoDup RL /\
  (forall a b, In (a, b) RL <-> trun t a b) /\
  forall j, (j < length RL)%nat -> forall i,
    (vb t i && (j =? cnt (enb t) (S i))%nat)%bool = ((fst (nth j RL (0, 0)) <=? i) && (i <=? snd (nth j RL (0, 0))))%nat%bool.
Proof.
  destruct (finite_choice (0, 0)%nat (fun j x => trun t (fst x) (snd x) /\ cnt (enb t) (S (fst x)) = j /\
     forall i, (vb t i && (j =? cnt (enb t) (S i))%nat)%bool = ((fst x <=? i) && (i <=? snd x))%nat%bool) (n_pieces_b t)) as (RL & L & H).
  { intros j Hj. destruct (slot_run j Hj) as (a & b & H). exists (a, b). exact H. }
  exists RL. split; auto. split; [|split].
  - apply NoDup_nth with (d := (0, 0)%nat). intros i j Hi Hj E. rewrite L in Hi, Hj.
    destruct (H i Hi) as (_ & A & _). destruct (H j Hj) as (_ & B & _). rewrite E in A. lia.
  - intros a b. split.
    + intros Hin. apply (In_nth _ _ (0, 0)%nat) in Hin as (j & Hj & E). rewrite L in Hj. destruct (H j Hj) as (A & _). rewrite E in A. auto.
    + intros Hr. pose proof Hr as (A1 & A2 & _ & A4 & _).
      pose proof (slot_bound t W a (stb_vb a A4)) as Hj. set (j := cnt (enb t) (S a)) in *.
      destruct (H j Hj) as (B1 & B2 & B3). specialize (B3 a). rewrite (stb_vb a A4) in B3. fold j in B3. rewrite Nat.eqb_refl in B3.
      symmetry in B3. apply andb_true_iff in B3 as [C1 C2]. apply Nat.leb_le in C1, C2.
      destruct (trun_eq _ _ _ _ a Hr B1) as [D1 D2]; try lia.
      replace (a, b) with (nth j RL (0, 0)%nat). { apply nth_In. lia. }
      rewrite D1, D2. destruct (nth j RL (0, 0)%nat); auto.
  - intros j Hj i. rewrite L in Hj. destruct (H j Hj) as (_ & _ & B). apply B.
Qed.
End Runs.

Definition long_run (t : track) (ab : nat * nat) : option piece :=
  if (fst ab <? snd ab)%nat then
    Some (map (fun i => nth i (t_z t) (RtoC 0)) (seq (fst ab) (S (snd ab - fst ab))),
          map (fun i => nth i (t_par t) 0) (seq (fst ab) (S (snd ab - fst ab))))
  else None.

(** one slot: content [a..b] of a track *)
Definition holds (t u : track) (a b : nat) : Prop :=
  length (t_z u) = length (t_z t) /\ length (t_par u) = length (t_z t) /\
  forall i, (i < length (t_z t))%nat ->
    nth i (t_z u) (RtoC 0) = (if ((a <=? i) && (i <=? b))%nat then nth i (t_z t) (RtoC 0) else RtoC 0) /\
    nth i (t_par u) 0 = (if ((a <=? i) && (i <=? b))%nat then nth i (t_par t) 0 else 0).
Definition blank (m : nat) (u : track) : Prop := t_z u = repeat (RtoC 0) m /\ t_par u = repeat 0 m.

Lemma czero_true z : czero z = true <-> z = RtoC 0.
Proof.
  unfold czero. rewrite iszero_true. split; [apply Cmod_eq_0|intros ->; apply Cmod_0].
Qed.
Lemma filter_count_range (l : list C) a b : (a <= b)%nat -> (b < length l)%nat ->
  (forall i, (i < length l)%nat -> (a <= i <= b)%nat <-> nth i l (RtoC 0) <> RtoC 0) ->
  length (filter (fun z => negb (czero z)) l) = S (b - a).
Proof.
  intros Hab Hb H.
  assert (E : filter (fun z => negb (czero z)) l = map (fun i => nth i l (RtoC 0)) (seq a (S (b - a)))).
  2:{ rewrite E, map_length, seq_length. auto. }
  assert (El : l = map (fun i => nth i l (RtoC 0)) (seq 0 a) ++ map (fun i => nth i l (RtoC 0)) (seq a (S (b - a))) ++
       map (fun i => nth i l (RtoC 0)) (seq (S b) (length l - S b))).
  { rewrite <- !map_app. replace (S b) with (a + S (b - a))%nat at 1 by lia. rewrite <- seq_app.
    rewrite <- (seq_app a _ 0). replace (a + (S (b - a) + (length l - S b)))%nat with (length l) by lia.
    apply (list_eq_nth (RtoC 0)). { rewrite map_length, seq_length; auto. }
    intros i Hi. rewrite nth_map_lt with (da := 0%nat) by (rewrite seq_length; auto). rewrite seq_nth by auto. auto. }
  assert (F0 : forall s k, (forall i, (s <= i < s + k)%nat -> nth i l (RtoC 0) = RtoC 0) ->
     filter (fun z => negb (czero z)) (map (fun i => nth i l (RtoC 0)) (seq s k)) = []).
  { intros s k. revert s. induction k; intros s Hz; simpl; auto. rewrite Hz by lia.
    assert (Z : czero (RtoC 0) = true) by (apply czero_true; auto). rewrite Z. simpl. apply IHk. intros; apply Hz; lia. }
  assert (F1 : forall s k, (forall i, (s <= i < s + k)%nat -> nth i l (RtoC 0) <> RtoC 0) ->
     filter (fun z => negb (czero z)) (map (fun i => nth i l (RtoC 0)) (seq s k)) = map (fun i => nth i l (RtoC 0)) (seq s k)).
  { intros s k. revert s. induction k; intros s Hz; cbn [seq map filter]; auto.
    assert (Z : czero (nth s l (RtoC 0)) = false). { apply not_true_is_false. rewrite czero_true. apply Hz; lia. }
    rewrite Z. cbn [negb]. rewrite IHk; auto. intros; apply Hz; lia. }
  rewrite El at 1. rewrite !filter_app. rewrite F0, F1, F0. { rewrite app_nil_r. auto. }
  - intros i Hi. destruct (Ceq_dec (nth i l (RtoC 0)) (RtoC 0)) as [|Ne]; auto. apply H in Ne; lia.
  - intros i Hi. apply H; lia.
  - intros i Hi. destruct (Ceq_dec (nth i l (RtoC 0)) (RtoC 0)) as [|Ne]; auto. apply H in Ne; lia.
Qed.

Lemma map_const_repeat {A B} (c : B) (l : list A) : map (fun _ => c) l = repeat c (length l).
Proof. induction l; simpl; congruence. Qed.
Lemma blank_front m u : blank m u -> seg_of_track (head_to_front u) = rep m None.
Proof.
  intros [A B]. unfold seg_of_track, head_to_front, rep. cbn [t_z t_par]. rewrite A, B, !roll_repeat, pseg_nil. auto.
Qed.
Lemma blank_count m u : blank m u -> n_points u = 0%nat.
Proof.
  intros [A _]. unfold n_points. rewrite A. clear. induction m; simpl; auto.
  assert (Z : czero (RtoC 0) = true) by (apply czero_true; auto). rewrite Z. simpl. auto.
Qed.
Lemma drop_blank m u : length (t_par u) = m -> length (t_z u) = m -> (n_points u < 2)%nat -> blank m (drop_short u).
Proof.
  intros H1 H2 H. unfold drop_short. apply Nat.ltb_lt in H. rewrite H. split; cbn [t_z t_par]; rewrite map_const_repeat; congruence.
Qed.
Lemma blank_exists m u : blank m u -> existsb (fun z => negb (czero z)) (t_z u) = false.
Proof.
  intros [A _]. rewrite A. apply not_true_is_false. rewrite existsb_exists. intros (z & Hz & N).
  apply repeat_spec in Hz. subst. assert (Z : czero (RtoC 0) = true) by (apply czero_true; auto). rewrite Z in N. discriminate.
Qed.

Lemma roll_back {A} (d : A) (l : list A) a b : (a <= b)%nat -> (b < length l)%nat ->
  (forall i, (i < length l)%nat -> ~ (a <= i <= b)%nat -> nth i l d = d) ->
  roll d l (- Z.of_nat a) = packed d (length l) (map (fun i => nth i l d) (seq a (S (b - a)))).
Proof.
  intros Hab Hb H.
  assert (L1 : length (map (fun i => nth i l d) (seq a (S (b - a)))) = S (b - a)) by (rewrite map_length, seq_length; auto).
  apply (list_eq_nth d). { rewrite roll_length, packed_length; auto. rewrite L1. lia. }
  intros i Hi. rewrite roll_length in Hi. rewrite nth_roll by auto. rewrite nth_packed.
  destruct (Nat.le_gt_cases i (b - a)) as [Hle|Hgt].
  - rewrite nth_map_lt with (da := 0%nat) by (rewrite seq_length; lia). rewrite seq_nth by lia.
    rewrite Z.mod_small by lia. f_equal. lia.
  - rewrite (nth_overflow (map _ _)) by (rewrite L1; lia).
    set (k := Z.to_nat _). assert (Hk : (k < length l)%nat).
    { unfold k. pose proof (Z.mod_pos_bound (Z.of_nat i - - Z.of_nat a) (Z.of_nat (length l)) ltac:(lia)). lia. }
    apply H; auto. unfold k. destruct (Nat.lt_ge_cases (i + a) (length l)).
    + rewrite Z.mod_small by lia. lia.
    + replace (Z.of_nat i - - Z.of_nat a)%Z with (Z.of_nat (i + a - length l) + 1 * Z.of_nat (length l))%Z by lia.
      rewrite Z.mod_add by lia. rewrite Z.mod_small by lia. lia.
Qed.

Lemma slot_seg t u a b : (a <= b)%nat -> (b < length (t_z t))%nat -> holds t u a b ->
  (forall i, (a <= i <= b)%nat -> nth i (t_z t) (RtoC 0) <> RtoC 0) ->
  seg_of_track (head_to_front (drop_short u)) = rep (length (t_z t)) (long_run t (a, b)) /\
  existsb (fun z => negb (czero z)) (t_z (drop_short u)) = match long_run t (a, b) with Some _ => true | None => false end.
Proof.
  intros Hab Hb (L1 & L2 & Hu) Hnz.
  assert (InZ : forall i, (a <= i <= b)%nat -> nth i (t_z u) (RtoC 0) = nth i (t_z t) (RtoC 0) /\ nth i (t_par u) 0 = nth i (t_par t) 0).
  { intros i Hi. destruct (Hu i ltac:(lia)) as [E1 E2]. assert (E : ((a <=? i) && (i <=? b))%nat = true) by (apply andb_true_iff; split; apply Nat.leb_le; lia).
    rewrite E in E1, E2. auto. }
  assert (OutZ : forall i, (i < length (t_z t))%nat -> ~ (a <= i <= b)%nat -> nth i (t_z u) (RtoC 0) = RtoC 0 /\ nth i (t_par u) 0 = 0).
  { intros i Hi Hn. destruct (Hu i Hi) as [E1 E2]. assert (E : ((a <=? i) && (i <=? b))%nat = false).
    { apply not_true_is_false. intros E. apply andb_true_iff in E as [F1 F2]. apply Nat.leb_le in F1, F2. lia. }
    rewrite E in E1, E2. auto. }
  assert (Iff : forall i, (i < length (t_z u))%nat -> (a <= i <= b)%nat <-> nth i (t_z u) (RtoC 0) <> RtoC 0).
  { intros i Hi. rewrite L1 in Hi. split.
    - intros H. rewrite (proj1 (InZ i H)). auto.
    - intros H. destruct (le_lt_dec a i), (le_lt_dec i b); auto; exfalso; apply H, OutZ; auto; lia. }
  assert (Np : n_points u = S (b - a)) by (unfold n_points; apply filter_count_range; auto; lia).
  unfold long_run. cbn [fst snd].
  destruct (Nat.ltb_spec a b) as [Hlt|Hge].
  - assert (Hd : drop_short u = u). { unfold drop_short. destruct (Nat.ltb_spec (n_points u) 2); auto. lia. }
    rewrite Hd. split.
    + unfold seg_of_track, head_to_front, rep. cbn [t_z t_par fst snd].
      assert (Ef : first_nonzero (map Cmod (t_z u)) = a).
      { destruct (first_nonzero_spec (map Cmod (t_z u))) as [F _]. destruct F as (F1 & F2 & F3).
        { exists (Cmod (nth a (t_z u) (RtoC 0))). split; [apply in_map, nth_In; lia|].
          intros E. apply Cmod_eq_0 in E. apply (Iff a); auto; lia. }
        rewrite map_length in F1. set (f := first_nonzero _) in *.
        assert (Nf : forall i, (i < length (t_z u))%nat -> nth i (map Cmod (t_z u)) 0 = Cmod (nth i (t_z u) (RtoC 0))) by (intros; apply nth_map_lt; auto).
        rewrite Nf in F2 by auto.
        assert (a <= f <= b)%nat. { apply Iff; auto. intros E. apply F2. rewrite E. apply Cmod_0. }
        destruct (Nat.eq_dec f a); auto. exfalso. apply (F3 a); [lia|]. rewrite Nf by lia. intros E. apply Cmod_eq_0 in E. apply (Iff a); auto; lia. }
      rewrite Ef. unfold pseg. f_equal.
      * rewrite (roll_back (RtoC 0) (t_z u) a b); auto; try lia.
        -- rewrite L1. f_equal. apply map_ext_in. intros i Hi. apply in_seq in Hi. apply InZ. lia.
        -- intros i Hi Hn. apply OutZ; auto. lia.
      * rewrite (roll_back 0 (t_par u) a b); auto; try lia.
        -- rewrite L2. f_equal. apply map_ext_in. intros i Hi. apply in_seq in Hi. apply InZ. lia.
        -- intros i Hi Hn. apply OutZ; auto. lia.
    + apply existsb_exists. exists (nth a (t_z u) (RtoC 0)). split; [apply nth_In; lia|].
      destruct (czero (nth a (t_z u) (RtoC 0))) eqn:E; auto. apply czero_true in E. exfalso. apply (Iff a); auto; lia.
  - assert (B : blank (length (t_z t)) (drop_short u)) by (apply drop_blank; auto; lia).
    split; [apply blank_front; auto|apply (blank_exists _ _ B)].
Qed.

(** the ten slots of one track *)
Lemma split_slots t np : wf_track t -> (n_pieces_b t <= 2 * np)%nat ->
  (forall i, vb t i = true -> nth i (t_z t) (RtoC 0) <> RtoC 0) ->
  exists RL : list (nat * nat), NoDup RL /\ (forall a b, In (a, b) RL <-> trun t a b) /\
  exists opts : list (option piece), length opts = (2 * np)%nat /\ somes opts = somes (map (long_run t) RL) /\
  map (fun u => seg_of_track (head_to_front (drop_short u))) (split_segment t np) = map (rep (length (t_z t))) opts /\
  map (fun u => existsb (fun z => negb (czero z)) (t_z (drop_short u))) (split_segment t np) =
    map (fun o => match o with Some _ => true | None => false end) opts.
Proof.
  intros W Hnp Hnz. destruct (runs_list t W) as (RL & L & Nd & Hin & Hslot). exists RL. split; auto. split; auto.
  exists (map (long_run t) RL ++ repeat None (2 * np - length RL)).
  assert (Hs : forall j, (j < 2 * np)%nat ->
     let u := nth j (split_segment t np) empty_track in
     let o := nth j (map (long_run t) RL ++ repeat None (2 * np - length RL)) None in
     seg_of_track (head_to_front (drop_short u)) = rep (length (t_z t)) o /\
     existsb (fun z => negb (czero z)) (t_z (drop_short u)) = match o with Some _ => true | None => false end).
  { intros j Hj u o. destruct (split_rows t W np j Hj) as (R1 & R2 & R3). fold u in R1, R2, R3.
    assert (Hsm : forall i, (i < length (t_z t))%nat ->
       nth i (t_z u) (RtoC 0) = (if (vb t i && (j =? cnt (enb t) (S i))%nat)%bool then nth i (t_z t) (RtoC 0) else RtoC 0) /\
       nth i (t_par u) 0 = (if (vb t i && (j =? cnt (enb t) (S i))%nat)%bool then nth i (t_par t) 0 else 0)).
    { intros i Hi. pose proof (split_sample t W np j i Hj Hi) as E. fold u in E. unfold tsample, sample, no_sample in E.
      destruct (vb t i && _); apply pair_equal_spec in E as [E _]; apply pair_equal_spec in E as [E1 E2]; auto. }
    destruct (Nat.lt_ge_cases j (length RL)) as [Hlt|Hge].
    - assert (Eo : o = long_run t (nth j RL (0, 0)%nat)).
      { unfold o. rewrite app_nth1 by (rewrite map_length; auto). rewrite nth_map_lt with (da := (0, 0)%nat); auto. }
      rewrite Eo. assert (Hr : trun t (fst (nth j RL (0, 0)%nat)) (snd (nth j RL (0, 0)%nat))).
      { apply Hin. rewrite <- surjective_pairing. apply nth_In; auto. }
      destruct (nth j RL (0, 0)%nat) as [a b] eqn:Ej. cbn [fst snd] in Hr. pose proof Hr as (A1 & A2 & _).
      apply slot_seg; auto.
      + apply (vb_lt t W). apply A2. lia.
      + split; auto. split; auto. intros i Hi. specialize (Hslot j Hlt i). rewrite Ej in Hslot. cbn [fst snd] in Hslot.
        rewrite <- Hslot. apply Hsm; auto.
    - assert (Eo : o = None). { unfold o. rewrite app_nth2 by (rewrite map_length; auto). apply nth_repeat. }
      rewrite Eo. assert (B0 : blank (length (t_z t)) u).
      { assert (Z : forall i, (i < length (t_z t))%nat -> nth i (t_z u) (RtoC 0) = RtoC 0 /\ nth i (t_par u) 0 = 0).
        { intros i Hi. destruct (Hsm i Hi) as [E1 E2]. assert (Q : (vb t i && (j =? cnt (enb t) (S i))%nat)%bool = false).
          { apply not_true_is_false. intros Q. apply andb_true_iff in Q as [Q1 Q2]. apply Nat.eqb_eq in Q2.
            pose proof (slot_bound t W i Q1). lia. }
          rewrite Q in E1, E2. auto. }
        split; [apply (list_eq_nth (RtoC 0))|apply (list_eq_nth 0)]; rewrite ?repeat_length; auto; intros i Hi; rewrite nth_repeat; apply Z; lia. }
      assert (B : blank (length (t_z t)) (drop_short u)) by (apply drop_blank; auto; rewrite (blank_count _ _ B0); lia).
      split; [apply blank_front; auto|apply (blank_exists _ _ B)]. }
  assert (LO : length (map (long_run t) RL ++ repeat None (2 * np - length RL)) = (2 * np)%nat).
  { rewrite app_length, map_length, repeat_length. lia. }
  split; auto. split; [|split].
  - clear. set (k := (2 * np - length RL)%nat). clearbody k. induction (map (long_run t) RL) as [|[x|] l IH]; simpl; try congruence. induction k; simpl; auto.
  - apply (list_eq_nth (rep (length (t_z t)) None)). { rewrite !map_length, split_length; auto. }
    intros j Hj. rewrite map_length in Hj. pose proof Hj as Hj'. rewrite split_length in Hj'.
    rewrite nth_map_lt with (da := empty_track) by (rewrite split_length; auto).
    rewrite nth_map_lt with (da := None) by lia. apply Hs; auto.
  - apply (list_eq_nth false). { rewrite !map_length, split_length; auto. }
    intros j Hj. rewrite map_length in Hj. pose proof Hj as Hj'. rewrite split_length in Hj'.
    rewrite nth_map_lt with (da := empty_track) by (rewrite split_length; auto).
    rewrite nth_map_lt with (da := None) by lia. apply Hs; auto.
Qed.

(** all slots of all tracks *)
Definition runs_of (ts : list track) (runs : list (list (nat * nat))) : Prop :=
  length runs = length ts /\ forall i, (i < length ts)%nat -> NoDup (nth i runs []) /\
    forall a b, In (a, b) (nth i runs []) <-> trun (nth i ts empty_track) a b.
Definition long_runs (ts : list track) (runs : list (list (nat * nat))) : list piece :=
  concat (map (fun tr => somes (map (long_run (fst tr)) (snd tr))) (combine ts runs)).

Lemma somes_app {A} (l m : list (option A)) : somes (l ++ m) = somes l ++ somes m.
Proof. induction l as [|[x|] l IH]; simpl; congruence. Qed.

Definition good_track (n np : nat) (t : track) : Prop :=
  wf_track t /\ length (t_z t) = n /\ (n_pieces_b t <= 2 * np)%nat /\ (forall i, vb t i = true -> nth i (t_z t) (RtoC 0) <> RtoC 0).

Lemma flat_slots n np ts : (forall t, In t ts -> good_track n np t) ->
  exists runs, runs_of ts runs /\
  exists opts : list (option piece), length opts = (2 * np * length ts)%nat /\ somes opts = long_runs ts runs /\
  map (fun u => seg_of_track (head_to_front (drop_short u))) (flat_map (fun t => split_segment t np) ts) = map (rep n) opts /\
  map (fun u => existsb (fun z => negb (czero z)) (t_z (drop_short u))) (flat_map (fun t => split_segment t np) ts) =
    map (fun o => match o with Some _ => true | None => false end) opts.
Proof.
  induction ts as [|t ts IH]; intros H.
  - exists []. split. { split; auto. simpl; intros; lia. } exists []. simpl. rewrite Nat.mul_0_r. auto.
  - destruct IH as (runs & (R1 & R2) & opts & O1 & O2 & O3 & O4). { intros; apply H; simpl; auto. }
    destruct (H t ltac:(simpl; auto)) as (W & Hn & Hp & Hz).
    destruct (split_slots t np W Hp Hz) as (RL & A1 & A2 & ops & B1 & B2 & B3 & B4).
    exists (RL :: runs). split.
    + split; [simpl; congruence|]. intros [|i] Hi; simpl; auto. apply R2. simpl in Hi; lia.
    + exists (ops ++ opts). split; [rewrite app_length, B1, O1; simpl; lia|]. split.
      * rewrite somes_app, B2, O2. unfold long_runs. simpl. auto.
      * cbn [flat_map]. rewrite !map_app, B3, B4, O3, O4, Hn. auto.
Qed.

Lemma bool_le_total : total_preorder bool_le.
Proof. unfold total_preorder. repeat split; repeat intros [|]; simpl; auto. Qed.

Lemma front_somes {A} (g : list (option A)) nr :
  (forall i j, (i < j < length g)%nat -> nth i g None = None -> nth j g None = None) ->
  (length (somes g) <= nr)%nat -> somes (firstn nr g) = somes g.
Proof.
  revert nr. induction g as [|o g IH]; intros nr H L; [destruct nr; auto|].
  assert (Hg : forall i j, (i < j < length g)%nat -> nth i g None = None -> nth j g None = None).
  { intros i j Hij E. apply (H (S i) (S j)); simpl; auto; lia. }
  destruct o as [x|].
  - destruct nr as [|nr]; simpl in *; [lia|]. f_equal. apply IH; auto; lia.
  - assert (Z : forall (l : list (option A)), (forall i, (i < length l)%nat -> nth i l None = None) -> somes l = []).
    { induction l as [|o l IHl]; intros Hl; auto. pose proof (Hl 0%nat ltac:(simpl; lia)) as E. simpl in E. subst. simpl. apply IHl.
      intros i Hi. apply (Hl (S i)). simpl; lia. }
    assert (Zg : forall i, (i < length (None :: g))%nat -> nth i (None :: g) None = None).
    { intros [|i] Hi; auto. apply (H 0%nat (S i)); auto; lia. }
    rewrite (Z _ Zg). apply Z. intros i Hi. rewrite firstn_length in Hi. rewrite nth_firstn_lt by lia. apply Zg. lia.
Qed.

Lemma somes_perm {A} (l m : list (option A)) : Permutation l m -> Permutation (somes l) (somes m).
Proof.
  induction 1 as [|[x|] l m P IH|[x|] [y|] l|l m k P1 IH1 P2 IH2]; simpl; auto; try apply perm_swap. etransitivity; eauto.
Qed.

Lemma process_correct n ts nr : (forall t, In t ts -> good_track n 5 t) ->
  exists runs, runs_of ts runs /\
  ((length (long_runs ts runs) <= nr)%nat ->
   exists opts, length opts = Nat.min nr (10 * length ts) /\ Permutation (somes opts) (long_runs ts runs) /\
     map seg_of_track (process_segments ts nr) = map (rep n) opts).
Proof.
  intros H. destruct (flat_slots n 5 ts H) as (runs & R & opts & O1 & O2 & O3 & O4). exists runs. split; auto. intros Hnr.
  unfold process_segments. set (P0 := flat_map _ ts) in *.
  assert (LP : length P0 = length opts) by (apply (f_equal (@length _)) in O3; rewrite !map_length in O3; auto).
  rewrite (map_map drop_short (fun t => existsb _ _)), O4. set (ks := map _ opts). set (ord := rev (argsort bool_le ks)).
  assert (Po : Permutation ord (seq 0 (length opts))).
  { unfold ord. rewrite <- Permutation_rev. rewrite argsort_perm. unfold ks. rewrite map_length. auto. }
  set (g := map (fun i => nth i opts None) ord).
  assert (Pg : Permutation g opts) by (apply (gather_perm None); auto).
  exists (firstn nr g). split; [|split].
  - rewrite firstn_length, (Permutation_length Pg), O1. lia.
  - rewrite front_somes.
    + rewrite <- O2. apply somes_perm; auto.
    + intros i j Hij Ei. unfold g in Hij. rewrite map_length in Hij.
      unfold g in *. rewrite nth_map_lt with (da := 0%nat) in Ei |- * by lia.
      assert (L0 : length ord = length (argsort bool_le ks)) by apply rev_length.
      assert (Ni : forall k, (k < length ord)%nat -> nth k ord 0%nat = nth (length ord - S k) (argsort bool_le ks) 0%nat).
      { intros k Hk. unfold ord at 1. rewrite rev_nth by lia. f_equal. lia. }
      pose proof (argsort_sorted false bool_le ks bool_le_total) as SS.
      pose proof (StronglySorted_nth 0%nat (idxlt false bool_le ks) _ (length ord - S j) (length ord - S i) SS ltac:(lia) ltac:(lia)) as Q.
      rewrite <- !Ni in Q by lia.
      assert (Hk : forall k, (k < length ord)%nat -> (nth k ord 0 < length opts)%nat).
      { intros k Hk. assert (In (nth k ord 0%nat) ord) by (apply nth_In; auto). apply (Permutation_in _ Po) in H0. apply in_seq in H0. lia. }
      assert (Kk : forall k, (k < length opts)%nat -> nth k ks false = match nth k opts None with Some _ => true | None => false end).
      { intros k Hk'. unfold ks. rewrite nth_map_lt with (da := None); auto. }
      destruct (nth (nth j ord 0%nat) opts None) eqn:Ej; auto. exfalso.
      unfold idxlt in Q. rewrite (Kk (nth i ord 0%nat)), (Kk (nth j ord 0%nat)), Ei, Ej in Q by (apply Hk; lia). cbn in Q. destruct Q; discriminate.
    + rewrite (Permutation_length (somes_perm _ _ Pg)), O2. auto.
  - rewrite map_map. rewrite <- firstn_map, map_map, <- firstn_map. f_equal. unfold g. rewrite map_map. apply map_ext_in.
    intros i Hi. apply (Permutation_in _ Po) in Hi. apply in_seq in Hi.
    rewrite nth_map_lt with (da := empty_track) by lia.
    apply (f_equal (fun l => nth i l (rep n None))) in O3.
    rewrite nth_map_lt with (da := empty_track) in O3 by lia. rewrite nth_map_lt with (da := None) in O3 by lia. auto.
Qed.
