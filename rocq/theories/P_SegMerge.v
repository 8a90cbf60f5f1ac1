From Coq Require Import Reals Lra Lia Bool List Arith ZArith Permutation.
From Coquelicot Require Import Complex.
From Verif Require Import Base_R Base_List M_Utils S_Utils P_Utils M_Contour S_Contour P_Contour M_Segments P_Segments M_SegMerge.
Import ListNotations.
Local Open Scope R_scope.

Definition rep (n : nat) (o : option piece) : seg :=
  match o with Some p => pseg n (fst p) (snd p) | None => pseg n [] [] end.
Definition gmax : R := 0.1 + 2e-5.

Lemma c_at_packed n l i : c_at (packed (RtoC 0) n l) i = nth i l (RtoC 0).
Proof. apply nth_packed. Qed.
Lemma c_at_rep_none n i : c_at (fst (rep n None)) i = RtoC 0.
Proof. unfold rep, pseg. cbn [fst]. rewrite c_at_packed. destruct i; reflexivity. Qed.
Lemma head_none n t : segment_head (rep n None) t = (RtoC 0, RtoC 0).
Proof. unfold segment_head. rewrite !c_at_rep_none. destruct (_ || _); reflexivity. Qed.
Lemma tail_none n t : segment_tail (rep n None) t = (RtoC 0, RtoC 0).
Proof. unfold segment_tail. destruct t; rewrite !c_at_rep_none; auto. destruct (_ || _); reflexivity. Qed.

Lemma Cmod_sub_self a : Cmod (a - a)%C = 0.
Proof. replace (a - a)%C with (RtoC 0) by ring. apply Cmod_0. Qed.

Lemma head_some g n p t : image_curve g p -> t = (length (fst p) - 1)%nat ->
  In (snd (segment_head (rep n (Some p)) t)) (fst p) /\
  Cmod (snd (segment_head (rep n (Some p)) t) - hd (RtoC 0) (fst p))%C <= 1e-5.
Proof.
  intros I Ht. pose proof (ic_two g p I) as L2. unfold segment_head, rep, pseg. cbn [fst]. rewrite !c_at_packed.
  assert (Hh : hd (RtoC 0) (fst p) = nth 0 (fst p) (RtoC 0)) by (destruct (fst p); auto). rewrite Hh.
  destruct (Rltb_spec 1e-5 (Cmod (nth 1 (fst p) 0 - nth 0 (fst p) 0)%C)) as [H|H]; cbn [orb].
  - cbn [snd]. split; [apply nth_In; lia|]. rewrite Cmod_sub_self. lra.
  - destruct (t <=? 1)%nat; cbn [snd].
    + split; [apply nth_In; lia|]. rewrite Cmod_sub_self. lra.
    + split; [apply nth_In; lia|]. lra.
Qed.
Lemma last_nth {A} (d : A) l : last l d = nth (length l - 1) l d.
Proof.
  destruct l as [|a l]; auto. destruct (@exists_last _ (a :: l) ltac:(congruence)) as (m & b & ->).
  rewrite last_last, app_length. simpl. replace (length m + 1 - 1)%nat with (length m) by lia.
  rewrite app_nth2, Nat.sub_diag by lia. reflexivity.
Qed.
Lemma tail_some g n p t : image_curve g p -> t = (length (fst p) - 1)%nat ->
  In (snd (segment_tail (rep n (Some p)) t)) (fst p) /\
  Cmod (snd (segment_tail (rep n (Some p)) t) - last (fst p) (RtoC 0))%C <= 1e-5.
Proof.
  intros I Ht. pose proof (ic_two g p I) as L2. rewrite last_nth, <- Ht.
  destruct t as [|t]; [lia|]. unfold segment_tail, rep, pseg. cbn [fst]. rewrite !c_at_packed.
  destruct (Rltb_spec 1e-5 (Cmod (nth (S t) (fst p) 0 - nth t (fst p) 0)%C)) as [H|H]; cbn [orb].
  - cbn [snd]. split; [apply nth_In; lia|]. rewrite Cmod_sub_self. lra.
  - destruct (S t <=? 1)%nat; cbn [snd].
    + split; [apply nth_In; lia|]. rewrite Cmod_sub_self. lra.
    + split; [apply nth_In; lia|]. rewrite <- Cmod_opp.
      replace (- (nth t (fst p) 0 - nth (S t) (fst p) 0))%C with (nth (S t) (fst p) 0 - nth t (fst p) 0)%C by ring. lra.
Qed.

(** which end of a piece takes part in the connection *)
Definition outer_a (c : nat) (p : piece) : C := match c with 1%nat | 2%nat => hd (RtoC 0) (fst p) | _ => last (fst p) (RtoC 0) end.
Definition outer_b (c : nat) (p : piece) : C := match c with 0%nat | 2%nat => hd (RtoC 0) (fst p) | _ => last (fst p) (RtoC 0) end.

Definition tid_ok (o : option piece) (t : nat) : Prop := match o with Some p => t = (length (fst p) - 1)%nat | None => True end.

Lemma end_lines_none_l n a s2 t1 t2 c : a = None -> fst (end_lines (rep n a) s2 t1 t2 c) = (RtoC 0, RtoC 0).
Proof. intros ->. unfold end_lines. destruct c as [|[|[|c]]]; cbn [fst]; rewrite ?head_none, ?tail_none; reflexivity. Qed.
Lemma end_lines_none_r n s1 t1 t2 c : snd (end_lines s1 (rep n None) t1 t2 c) = (RtoC 0, RtoC 0).
Proof. unfold end_lines. destruct c as [|[|[|c]]]; cbn [snd]; rewrite ?head_none, ?tail_none; reflexivity. Qed.
Lemma end_lines_some_l g n p s2 t1 t2 c : image_curve g p -> t1 = (length (fst p) - 1)%nat ->
  let q := snd (fst (end_lines (rep n (Some p)) s2 t1 t2 c)) in
  In q (fst p) /\ Cmod (q - outer_a c p)%C <= 1e-5.
Proof.
  intros I Ht. unfold end_lines, outer_a. destruct c as [|[|[|c]]]; cbn [fst].
  - apply (tail_some g); auto. - apply (head_some g); auto. - apply (head_some g); auto. - apply (tail_some g); auto.
Qed.
Lemma end_lines_some_r g n p s1 t1 t2 c : image_curve g p -> t2 = (length (fst p) - 1)%nat ->
  let q := snd (snd (end_lines s1 (rep n (Some p)) t1 t2 c)) in
  In q (fst p) /\ Cmod (q - outer_b c p)%C <= 1e-5.
Proof.
  intros I Ht. unfold end_lines, outer_b. destruct c as [|[|[|c]]]; cbn [snd].
  - apply (head_some g); auto. - apply (tail_some g); auto. - apply (head_some g); auto. - apply (tail_some g); auto.
Qed.

Lemma conn_unfold s1 s2 t1 t2 c : connection_condition s1 s2 t1 t2 c = true ->
  let l1 := fst (end_lines s1 s2 t1 t2 c) in let l2 := snd (end_lines s1 s2 t1 t2 c) in
  (if (c <=? 1)%nat then Rltb 0 (nth 0 (snd s1) 0 * nth 0 (snd s2) 0) = true
   else Rltb 0 (nth 0 (snd s1) 0 * nth 0 (snd s2) 0) = false) /\
  ((Cmod (snd l1 - snd l2)%C < 1e-1 /\ Cmod (snd l1 - fst l1)%C <> 0 /\ Cmod (snd l2 - fst l2)%C <> 0)
   \/ Cmod (snd l1 - snd l2)%C < 1e-5).
Proof.
  intros H l1 l2. unfold connection_condition in H.
  destruct (end_lines s1 s2 t1 t2 c) as [l1' l2'] eqn:El. unfold l1, l2. cbn [fst snd].
  apply andb_prop in H. destruct H as [H1 H2]. split.
  - destruct (c <=? 1)%nat; auto. now apply negb_true_iff in H1.
  - apply orb_prop in H2. destruct H2 as [H2|H2].
    + left. apply andb_prop in H2. destruct H2 as [H2 _]. apply andb_prop in H2. destruct H2 as [H2 H3].
      apply Rltb_true in H2. apply andb_prop in H3. destruct H3 as [H3 _]. apply andb_prop in H3.
      destruct H3 as [H3 H4]. apply nonzero_true in H3, H4. auto.
    + right. now apply Rltb_true.
Qed.

Lemma Cmod_sym a b : Cmod (a - b)%C = Cmod (b - a)%C.
Proof. rewrite <- Cmod_opp. f_equal. ring. Qed.
Lemma Cmod_tri a b c : Cmod (a - c)%C <= Cmod (a - b)%C + Cmod (b - c)%C.
Proof. replace (a - c)%C with ((a - b) + (b - c))%C by ring. apply Cmod_triangle. Qed.

Lemma conn_none_some n p s1 t1 t2 c : image_curve gmax p -> tid_ok (Some p) t2 -> s1 = rep n None ->
  connection_condition s1 (rep n (Some p)) t1 t2 c = false.
Proof.
  intros I Ht ->. destruct (connection_condition _ _ _ _ _) eqn:E; auto. exfalso.
  apply conn_unfold in E. destruct E as [_ E]. rewrite (end_lines_none_l n None) in E by auto.
  destruct (end_lines_some_r gmax n p (rep n None) t1 t2 c I Ht) as [Hq _].
  set (q := snd (snd _)) in *. pose proof (ic_away _ _ I q Hq). cbn [fst snd] in E.
  rewrite Cmod_sub_self in E. rewrite Cmod_sym in E. replace (q - 0)%C with q in E by ring. destruct E as [(_ & E & _)|E]; [auto|lra].
Qed.
Lemma conn_some_none n p t1 t2 c : image_curve gmax p -> tid_ok (Some p) t1 ->
  connection_condition (rep n (Some p)) (rep n None) t1 t2 c = false.
Proof.
  intros I Ht. destruct (connection_condition _ _ _ _ _) eqn:E; auto. exfalso.
  apply conn_unfold in E. destruct E as [_ E]. rewrite end_lines_none_r in E.
  destruct (end_lines_some_l gmax n p (rep n None) t1 t2 c I Ht) as [Hq _].
  set (q := snd (fst _)) in *. pose proof (ic_away _ _ I q Hq). cbn [fst snd] in E.
  rewrite Cmod_sub_self in E. replace (q - 0)%C with q in E by ring. destruct E as [(_ & _ & E)|E]; [auto|lra].
Qed.
Lemma nth0_repeat (s : R) k : (0 < k)%nat -> nth 0 (repeat s k) 0 = s.
Proof. destruct k; [lia|reflexivity]. Qed.
Lemma conn_some_some n p1 p2 t1 t2 c s1 s2 : image_curve gmax p1 -> image_curve gmax p2 ->
  tid_ok (Some p1) t1 -> tid_ok (Some p2) t2 ->
  snd p1 = repeat s1 (length (fst p1)) -> snd p2 = repeat s2 (length (fst p2)) ->
  connection_condition (rep n (Some p1)) (rep n (Some p2)) t1 t2 c = true ->
  (if (c <=? 1)%nat then 0 < s1 * s2 else s1 * s2 <= 0) /\ Cmod (outer_a c p1 - outer_b c p2)%C <= gmax.
Proof.
  intros I1 I2 T1 T2 S1 S2 H. apply conn_unfold in H. destruct H as [H1 H2].
  pose proof (ic_two _ _ I1). pose proof (ic_two _ _ I2).
  split.
  - cbn [rep pseg snd] in H1. rewrite !nth_packed, S1, S2, !nth0_repeat in H1 by lia.
    destruct (c <=? 1)%nat; [apply Rltb_true in H1|apply Rltb_false in H1]; auto.
  - destruct (end_lines_some_l gmax n p1 (rep n (Some p2)) t1 t2 c I1 T1) as [_ Q1].
    destruct (end_lines_some_r gmax n p2 (rep n (Some p1)) t1 t2 c I2 T2) as [_ Q2].
    set (q1 := snd (fst _)) in *. set (q2 := snd (snd _)) in *.
    assert (D : Cmod (q1 - q2)%C < 0.1) by (destruct H2 as [(H2 & _)|H2]; lra).
    pose proof (Cmod_tri (outer_a c p1) q1 (outer_b c p2)). pose proof (Cmod_tri q1 q2 (outer_b c p2)).
    rewrite (Cmod_sym (outer_a c p1) q1) in *. unfold gmax. lra.
Qed.

(** ** joining two image curves *)
Lemma gap_app (l1 l2 : list C) : l1 <> [] -> l2 <> [] ->
  (forall i, (S i < length l1)%nat -> Cmod (nth (S i) l1 0 - nth i l1 0)%C <= gmax) ->
  (forall i, (S i < length l2)%nat -> Cmod (nth (S i) l2 0 - nth i l2 0)%C <= gmax) ->
  Cmod (last l1 0 - hd (RtoC 0) l2)%C <= gmax ->
  forall i, (S i < length (l1 ++ l2))%nat -> Cmod (nth (S i) (l1 ++ l2) 0 - nth i (l1 ++ l2) 0)%C <= gmax.
Proof.
  intros N1 N2 G1 G2 J i Hi. rewrite app_length in Hi.
  destruct (Nat.lt_trichotomy (S i) (length l1)) as [H|[H|H]].
  - rewrite !app_nth1 by lia. auto.
  - rewrite (app_nth2 l1 l2) by lia. rewrite (app_nth1 l1 l2) by lia. rewrite <- H, Nat.sub_diag.
    rewrite last_nth, <- H in J. replace (S i - 1)%nat with i in J by lia. rewrite Cmod_sym.
    destruct l2; [congruence|]. exact J.
  - rewrite !app_nth2 by lia. replace (S i - length l1)%nat with (S (i - length l1)) by lia. apply G2. lia.
Qed.
Lemma gap_rev (l : list C) :
  (forall i, (S i < length l)%nat -> Cmod (nth (S i) l 0 - nth i l 0)%C <= gmax) ->
  forall i, (S i < length (rev l))%nat -> Cmod (nth (S i) (rev l) 0 - nth i (rev l) 0)%C <= gmax.
Proof.
  intros H i Hi. rewrite rev_length in Hi. rewrite !rev_nth by lia. rewrite Cmod_sym.
  replace (length l - S i)%nat with (S (length l - S (S i))) by lia. apply H. lia.
Qed.
Lemma rev_repeat {A} (s : A) k : rev (repeat s k) = repeat s k.
Proof.
  induction k as [|k IH]; auto. simpl. rewrite IH. clear. induction k; simpl; congruence.
Qed.
Lemma map_repeat' {A B} (f : A -> B) s k : map f (repeat s k) = repeat (f s) k.
Proof. induction k; simpl; congruence. Qed.
Lemma flip_curve p : image_curve gmax p -> image_curve gmax (flip p).
Proof.
  intros I. destruct I as [I1 I2 (s & Hs & E) I4]. constructor; unfold flip; cbn [fst snd].
  - rewrite rev_length. auto.
  - intros q Hq. apply I2. now apply in_rev.
  - exists (-s). split; [destruct Hs; [right|left]; lra|]. rewrite E, rev_repeat, map_repeat', rev_length. reflexivity.
  - apply gap_rev. auto.
Qed.
Lemma app_curve p1 p2 s : image_curve gmax p1 -> image_curve gmax p2 -> (s = 1 \/ s = -1) ->
  snd p1 = repeat s (length (fst p1)) -> snd p2 = repeat s (length (fst p2)) ->
  Cmod (last (fst p1) 0 - hd (RtoC 0) (fst p2))%C <= gmax ->
  image_curve gmax (fst p1 ++ fst p2, snd p1 ++ snd p2).
Proof.
  intros I1 I2 Hs E1 E2 J. pose proof (ic_two _ _ I1) as L1. pose proof (ic_two _ _ I2) as L2. constructor; cbn [fst snd].
  - rewrite app_length. lia.
  - intros q Hq. apply in_app_or in Hq. destruct Hq; [eapply (ic_away _ p1)|eapply (ic_away _ p2)]; eauto.
  - exists s. split; auto. rewrite E1, E2, app_length, repeat_app. reflexivity.
  - assert (fst p1 <> []) by (intros E; rewrite E in L1; simpl in L1; lia).
    assert (fst p2 <> []) by (intros E; rewrite E in L2; simpl in L2; lia).
    apply gap_app; auto; [apply (ic_gap _ _ I1)|apply (ic_gap _ _ I2)].
Qed.

Definition join (c : nat) (p1 p2 : piece) : piece :=
  match c with
  | 0%nat => (fst p1 ++ fst p2, snd p1 ++ snd p2)
  | 1%nat => (fst p2 ++ fst p1, snd p2 ++ snd p1)
  | 2%nat => (fst (flip p2) ++ fst p1, snd (flip p2) ++ snd p1)
  | _ => (fst p1 ++ fst (flip p2), snd p1 ++ snd (flip p2))
  end.

Lemma hd_rev {A} (d : A) l : hd d (rev l) = last l d.
Proof.
  destruct l as [|a l]; auto. destruct (@exists_last _ (a :: l) ltac:(congruence)) as (m & b & ->).
  rewrite rev_app_distr, last_last. reflexivity.
Qed.
Lemma last_rev {A} (d : A) l : last (rev l) d = hd d l.
Proof. rewrite <- (rev_involutive l) at 2. rewrite hd_rev. reflexivity. Qed.

Lemma join_curve n p1 p2 t1 t2 c : image_curve gmax p1 -> image_curve gmax p2 ->
  tid_ok (Some p1) t1 -> tid_ok (Some p2) t2 ->
  connection_condition (rep n (Some p1)) (rep n (Some p2)) t1 t2 c = true ->
  image_curve gmax (join c p1 p2).
Proof.
  intros I1 I2 T1 T2 H.
  destruct (ic_parity _ _ I1) as (s1 & D1 & E1). destruct (ic_parity _ _ I2) as (s2 & D2 & E2).
  destruct (conn_some_some n p1 p2 t1 t2 c s1 s2 I1 I2 T1 T2 E1 E2 H) as [P J].
  pose proof (flip_curve p2 I2) as I2'.
  assert (E2' : snd (flip p2) = repeat (- s2) (length (fst (flip p2)))).
  { unfold flip; cbn [fst snd]. rewrite E2, rev_repeat, map_repeat', rev_length. reflexivity. }
  destruct c as [|[|[|c]]]; unfold outer_a, outer_b in J; cbn [Nat.leb] in P; unfold join.
  - assert (s2 = s1) by (destruct D1, D2; subst; lra). subst s2. apply (app_curve p1 p2 s1); auto.
  - assert (s2 = s1) by (destruct D1, D2; subst; lra). subst s2. rewrite Cmod_sym in J. apply (app_curve p2 p1 s1); auto.
  - assert (- s2 = s1) as Q by (destruct D1, D2; subst; lra). rewrite Q in E2'.
    apply (app_curve (flip p2) p1 s1); auto. unfold flip; cbn [fst]. rewrite last_rev, Cmod_sym. auto.
  - assert (- s2 = s1) as Q by (destruct D1, D2; subst; lra). rewrite Q in E2'.
    apply (app_curve p1 (flip p2) s1); auto. unfold flip; cbn [fst]. rewrite hd_rev. auto.
Qed.
Lemma away_nonzero g p q : image_curve g p -> In q (fst p) -> q <> RtoC 0.
Proof. intros I Hq E. pose proof (ic_away _ _ I q Hq). rewrite E, Cmod_0 in H. lra. Qed.
Lemma curve_par_length g p : image_curve g p -> length (snd p) = length (fst p).
Proof. intros I. destruct (ic_parity _ _ I) as (s & _ & ->). apply repeat_length. Qed.

Lemma join_length c p1 p2 : length (fst (join c p1 p2)) = (length (fst p1) + length (fst p2))%nat.
Proof. destruct c as [|[|[|c]]]; unfold join, flip; cbn [fst]; rewrite app_length, ?rev_length; lia. Qed.
Lemma merge_join n p1 p2 t1 t2 c : image_curve gmax p1 -> image_curve gmax p2 ->
  tid_ok (Some p1) t1 -> tid_ok (Some p2) t2 -> (length (fst p1) + length (fst p2) <= n)%nat ->
  merge_two_segments (rep n (Some p1)) (rep n (Some p2)) t1 t2 c = (rep n (Some (join c p1 p2)), (length (fst (join c p1 p2)) - 1)%nat).
Proof.
  intros I1 I2 T1 T2 Hn. simpl in T1, T2. subst t1 t2.
  pose proof (ic_two _ _ I1). pose proof (ic_two _ _ I2). rewrite join_length.
  destruct (merge_two_correct n (fst p1) (snd p1) (fst p2) (snd p2)) as (M0 & M1 & M2 & M3); auto.
  - apply (curve_par_length gmax); auto.
  - apply (curve_par_length gmax); auto.
  - intros E; rewrite E in *; simpl in *; lia.
  - intros E; rewrite E in *; simpl in *; lia.
  - intros q Hq. apply in_app_or in Hq. destruct Hq; [apply (away_nonzero gmax p1)|apply (away_nonzero gmax p2)]; auto.
  - unfold rep. destruct c as [|[|[|c]]]; auto.
Qed.

Lemma pseg_nil n : pseg n [] [] = (repeat (RtoC 0) n, repeat 0 n).
Proof. unfold pseg, packed. simpl. rewrite Nat.sub_0_r. reflexivity. Qed.
Lemma roll_repeat {A} (d : A) n k : roll d (repeat d n) k = repeat d n.
Proof.
  apply (list_eq_nth d); [rewrite roll_length; auto|]. intros i Hi. rewrite roll_length in Hi.
  rewrite nth_roll by auto. rewrite !nth_repeat. reflexivity.
Qed.
Lemma reverse_none n t : reverse_seg (rep n None) t = rep n None.
Proof.
  unfold reverse_seg, rep, roll_seg. rewrite pseg_nil. cbn [fst snd]. rewrite !rev_repeat, !roll_repeat, map_repeat'.
  repeat f_equal. lra.
Qed.
Lemma concat_none n : concatenate_segments (rep n None) (rep n None) = rep n None.
Proof.
  unfold concatenate_segments, add_seg, roll_seg, rep. rewrite pseg_nil. cbn [fst snd]. rewrite !roll_repeat. f_equal.
  - induction n; simpl; auto. rewrite Cplus_0_l. f_equal. auto.
  - induction n; simpl; auto. rewrite Rplus_0_l. f_equal. auto.
Qed.
Lemma merge_none n t1 t2 c : fst (merge_two_segments (rep n None) (rep n None) t1 t2 c) = rep n None.
Proof. unfold merge_two_segments. destruct c as [|[|[|c]]]; cbn [fst]; rewrite ?reverse_none; apply concat_none. Qed.
Lemma zero_rep n o : (match o with Some p => length (fst p) <= n /\ length (snd p) = length (fst p) | None => True end)%nat -> zero_seg (rep n o) = rep n None.
Proof.
  intros H. unfold zero_seg, rep.
  assert (Z : forall {A B} (a : B) (l : list A), map (fun _ => a) l = repeat a (length l)) by (induction l; simpl; congruence).
  rewrite pseg_nil. destruct o as [p|].
  - unfold pseg. cbn [fst snd]. rewrite !Z, !packed_length by lia. reflexivity.
  - cbn [fst snd]. rewrite !Z, !repeat_length. reflexivity.
Qed.

(** ** one merging step *)
Definition all_curves (l : list (option piece)) : Prop := forall p, In (Some p) l -> image_curve gmax p.
Definition tids_ok (rem : list (option piece)) (tid : list nat) : Prop :=
  length tid = length rem /\ forall i, (i < length rem)%nat -> tid_ok (nth i rem None) (nth i tid 0%nat).
Definition npts (l : list piece) : nat := length (concat (map fst l)).

Lemma upd_rep n (rem : list (option piece)) i : (i < length rem)%nat ->
  upd (map (rep n) rem) i (rep n None) = map (rep n) (upd rem i None).
Proof. revert i; induction rem; intros [|i] H; simpl in *; try lia; f_equal; auto. apply IHrem. lia. Qed.
Lemma somes_upd (rem : list (option piece)) i p : nth i rem None = Some p ->
  Permutation (p :: somes (upd rem i None)) (somes rem).
Proof.
  revert i; induction rem as [|o rem IH]; intros [|i] H; simpl in *; try discriminate.
  - subst. apply Permutation_refl.
  - destruct o; simpl.
    + eapply perm_trans; [apply perm_swap|]. apply perm_skip. auto.
    + auto.
Qed.
Lemma somes_upd_none (rem : list (option piece)) i : nth i rem None = None -> upd rem i None = rem.
Proof. revert i; induction rem as [|o rem IH]; intros [|i] H; simpl in *; auto. subst; auto. f_equal; auto. Qed.

Definition orientation (c : nat) : bool := match c with 0%nat | 1%nat => false | _ => true end.
Definition at_end (c : nat) : bool := match c with 1%nat | 2%nat => false | _ => true end.
Definition add_used (c : nat) (u : list (piece * bool)) (p : piece) : list (piece * bool) :=
  if at_end c then u ++ [(p, orientation c)] else (p, orientation c) :: u.
Lemma join_assemble c u p : join c (assemble u) p = assemble (add_used c u p).
Proof.
  unfold join, assemble, add_used, orient, at_end, orientation.
  destruct c as [|[|[|c]]]; cbn [map fst snd concat]; rewrite ?map_app, ?concat_app; cbn [map concat fst snd]; rewrite ?app_nil_r; reflexivity.
Qed.

Lemma merge_step n a ta rem tid :
  (match a with Some p => image_curve gmax p | None => True end) -> tid_ok a ta ->
  all_curves rem -> tids_ok rem tid -> rem <> [] ->
  ((match a with Some p => length (fst p) | None => 0 end) + npts (somes rem) <= n)%nat ->
  let r := merge_with_another (rep n a) ta (map (rep n) rem) tid in
  (exists ta', r = (rep n a, ta', map (rep n) rem, tid) /\ tid_ok a ta') \/
  (exists p q i c, a = Some p /\ (i < length rem)%nat /\ nth i rem None = Some q /\ image_curve gmax (join c p q) /\
     r = (rep n (Some (join c p q)), (length (fst (join c p q)) - 1)%nat, map (rep n) (upd rem i None), tid)).
Proof.
  intros Ia Ta Ic [Tl T] Hne Hcap r. unfold r, merge_with_another.
  set (m := length (map (rep n) rem)). set (order := argsort _ _).
  set (cands := map _ (seq 0 4)).
  set (ok := fun ci : nat * nat => connection_condition _ _ _ _ _).
  destruct (existsb (fun b => b) (map ok cands)) eqn:Ex; [|left; exists ta; auto].
  assert (Hm : (0 < m)%nat) by (unfold m; rewrite map_length; destruct rem; simpl; [congruence|lia]).
  set (k := argmax_bool (map ok cands)). set (ci := nth k cands (0%nat, 0%nat)).
  assert (Hk : (k < length (map ok cands))%nat /\ nth k (map ok cands) false = true).
  { destruct (argmax_bool_spec (map ok cands)) as (A1 & A2 & _); [|split; auto].
    apply existsb_exists in Ex. destruct Ex as (b & Hb & ->). destruct (In_nth _ _ false Hb) as (j & Hj & E). exists j; auto. }
  destruct Hk as [Hk1 Hk2]. rewrite map_length in Hk1.
  rewrite (nth_map_lt ok cands k (0%nat, 0%nat)) in Hk2 by auto. fold ci in Hk2.
  assert (Hci : (snd ci < m)%nat).
  { unfold ci, cands. rewrite (nth_map_lt _ (seq 0 4) k 0%nat) by (unfold cands in Hk1; rewrite map_length in Hk1; auto).
    cbn [snd]. apply Nat.mod_upper_bound. lia. }
  unfold m in Hci. rewrite map_length in Hci.
  unfold ok in Hk2. set (c := fst ci) in *. set (i := snd ci) in *.
  assert (Hs : nth i (map (rep n) rem) no_seg = rep n (nth i rem None)) by (apply nth_map_lt; auto).
  rewrite Hs in *. specialize (T i Hci).
  assert (Iq : match nth i rem None with Some q => image_curve gmax q | None => True end).
  { destruct (nth i rem None) eqn:E; auto. apply Ic. rewrite <- E. apply nth_In. auto. }
  destruct a as [p|], (nth i rem None) as [q|] eqn:E.
  - right. exists p, q, i, c. repeat match goal with |- _ /\ _ => split end; auto.
    + eapply join_curve; eauto.
    + assert (Hq : (length (fst q) <= npts (somes rem))%nat).
      { pose proof (somes_upd rem i q E) as P. unfold npts.
        assert (P' : Permutation (concat (map fst (q :: somes (upd rem i None)))) (concat (map fst (somes rem)))).
        { rewrite <- !flat_map_concat_map. apply Permutation_flat_map. auto. }
        rewrite <- (Permutation_length P'). simpl. rewrite app_length. lia. }
      rewrite merge_join by (auto; lia). cbn [fst snd].
      rewrite zero_rep by (split; [lia|eapply curve_par_length; eauto]).
      rewrite upd_rep by auto. reflexivity.
  - rewrite conn_some_none in Hk2 by auto. discriminate.
  - rewrite (conn_none_some n q (rep n None)) in Hk2 by auto. discriminate.
  - left. exists (snd (merge_two_segments (rep n None) (rep n None) ta (nth i tid 0%nat) c)).
    split; [|exact I]. rewrite merge_none, zero_rep by auto. rewrite upd_rep by auto. rewrite (somes_upd_none rem i) by auto. reflexivity.
Qed.

(** ** the whole loop *)
Definition act (u : list (piece * bool)) : option piece := match u with [] => None | _ => Some (assemble u) end.
Lemma assemble_length u : length (fst (assemble u)) = npts (map fst u).
Proof.
  unfold assemble, npts. cbn [fst]. induction u as [|[p b] u IH]; auto. cbn [map concat]. rewrite !app_length, IH. f_equal.
  unfold orient. destruct b; cbn [fst snd]; auto. unfold flip. cbn [fst]. apply rev_length.
Qed.
Lemma npts_app l m : npts (l ++ m) = (npts l + npts m)%nat.
Proof. unfold npts. rewrite map_app, concat_app, app_length. auto. Qed.
Lemma npts_perm l m : Permutation l m -> npts l = npts m.
Proof. intros P. unfold npts. rewrite <- !flat_map_concat_map. apply Permutation_length. apply Permutation_flat_map. auto. Qed.
Lemma add_used_perm c u p : Permutation (map fst (add_used c u p)) (p :: map fst u).
Proof.
  unfold add_used. destruct (at_end c); [|reflexivity]. rewrite map_app. simpl.
  apply Permutation_sym, Permutation_cons_append.
Qed.
Lemma act_add c u p : act (add_used c u p) = Some (assemble (add_used c u p)).
Proof. unfold act, add_used. destruct (at_end c); auto. destruct u; reflexivity. Qed.
Lemma tids_upd rem tid i : tids_ok rem tid -> tids_ok (upd rem i None) tid.
Proof.
  intros [L T]. split; [rewrite upd_length; auto|]. intros j Hj. rewrite upd_length in Hj. rewrite nth_upd.
  destruct (_ && _); simpl; auto.
Qed.
Lemma curves_upd rem i : all_curves rem -> all_curves (upd rem i None).
Proof.
  intros H p Hp. apply H. revert i Hp. clear H. induction rem as [|o rem IH]; intros i Hp.
  - destruct i; auto.
  - destruct i; simpl in *; destruct Hp as [Hp|Hp]; eauto. discriminate.
Qed.

Record minv (n : nat) (L : list piece) (u : list (piece * bool)) (ta : nat) (rem : list (option piece)) (tid : list nat) : Prop := {
  mi_perm : Permutation (map fst u ++ somes rem) L;
  mi_cap : (npts L <= n)%nat;
  mi_act : u <> [] -> image_curve gmax (assemble u);
  mi_ta : tid_ok (act u) ta;
  mi_rem : all_curves rem;
  mi_tid : tids_ok rem tid }.

Lemma body_step n L u ta rem tid : minv n L u ta rem tid ->
  exists u' ta' rem', merge_body (rep n (act u), ta, map (rep n) rem, tid) = (rep n (act u'), ta', map (rep n) rem', tid)
    /\ minv n L u' ta' rem' tid /\ length rem' = length rem /\ (u = [] -> u' = []) /\ incl (map fst u) (map fst u').
Proof.
  intros I. unfold merge_body. cbv beta iota.
  match goal with |- context [existsb ?f ?l] => destruct (existsb f l) eqn:Ex end; [|exists u, ta, rem; auto 10 using incl_refl].
  assert (Hne : rem <> []) by (destruct rem; [discriminate|congruence]).
  assert (Hp : npts (map fst u ++ somes rem) = npts L) by (apply npts_perm, (mi_perm _ _ _ _ _ _ I)).
  rewrite npts_app in Hp. pose proof (mi_cap _ _ _ _ _ _ I) as Hc.
  assert (Ha : match act u with Some p => image_curve gmax p | None => True end).
  { unfold act. destruct u; auto. apply (mi_act _ _ _ _ _ _ I). congruence. }
  assert (Hl : (match act u with Some p => length (fst p) | None => 0 end + npts (somes rem) <= n)%nat).
  { unfold act. destruct u as [|b u]; [unfold npts at 1 in Hp; simpl in Hp; lia|]. rewrite assemble_length. lia. }
  destruct (merge_step n (act u) ta rem tid Ha (mi_ta _ _ _ _ _ _ I) (mi_rem _ _ _ _ _ _ I) (mi_tid _ _ _ _ _ _ I) Hne Hl)
    as [(ta' & E & T')|(p & q & i & c & Ea & Hi & Eq & Ic & E)].
  - exists u, ta', rem. rewrite E. split; [reflexivity|]. split; [|auto using incl_refl]. destruct I as [m1 m2 m3 m4 m5 m6]. constructor; assumption.
  - assert (Hu : u <> []) by (intros U; rewrite U in Ea; discriminate Ea).
    assert (Ep : p = assemble u) by (destruct u; [congruence|]; simpl in Ea; unfold act in Ea; congruence).
    exists (add_used c u q), (length (fst (join c p q)) - 1)%nat, (upd rem i None).
    subst p. rewrite E, act_add, <- join_assemble. split; [reflexivity|]. split; [|split; [|split]].
    + constructor.
      * eapply perm_trans; [|apply (mi_perm _ _ _ _ _ _ I)].
        eapply perm_trans; [apply Permutation_app_tail, add_used_perm|]. simpl.
        eapply perm_trans; [apply Permutation_middle|]. apply Permutation_app_head. apply somes_upd. auto.
      * auto.
      * intros _. rewrite <- join_assemble. auto.
      * rewrite act_add, <- join_assemble. reflexivity.
      * apply curves_upd, I.
      * apply tids_upd, I.
    + apply upd_length.
    + intros; contradiction.
    + intros x Hx. apply (Permutation_in _ (Permutation_sym (add_used_perm c u q))). right. auto.
Qed.
Lemma scan_steps n L k : forall u ta rem tid, minv n L u ta rem tid ->
  exists u' ta' rem', merge_scan k (rep n (act u), ta, map (rep n) rem, tid) = (rep n (act u'), ta', map (rep n) rem', tid)
    /\ minv n L u' ta' rem' tid /\ length rem' = length rem /\ incl (map fst u) (map fst u').
Proof.
  induction k as [|k IH]; intros u ta rem tid I.
  - exists u, ta, rem. auto 10 using incl_refl.
  - cbn [merge_scan]. destruct (body_step n L u ta rem tid I) as (u1 & t1 & r1 & E & I1 & L1 & _ & N1). rewrite E.
    destruct (IH _ _ _ _ I1) as (u2 & t2 & r2 & E2 & I2 & L2 & N2). exists u2, t2, r2. split; [auto|split; [auto|split]]; [lia|]. eapply incl_tran; eauto.
Qed.

Lemma gather_rep n (rem : list (option piece)) idcs : (forall k, In k idcs -> (k < length rem)%nat) ->
  gather no_seg (map (rep n) rem) idcs = map (rep n) (gather None rem idcs).
Proof.
  intros H. unfold gather. rewrite map_map. apply map_ext_in. intros k Hk. apply nth_map_lt. auto.
Qed.
Lemma somes_perm {A} (l m : list (option A)) : Permutation l m -> Permutation (somes l) (somes m).
Proof.
  induction 1 as [|x l m P IH|x y l|l m o P1 IH1 P2 IH2]; simpl; auto.
  - destruct x; auto.
  - destruct x, y; auto. apply perm_swap.
  - eapply perm_trans; eauto.
Qed.
Lemma somes_length {A} (l : list (option A)) : (length (somes l) <= length l)%nat.
Proof. induction l as [|[]]; simpl; lia. Qed.

(** the length that decides which segment comes first *)
Lemma sumR_zero' {A} (f : A -> R) l : (forall x, In x l -> f x = 0) -> sumR (map f l) = 0.
Proof. induction l as [|a l IH]; intros H; cbn [map sumR]; [auto|]. rewrite H by (left; auto). rewrite IH by (intros; apply H; right; auto). lra. Qed.
Lemma path_length_nth l : path_length l = sumR (map (fun i => Cmod (nth (S i) l (RtoC 0) - nth i l (RtoC 0))%C) (seq 0 (length l - 1))).
Proof.
  induction l as [|a l IH]; auto. destruct l as [|b l]; auto. cbn [length] in *. replace (S (S (length l)) - 1)%nat with (S (length l)) by lia. replace (S (length l) - 1)%nat with (length l) in IH by lia.
  cbn [seq map sumR]. rewrite <- seq_shift, map_map. cbn [nth]. cbn [path_length]. f_equal. exact IH.
Qed.
Lemma length_some n p t : (length (fst p) <= n)%nat -> (1 <= length (fst p))%nat -> tid_ok (Some p) t -> segment_length (rep n (Some p)) t = path_length (fst p).
Proof.
  intros Hn H1 ->. rewrite path_length_nth. unfold segment_length, rep, pseg. cbn [fst]. rewrite packed_length by auto. set (l := fst p) in *.
  replace (n - 1)%nat with ((length l - 1) + (n - length l))%nat by lia. rewrite seq_app, map_app, sumR_app. replace (sumR (map _ (seq (0 + (length l - 1)) (n - length l)))) with 0.
  - rewrite Rplus_0_r. f_equal. apply map_ext_in. intros i Hi. apply in_seq in Hi. destruct (Nat.eqb_spec i (length l - 1)); [lia|]. rewrite !nth_packed. reflexivity.
  - symmetry. apply sumR_zero'. intros i Hi. apply in_seq in Hi. destruct (Nat.eqb_spec i (length l - 1)); auto. rewrite !nth_packed, !nth_overflow by lia. apply Cmod_sub_self.
Qed.
Lemma length_none n t : segment_length (rep n None) t = 0.
Proof.
  unfold segment_length. apply sumR_zero'. intros i _. destruct (i =? t)%nat; auto. cbn [rep pseg fst]. rewrite !nth_packed. destruct i; cbn [nth]; apply Cmod_sub_self.
Qed.
Definition shortest (p : piece) (l : list piece) : Prop := forall q, In q l -> path_length (fst p) <= path_length (fst q).

Lemma contour_step n k rem tid : all_curves rem -> tids_ok rem tid -> (npts (somes rem) <= n)%nat -> rem <> [] ->
  exists u rem' tid', next_contour k (map (rep n) rem) tid = (rep n (act u), map (rep n) rem', tid') /\
    Permutation (map fst u ++ somes rem') (somes rem) /\ (u <> [] -> image_curve gmax (assemble u)) /\
    all_curves rem' /\ tids_ok rem' tid' /\ length rem = S (length rem') /\
    ((forall p, In p (somes rem) -> 0 < path_length (fst p)) -> somes rem <> [] -> exists p0, In p0 (map fst u) /\ shortest p0 (somes rem)).
Proof.
  intros Ic [Tl T] Hcap Hne. unfold next_contour.
  set (idcs := sparse_argsort _).
  assert (Pi : Permutation idcs (seq 0 (length rem))).
  { unfold idcs. eapply perm_trans; [apply sparse_argsort_perm|]. rewrite map_length, combine_length, map_length, Tl, Nat.min_id. auto. }
  assert (Ri : forall j, In j idcs -> (j < length rem)%nat).
  { intros j Hj. apply (Permutation_in _ Pi) in Hj. apply in_seq in Hj. lia. }
  rewrite gather_rep by auto. set (g := gather None rem idcs). set (gt := gather 0%nat tid idcs).
  assert (Pg : Permutation g rem) by (apply gather_perm; auto).
  assert (Lg : length g = length rem) by (apply Permutation_length; auto).
  assert (Tg : tids_ok g gt).
  { split; [unfold g, gt; rewrite !gather_length; auto|]. intros i Hi. unfold g, gt in *. rewrite gather_length in Hi.
    unfold gather. rewrite (nth_map_lt _ idcs i 0%nat) by auto. rewrite (nth_map_lt _ idcs i 0%nat) by auto. apply T. apply Ri, nth_In. auto. }
  assert (Cg : all_curves g) by (intros p Hp; apply Ic; eapply Permutation_in; eauto).
  assert (Sg : Permutation (somes g) (somes rem)) by (apply somes_perm; auto).
  destruct g as [|o g'] eqn:Heqg; [destruct rem; simpl in Lg; [congruence|lia]|].
  destruct gt as [|t0 gt']; [destruct Tg as [Tg _]; simpl in Tg; lia|]. cbn [map hd tl].
  set (u0 := match o with Some p => [(p, false)] | None => [] end).
  assert (A0 : rep n o = rep n (act u0)).
  { unfold u0, act, assemble, orient. destruct o as [[p r]|]; auto. simpl. rewrite !app_nil_r. reflexivity. }
  assert (I0 : minv n (somes rem) u0 t0 g' gt').
  { constructor; auto.
    - eapply perm_trans; [|exact Sg]. unfold u0. destruct o; simpl; auto.
    - intros Hu. unfold u0 in *. destruct o as [[p r]|]; [|congruence].
      assert (Q : assemble [((p, r), false)] = (p, r)) by (unfold assemble, orient; simpl; rewrite !app_nil_r; auto).
      change (image_curve gmax (assemble [((p, r), false)])). rewrite Q. apply Cg. left; auto.
    - destruct Tg as [_ Tg]. specialize (Tg 0%nat ltac:(simpl; lia)). simpl in Tg. unfold u0, act, assemble, orient.
      destruct o as [[p r]|]; simpl in *; auto. rewrite app_nil_r. auto.
    - intros p Hp. apply Cg. right; auto.
    - destruct Tg as [Tg1 Tg2]. split; [simpl in Tg1; lia|]. intros i Hi. apply (Tg2 (S i)). simpl. lia. }
  rewrite A0. destruct (scan_steps n _ k _ _ _ _ I0) as (u' & ta' & rem' & E & I' & L' & N'). rewrite E.
  exists u', rem', gt'. split; [reflexivity|]. split; [apply I'|]. split; [apply I'|]. split; [apply I'|]. split; [apply I'|].
  split; [simpl in Lg; lia|]. intros Hpos Hsome.
  assert (Len : length (sparse_argsort (map (fun st : seg * nat => segment_length (fst st) (snd st)) (combine (map (rep n) rem) tid))) = length rem) by (fold idcs; rewrite (Permutation_length Pi); apply seq_length).
  set (a := map (fun st : seg * nat => segment_length (fst st) (snd st)) (combine (map (rep n) rem) tid)) in *.
  assert (La : length a = length rem) by (unfold a; rewrite map_length, combine_length, map_length, Tl, Nat.min_id; auto).
  assert (Na : forall i, (i < length rem)%nat -> nth i a 0 = match nth i rem None with Some p => path_length (fst p) | None => 0 end).
  { intros i Hi. unfold a. rewrite (nth_map_lt _ (combine (map (rep n) rem) tid) i (no_seg, 0%nat)) by (rewrite combine_length, map_length, Tl, Nat.min_id; auto). rewrite combine_nth by (rewrite map_length; auto). cbn [fst snd]. rewrite (nth_map_lt (rep n) rem i None) by auto.
    specialize (T i Hi). destruct (nth i rem None) as [p|] eqn:Ep; [|apply length_none]. assert (Ip : In (Some p) rem) by (rewrite <- Ep; apply nth_In; auto). pose proof (ic_two _ _ (Ic p Ip)).
    apply length_some; auto; [|lia]. pose proof (somes_upd rem i p Ep) as P. rewrite <- (npts_perm _ _ P) in Hcap. unfold npts in Hcap. cbn [map concat] in Hcap. rewrite app_length in Hcap. lia. }
  assert (i0 : (nth 0 idcs 0 < length rem)%nat) by (apply Ri, nth_In; unfold idcs; rewrite Len; destruct rem; simpl; [congruence|lia]).
  assert (Ho : o = nth (nth 0 idcs 0%nat) rem None). { unfold g in Heqg. destruct idcs as [|i1 idcs']; [discriminate|]. cbn in Heqg. injection Heqg as Ho _. auto. }
  assert (Key : forall q, In q (somes rem) -> exists p0, o = Some p0 /\ path_length (fst p0) <= path_length (fst q)).
  { intros q Hq. assert (Iq : In (Some q) rem) by (clear - Hq; induction rem as [|[x|] r IH]; simpl in *; [auto|destruct Hq as [->|]; auto|auto]). apply In_nth with (d := None) in Iq as (j & Hj & Ej).
    assert (Ij : In j idcs) by (apply (Permutation_in _ (Permutation_sym Pi)), in_seq; lia). apply In_nth with (d := 0%nat) in Ij as (k' & Hk' & Ek'). unfold idcs in Hk'. rewrite Len in Hk'.
    pose proof (Hpos q Hq) as Pq. destruct k' as [|k'].
    - exists q. rewrite Ho, Ek', Ej. split; auto. lra.
    - pose proof (sparse_argsort_sorted a 0 (S k') ltac:(lia) ltac:(lia)) as SO. fold idcs in SO. rewrite Ek' in SO. unfold sparse_order in SO. rewrite (Na j Hj), Ej, (Na _ i0), <- Ho in SO. destruct o as [p0|]; [exists p0; split; auto; lra|exfalso; lra]. }
  destruct (somes rem) as [|q0 sr] eqn:Es; [congruence|]. destruct (Key q0 ltac:(left; auto)) as (p0 & -> & _). exists p0. split.
  - apply N'. unfold u0. left. reflexivity.
  - intros q Hq. destruct (Key q Hq) as (p1 & E1 & H1). injection E1 as <-. auto.
Qed.

Lemma loop_steps n c : forall k rem tid, all_curves rem -> tids_ok rem tid -> (npts (somes rem) <= n)%nat -> (c <= length rem)%nat ->
  exists us left, contour_loop c k (map (rep n) rem) tid = (map (fun u => rep n (act u)) us, map (rep n) left) /\
    length us = c /\ Permutation (map fst (concat us) ++ somes left) (somes rem) /\
    (forall u, In u us -> u <> [] -> image_curve gmax (assemble u)) /\
    ((forall p, In p (somes rem) -> 0 < path_length (fst p)) -> forall us1 u us2, us = us1 ++ u :: us2 -> u <> [] \/ map fst (concat us2) ++ somes left <> [] ->
       exists p0, In p0 (map fst u) /\ shortest p0 (map fst (concat (u :: us2)) ++ somes left)).
Proof.
  induction c as [|c IH]; intros k rem tid Ic Tk Hc Hl.
  - exists [], rem. repeat match goal with |- _ /\ _ => split end; auto; [intros u []|]. intros _ [|] u us2 Q; discriminate Q.
  - cbn [contour_loop]. assert (Hne : rem <> []) by (intros ->; simpl in Hl; lia).
    destruct (contour_step n k rem tid Ic Tk Hc Hne) as (u & rem' & tid' & E & P & Iu & Ic' & T' & L' & Sh).
    rewrite E. assert (Hc' : (npts (somes rem') <= n)%nat) by (rewrite <- (npts_perm _ _ P), npts_app in Hc; lia).
    destruct (IH (k - 2)%nat rem' tid' Ic' T' Hc' ltac:(lia)) as (us & lf & E2 & L2 & P2 & I2 & S2). rewrite E2.
    exists (u :: us), lf. split; [reflexivity|]. split; [simpl; lia|]. split.
    + cbn [concat]. rewrite map_app, <- app_assoc. eapply perm_trans; [|exact P]. apply Permutation_app_head. auto.
    + split; [intros v [<-|Hv]; auto|]. intros Hpos us1 v us2 Q Hne2.
      assert (PP : Permutation (map fst u ++ (map fst (concat us) ++ somes lf)) (somes rem)) by (eapply perm_trans; [apply Permutation_app_head, P2|exact P]).
      destruct us1 as [|w us1]; cbn [app] in Q.
      * injection Q as <- <-. cbn [concat]. rewrite map_app, <- app_assoc. destruct (Sh Hpos) as (p0 & A1 & A2).
        { intros Q. rewrite Q in PP. apply Permutation_sym, Permutation_nil in PP. destruct Hne2 as [Hne2|Hne2].
          - apply app_eq_nil in PP as [PP _]. apply map_eq_nil in PP. contradiction.
          - apply app_eq_nil in PP as [_ PP]. contradiction. }
        exists p0. split; auto. intros q Hq. apply A2. apply (Permutation_in _ PP). auto.
      * injection Q as <- Q. apply (S2 (fun p Hp => Hpos p (Permutation_in _ P (in_or_app _ _ _ (or_intror Hp)))) us1 v us2 Q Hne2).
Qed.

Lemma pad3_pseg n p r : (length p <= n)%nat -> length r = length p -> pad3 (pseg n p r) = pseg (4 * n) p r.
Proof.
  intros H E. unfold pad3, pseg. cbn [fst snd]. rewrite !packed_length by lia. unfold packed.
  rewrite <- !app_assoc, <- !repeat_app. f_equal; f_equal; f_equal; lia.
Qed.
Lemma image_curve_mono g g' p : g <= g' -> image_curve g p -> image_curve g' p.
Proof. intros H [A B D E]. constructor; auto. intros i Hi. eapply Rle_trans; eauto. Qed.

Lemma merge_open_correct n pieces K M :
  (forall p, In (Some p) pieces -> image_curve gmax p /\ (length (fst p) <= n)%nat /\ Re (last (fst p) (RtoC 0)) <> 0) ->
  (npts (somes pieces) <= 4 * n)%nat -> (K <= length pieces)%nat ->
  exists us left,
    merge_open_segments (map (rep n) pieces) K M = (map (fun u => rep (4 * n) (act u)) us, map (rep (4 * n)) left) /\
    length us = K /\ Permutation (map fst (concat us) ++ somes left) (somes pieces) /\
    (forall u, In u us -> u <> [] -> image_curve gmax (assemble u)) /\
    ((forall p, In p (somes pieces) -> 0 < path_length (fst p)) -> forall us1 u us2, us = us1 ++ u :: us2 -> u <> [] \/ map fst (concat us2) ++ somes left <> [] ->
       exists p0, In p0 (map fst u) /\ shortest p0 (map fst (concat (u :: us2)) ++ somes left)).
Proof.
  intros H Hc HK. unfold merge_open_segments.
  assert (Q : map pad3 (map (rep n) pieces) = map (rep (4 * n)) pieces).
  { rewrite map_map. apply map_ext_in. intros [p|] Hp.
    - destruct (H p Hp) as (I & L & _). apply pad3_pseg; auto. apply (curve_par_length gmax); auto.
    - apply pad3_pseg; simpl; lia. }
  rewrite Q. apply loop_steps; auto.
  - intros p Hp. apply (H p Hp).
  - split; [rewrite !map_length; auto|]. intros i Hi. rewrite (nth_map_lt _ _ i (rep n None)) by (rewrite map_length; auto).
    rewrite (nth_map_lt _ _ i None) by auto. destruct (nth i pieces None) as [p|] eqn:E; simpl; auto.
    destruct (H p) as (I & L & R0). { rewrite <- E. apply nth_In; auto. }
    apply last_nonzero_packed; auto. pose proof (ic_two _ _ I). intros En; rewrite En in *; simpl in *; lia.
Qed.
