(** Proofs about the source-limb sampling. *)
From Coq Require Import Reals Lra Bool List Arith ZArith Lia Permutation Sorted.
From Coquelicot Require Import Complex Rcomplements.
From Verif Require Import Base_R Base_List Base_C M_Utils S_Utils P_Utils M_PointSource M_SourceLimb S_SourceLimb.
Import ListNotations.
Local Open Scope R_scope.

Lemma rsign_sign x : rsign x = sign x.
Proof.
  unfold rsign. destruct (Rltb_spec 0 x). { rewrite sign_eq_1; auto. }
  destruct (Rltb_spec x 0). { rewrite sign_eq_m1; auto. }
  replace x with 0 by lra. rewrite sign_0. auto.
Qed.
Lemma limb_point_at w0 rho th : limb_point w0 rho th = limb_at w0 rho th.
Proof. unfold limb_point, limb_at, cexpi, Cplus, Cmult, RtoC, Re, Im. simpl. f_equal; ring. Qed.

Definition col step det w0 rho (s : lsample) : Prop := solver_column step det w0 rho (s_th s) (s_z s) (s_mask s) (s_par s).
Lemma make_col step det w0 rho th init : col step det w0 rho (make_sample det th (step init (limb_point w0 rho th))).
Proof.
  split; simpl.
  - exists init. rewrite <- limb_point_at. destruct (step _ _); auto.
  - apply map_ext. intros; apply rsign_sign.
Qed.

(** ** initial samples *)
Lemma seq_scan_spec step ws : forall prev, length (seq_scan step prev ws) = length ws /\
  forall j d, (j < length ws)%nat -> exists init, nth j (seq_scan step prev ws) d = step init (nth j ws (RtoC 0)).
Proof.
  induction ws as [|w t IH]; intros prev; simpl. { split; auto; intros; lia. }
  destruct (IH (fst (step (Some prev) w))) as [A B]. split; [rewrite A; auto|].
  intros [|j] d Hj; simpl. { exists (Some prev); auto. } apply B; lia.
Qed.
Lemma sequential_spec step ws : length (images_sequential step ws) = length ws /\
  forall j d, (j < length ws)%nat -> exists init, nth j (images_sequential step ws) d = step init (nth j ws (RtoC 0)).
Proof.
  destruct ws as [|w t]; simpl. { split; auto; intros; lia. }
  destruct (seq_scan_spec step t (fst (step None w))) as [A B]. split; [rewrite A; auto|].
  intros [|j] d Hj; simpl. { exists None; auto. } apply B; lia.
Qed.
Lemma thetas_length n : (0 < n)%nat -> length (limb_thetas n) = n.
Proof. intros H. unfold limb_thetas. rewrite app_length, map_length, seq_length. simpl. lia. Qed.
Lemma initial_length step det w0 rho n : (0 < n)%nat -> length (initial_samples step det w0 rho n) = n.
Proof.
  intros H. unfold initial_samples. rewrite map_length, combine_length.
  destruct (sequential_spec step (map (limb_point w0 rho) (limb_thetas n))) as [A _].
  rewrite A, map_length, thetas_length; auto. lia.
Qed.
Lemma initial_thetas step det w0 rho n : map s_th (initial_samples step det w0 rho n) = limb_thetas n.
Proof.
  unfold initial_samples. rewrite map_map. simpl.
  destruct (sequential_spec step (map (limb_point w0 rho) (limb_thetas n))) as [A _].
  rewrite map_length in A. rewrite map_ext with (g := fst) by auto. apply map_fst_combine; auto.
Qed.
Lemma initial_cols step det w0 rho n : List.Forall (col step det w0 rho) (initial_samples step det w0 rho n).
Proof.
  apply List.Forall_forall. intros s Hs. unfold initial_samples in Hs. apply in_map_iff in Hs as ([th zm] & <- & Hin).
  apply (In_nth _ _ (0, ([], []))) in Hin as (j & Hj & E). 
  destruct (sequential_spec step (map (limb_point w0 rho) (limb_thetas n))) as [A B]. rewrite map_length in A, B.
  rewrite combine_length, A, Nat.min_id in Hj. rewrite combine_nth in E by auto.
  apply pair_equal_spec in E as [E1 E2]. destruct (B j ([], []) Hj) as [init E3]. simpl.
  rewrite <- E2, E3. rewrite nth_map_lt with (da := 0) by auto. rewrite E1. apply make_col.
Qed.

Lemma thetas_sorted n : INR n <= 6e8 -> Sorted Rlt (limb_thetas n).
Proof.
  intros Hn. unfold limb_thetas. set (m := (n - 1)%nat).
  assert (Hm : INR m <= 6e8) by (eapply Rle_trans; [apply le_INR|exact Hn]; unfold m; lia).
  assert (P : 3 < PI) by (pose proof PI2_3_2; lra).
  enough (H : forall k i, (i + k = m)%nat ->
     Sorted Rlt (map (fun i => - PI + INR i * (2 * PI / INR m)) (seq i k) ++ [PI - 1e-8])) by (apply (H m 0%nat); auto).
  induction k as [|k IH]; intros i Hi; simpl. { repeat constructor. }
  assert (Hp : 0 < INR m) by (apply lt_0_INR; lia).
  constructor. { apply IH; lia. }
  destruct k; simpl; constructor.
  - assert (Hk : INR i = INR m - 1) by (rewrite <- Hi, plus_INR; simpl; ring). rewrite Hk.
    assert (1e-8 < 2 * PI / INR m). { apply Rmult_lt_reg_r with (INR m); auto. field_simplify; lra. }
    replace ((INR m - 1) * (2 * PI / INR m)) with (2 * PI - 2 * PI / INR m) by (field; lra). lra.
  - assert (0 < 2 * PI / INR m) by (apply Rdiv_lt_0_compat; lra).
apply Rplus_lt_compat_l, Rmult_lt_compat_r; auto. apply (lt_INR i (S i)); lia.
Qed.
Lemma thetas_range n th : In th (limb_thetas n) -> - PI <= th < PI.
Proof.
  assert (P : 3 < PI) by (pose proof PI2_3_2; lra).
  unfold limb_thetas. rewrite in_app_iff, in_map_iff. intros [(i & <- & Hi)|[<-|[]]]; [|lra].
  apply in_seq in Hi. set (m := (n - 1)%nat) in *.
  assert (Hp : 0 < INR m) by (apply lt_0_INR; lia).
  assert (Hi' : INR i < INR m) by (apply lt_INR; lia). pose proof (pos_INR i).
  assert (Hq : 0 < / INR m) by (apply Rinv_0_lt_compat; auto).
  assert (0 <= INR i * / INR m < 1). { split. apply Rmult_le_pos; lra. apply Rmult_lt_reg_r with (INR m); auto. field_simplify; lra. }
  replace (INR i * (2 * PI / INR m)) with (2 * PI * (INR i * / INR m)) by (unfold Rdiv; ring). nra.
Qed.

(** ** gaps *)
Lemma limb_gaps_length l : length (limb_gaps l) = (length l - 1)%nat.
Proof. induction l as [|s [|t l] IH]; simpl in *; auto. rewrite IH. lia. Qed.
Lemma limb_gaps_nth l : forall i, (S i < length l)%nat -> nth i (limb_gaps l) 0 = limb_gap (nth_s l i) (nth_s l (S i)).
Proof.
  induction l as [|s [|t l] IH]; intros i Hi; simpl in Hi; try lia.
  destruct i as [|i]; [reflexivity|]. cbn [limb_gaps]. cbn [nth]. rewrite IH by (simpl; lia). reflexivity.
Qed.
Lemma limb_gap_spec s t nb : length (s_z s) = nb -> length (s_z t) = nb -> length (s_mask s) = nb -> length (s_mask t) = nb ->
  largest_move (s_z s) (s_z t) (s_mask s) (s_mask t) (limb_gap s t).
Proof.
  intros H1 H2 H3 H4. unfold limb_gap.
  set (f := fun x : (C * C) * (bool * bool) => if snd (snd x) || fst (snd x) then Cmod (snd (fst x) - fst (fst x))%C else 0).
  set (L := combine (combine (s_z s) (s_z t)) (combine (s_mask s) (s_mask t))).
  assert (HL : length L = nb) by (unfold L; rewrite !combine_length; lia).
  assert (N : forall i, (i < nb)%nat -> nth i (map f L) 0 =
     if nth i (s_mask t) false || nth i (s_mask s) false then Cmod (nth i (s_z t) (RtoC 0) - nth i (s_z s) (RtoC 0))%C else 0).
  { intros i Hi. rewrite nth_map_lt with (da := ((RtoC 0, RtoC 0), (false, false))) by lia.
    unfold L. rewrite !combine_nth by (rewrite ?combine_length; lia). reflexivity. }
  assert (P : forall v, In v (map f L) -> 0 <= v).
  { intros v Hv. apply in_map_iff in Hv as (x & <- & _). unfold f. destruct (_ || _); [apply Cmod_ge_0|lra]. }
  destruct (Nat.eq_dec nb 0) as [Z|Z].
  { assert (L = []) by (destruct L; simpl in *; [auto|lia]). rewrite H. simpl. split; [lra|]. split; [intros; lia|auto]. }
  assert (Hne : map f L <> []) by (intros E; apply (f_equal (@length R)) in E; rewrite map_length in E; simpl in E; lia).
  destruct (jmax_spec _ Hne) as [A B]. split; [auto|]. split.
  - intros i Hi Hr. rewrite H1 in Hi. specialize (N i Hi).
    assert (E : nth i (s_mask t) false || nth i (s_mask s) false = true) by (destruct Hr as [-> | ->]; auto using orb_true_r).
    rewrite E in N. rewrite <- N. apply B. apply nth_In. rewrite map_length; lia.
  - apply (In_nth _ _ 0) in A as (i & Hi & E). rewrite map_length, HL in Hi. rewrite N in E by auto.
    destruct (nth i (s_mask t) false || nth i (s_mask s) false) eqn:Em.
    + right. exists i. rewrite H1. split; auto. split; auto. apply orb_true_iff in Em. tauto.
    + left. auto.
Qed.

(** ** the chosen intervals *)
Lemma NoDup_app_l {A} (l m : list A) : NoDup (l ++ m) -> NoDup l.
Proof.
  induction l as [|a l IH]; simpl; intros H; [constructor|]. inversion H; subst. constructor; auto.
  intros Hin. apply H2. apply in_or_app; auto.
Qed.
Lemma widest_in n l i : In i (widest n l) -> (S i < length l)%nat.
Proof.
  unfold widest. intros H. assert (H' : In i (rev (argsort Rleb (limb_gaps l)))).
  { rewrite <- (firstn_skipn n). apply in_or_app; auto. }
  apply in_rev, argsort_in in H'. rewrite limb_gaps_length in H'. lia.
Qed.
Lemma widest_nodup n l : NoDup (widest n l).
Proof.
  unfold widest. assert (H : NoDup (rev (argsort Rleb (limb_gaps l)))) by (apply NoDup_rev, argsort_nodup).
  rewrite <- (firstn_skipn n) in H. apply NoDup_app_l in H. auto.
Qed.
Lemma widest_length n l : length (widest n l) = Nat.min n (length l - 1).
Proof. unfold widest. rewrite firstn_length, rev_length, argsort_length, limb_gaps_length. auto. Qed.
Lemma widest_wide n l i j : In i (widest n l) -> ~ In j (widest n l) -> (S j < length l)%nat ->
  nth j (limb_gaps l) 0 <= nth i (limb_gaps l) 0.
Proof.
  intros Hi Hj Hjl. unfold widest in *. set (A := argsort Rleb (limb_gaps l)) in *.
  assert (HA : length A = length (limb_gaps l)) by apply argsort_length.
  assert (Hjr : In j (rev A)) by (apply -> in_rev; apply argsort_in; rewrite limb_gaps_length; lia).
  apply (In_nth _ _ 0%nat) in Hi as (a & Ha & Ea).
  apply (In_nth _ _ 0%nat) in Hjr as (b & Hb & Eb).
  rewrite firstn_length in Ha. rewrite nth_firstn_lt in Ea by lia.
  destruct (Nat.lt_ge_cases b n) as [L|L].
  { exfalso. apply Hj. rewrite <- Eb. rewrite <- (nth_firstn_lt _ _ n) by auto. apply nth_In. rewrite firstn_length. lia. }
  rewrite rev_length in Ha, Hb. rewrite rev_nth in Ea by lia. rewrite rev_nth in Eb by lia.
  pose proof (argsort_sorted 0 Rleb (limb_gaps l) Rleb_total_preorder) as Hs.
  assert (Hlt : (length A - S b < length A - S a)%nat) by lia.
  pose proof (StronglySorted_nth 0%nat _ _ _ _ Hs Hlt) as Hq. fold A in Hq. specialize (Hq ltac:(lia)).
  rewrite Ea, Eb in Hq. unfold idxlt in Hq. destruct Hq as [Hq _]. apply Rleb_true in Hq. auto.
Qed.

(** ** insertion *)
Lemma pick_nil {B} (idcs : list nat) (new : list B) i : ~ In i idcs ->
  filter (fun p => (fst p =? i)%nat) (combine idcs new) = [].
Proof.
  revert new. induction idcs as [|a t IH]; intros [|b new] H; simpl; auto. simpl in H.
  destruct (Nat.eqb_spec a i); [tauto|]. apply IH; tauto.
Qed.
Lemma pick_one {B} (idcs : list nat) (f : nat -> nat -> B) i : forall k0, NoDup idcs -> In i idcs ->
  exists k, map snd (filter (fun p => (fst p =? i)%nat)
     (combine idcs (map (fun ki => f (fst ki) (snd ki)) (combine (seq k0 (length idcs)) idcs)))) = [f k i].
Proof.
  induction idcs as [|a t IH]; intros k0 Hn Hi; [destruct Hi|]. inversion Hn; subst. simpl.
  destruct (Nat.eqb_spec a i) as [->|Ne].
  - exists k0. rewrite pick_nil by auto. reflexivity.
  - destruct Hi as [Hi|Hi]; [congruence|]. apply (IH (S k0)); auto.
Qed.

Lemma refined_seq mid (l : list lsample) (X : nat -> list lsample) (fl : nat -> bool) :
  (forall i, X i = [] /\ fl i = false \/ exists m, X i = [m] /\ fl i = true /\ mid (nth_s l i) (nth_s l (S i)) m) ->
  (forall i, fl i = true -> (S i < length l)%nat) ->
  forall k i, (i + k = length l)%nat -> (0 < k)%nat ->
  refined mid (skipn i l) (flat_map (fun i => nth_s l i :: X i) (seq i k)) (map fl (seq i (k - 1))).
Proof.
  intros HX Hf. induction k as [|k IH]; intros i Hi Hk; [lia|].
  rewrite (skipn_cons_nth no_limb_sample) by lia. cbn [seq flat_map]. replace (S k - 1)%nat with k by lia.
  destruct k as [|k].
  - rewrite skipn_all2 by lia. destruct (HX i) as [[E1 E2]|(m & E1 & E2 & _)].
    + rewrite E1. simpl. constructor.
    + exfalso. specialize (Hf i E2). lia.
  - specialize (IH (S i) ltac:(lia) ltac:(lia)). replace (S k - 1)%nat with k in IH by lia.
    assert (E : skipn (S i) l = nth (S i) l no_limb_sample :: skipn (S (S i)) l) by (apply skipn_cons_nth; lia).
    rewrite E in *. cbn [seq map].
    destruct (HX i) as [[E1 E2]|(m & E1 & E2 & Hm)]; rewrite E1, E2; cbn [app].
    + apply refined_keep. exact IH.
    + apply refined_split; [exact Hm|exact IH].
Qed.

Definition memb (i : nat) (l : list nat) : bool := existsb (Nat.eqb i) l.
Lemma memb_in i l : memb i l = true <-> In i l.
Proof.
  unfold memb. rewrite existsb_exists. split.
  - intros (x & H & E). apply Nat.eqb_eq in E. subst; auto.
  - intros H. exists i. split; auto. apply Nat.eqb_refl.
Qed.
Lemma count_memb (idcs : list nat) n : NoDup idcs -> (forall i, In i idcs -> (i < n)%nat) ->
  count_true (map (fun i => memb i idcs) (seq 0 n)) = length idcs.
Proof.
  intros Hn Hb. unfold count_true.
  assert (E : forall l : list nat, length (filter (fun b => b) (map (fun i => memb i idcs) l)) = length (filter (fun i => memb i idcs) l)).
  { induction l; simpl; auto. destruct (memb a idcs); simpl; auto. }
  rewrite E. apply Nat.le_antisymm.
  - apply NoDup_incl_length. { apply NoDup_filter, seq_NoDup. }
    intros i Hi. apply filter_In in Hi as [_ Hi]. apply memb_in; auto.
  - apply NoDup_incl_length; auto. intros i Hi. apply filter_In. split; [apply in_seq; specialize (Hb i Hi); lia|]. apply memb_in; auto.
Qed.

Definition mid_sample step det w0 rho (s t m : lsample) : Prop :=
  s_th m = (s_th s + s_th t) / 2 /\ col step det w0 rho m.
Definition warm step w0 rho eps (s m : lsample) : Prop :=
  exists init, step (Some init) (limb_at w0 rho (s_th m)) = (s_z m, s_mask m) /\ length init = length (s_z s) /\
    forall i, (i < length init)%nat -> Cmod (nth i init (RtoC 0) - nth i (s_z s) (RtoC 0))%C <= eps.

Lemma new_sample_mid step det w0 rho kick eps l k i : (forall a b, Cmod (kick a b) <= eps) ->
  let m := new_sample step det w0 rho kick l k i in
  mid_sample step det w0 rho (nth_s l i) (nth_s l (S i)) m /\ warm step w0 rho eps (nth_s l i) m.
Proof.
  intros He. unfold new_sample. rewrite Nat.add_1_r.
  set (th := 0.5 * (s_th (nth_s l i) + s_th (nth_s l (S i)))).
  set (init := map _ _). cbv zeta. split; [split|].
  - simpl. unfold th. lra.
  - apply make_col.
  - exists init. simpl. rewrite <- limb_point_at. split; [destruct (step _ _); auto|].
    assert (HL : length init = length (s_z (nth_s l i))) by (unfold init; rewrite map_length, combine_length, seq_length; lia).
    split; auto. intros j Hj. rewrite HL in Hj. unfold init.
    rewrite nth_map_lt with (da := (0%nat, RtoC 0)) by (rewrite combine_length, seq_length; lia).
    rewrite combine_nth by (rewrite seq_length; auto). cbn [fst snd]. rewrite seq_nth by auto.
    match goal with |- Cmod (?a + ?b - ?a)%C <= _ => replace (a + b - a)%C with b by ring end. auto.
Qed.

Lemma refine_refined step det w0 rho kick eps n l nb : l <> [] -> (forall a b, Cmod (kick a b) <= eps) ->
  List.Forall (fun s => length (s_z s) = nb /\ length (s_mask s) = nb) l ->
  exists fl, refined (fun s t m => mid_sample step det w0 rho s t m /\ warm step w0 rho eps s m)
               l (refine step det w0 rho kick n l) fl /\
    length fl = (length l - 1)%nat /\
    count_true fl = Nat.min n (length l - 1) /\
    (forall i j di dj, nth i fl false = true -> (S j < length l)%nat -> nth j fl false = false ->
       largest_move (s_z (nth_s l i)) (s_z (nth_s l (S i))) (s_mask (nth_s l i)) (s_mask (nth_s l (S i))) di ->
       largest_move (s_z (nth_s l j)) (s_z (nth_s l (S j))) (s_mask (nth_s l j)) (s_mask (nth_s l (S j))) dj -> dj <= di).
Proof.
  intros Hne He Hnb. exists (map (fun i => memb i (widest n l)) (seq 0 (length l - 1))).
  assert (HL : (0 < length l)%nat) by (destruct l; simpl; [congruence|lia]).
  split; [|split; [|split]].
  - unfold refine, insert_after.
    apply (refined_seq _ l
       (fun i => map snd (filter (fun p => (fst p =? i)%nat)
         (combine (widest n l) (map (fun ki => new_sample step det w0 rho kick l (fst ki) (snd ki)) (combine (seq 0 (length (widest n l))) (widest n l)))))) 
       (fun i => memb i (widest n l))) with (i := 0%nat); auto.
    + intros i. destruct (memb i (widest n l)) eqn:E.
      * right. apply memb_in in E. destruct (pick_one (widest n l) (new_sample step det w0 rho kick l) i 0 (widest_nodup n l) E) as [k Hk].
        exists (new_sample step det w0 rho kick l k i). split; [exact Hk|]. split; auto. apply new_sample_mid; auto.
      * left. split; auto. rewrite pick_nil; auto. intros H. apply memb_in in H. congruence.
    + intros i H. apply memb_in in H. apply (widest_in n); auto.
  - rewrite map_length, seq_length; auto.
  - rewrite count_memb. apply widest_length. apply widest_nodup. intros i Hi. apply widest_in in Hi. lia.
  - intros i j di dj Hi Hjl Hj Mi Mj.
    assert (Hil : (i < length l - 1)%nat).
    { destruct (Nat.lt_ge_cases i (length l - 1)); auto. rewrite nth_overflow in Hi by (rewrite map_length, seq_length; auto). discriminate. }
    rewrite nth_map_lt with (da := 0%nat) in Hi by (rewrite seq_length; auto). rewrite seq_nth in Hi by auto. simpl in Hi.
    rewrite nth_map_lt with (da := 0%nat) in Hj by (rewrite seq_length; lia). rewrite seq_nth in Hj by lia. simpl in Hj.
    assert (U : forall a d, (S a < length l)%nat -> largest_move (s_z (nth_s l a)) (s_z (nth_s l (S a))) (s_mask (nth_s l a)) (s_mask (nth_s l (S a))) d ->
        d = nth a (limb_gaps l) 0).
    { intros a d Ha Hd. rewrite limb_gaps_nth by auto. rewrite List.Forall_forall in Hnb.
      destruct (Hnb (nth_s l a)) as [A1 A2]; [apply nth_In; lia|]. destruct (Hnb (nth_s l (S a))) as [B1 B2]; [apply nth_In; lia|].
      pose proof (limb_gap_spec _ _ nb A1 B1 A2 B2) as Hg.
      assert (Uq : forall u v z1 z2 m1 m2, largest_move z1 z2 m1 m2 u -> largest_move z1 z2 m1 m2 v -> u <= v).
      { intros u v z1 z2 m1 m2 (P1 & P2 & P3) (Q1 & Q2 & Q3). destruct P3 as [->|(c & C1 & C2 & ->)]; auto. }
      apply Rle_antisym; eapply Uq; eauto. }
    rewrite (U i di), (U j dj) by (auto; lia). apply (widest_wide n); auto.
    + apply memb_in; auto.
    + intros H. apply memb_in in H. congruence.
Qed.

(** ** consequences of being refined *)
Lemma refined_forall {A} (mid : A -> A -> A -> Prop) (P : A -> Prop) l l' fl : refined mid l l' fl ->
  (forall s t m, mid s t m -> P m) -> List.Forall P l -> List.Forall P l'.
Proof.
  intros H Hm. induction H; intros F; auto; inversion F; subst.
  - constructor; auto.
  - constructor; auto. constructor; eauto.
Qed.
Lemma refined_length {A} (mid : A -> A -> A -> Prop) l l' fl : refined mid l l' fl ->
  length l' = (length l + count_true fl)%nat.
Proof. intros H. unfold count_true. induction H; simpl in *; lia. Qed.
Lemma refined_hd {A} (mid : A -> A -> A -> Prop) l l' fl : refined mid l l' fl -> exists s a b, l = s :: a /\ l' = s :: b.
Proof. intros H; destruct H; eauto. Qed.
Lemma refined_sorted mid (f : lsample -> R) l l' fl : refined mid l l' fl ->
  (forall s t m, mid s t m -> f m = (f s + f t) / 2) -> Sorted Rlt (map f l) -> Sorted Rlt (map f l').
Proof.
  intros H Hm. induction H; intros S'; auto; simpl in *; inversion S'; subst; 
    match goal with H : HdRel _ _ (_ :: _) |- _ => inversion H; subst end;
    destruct (refined_hd _ _ _ _ ltac:(eassumption)) as (s0 & a & b & E1 & E2); injection E1 as -> ->; subst l'; simpl in *.
  - constructor; auto. 
  - rewrite (Hm _ _ _ H) in *. constructor; [constructor; auto|]; constructor; lra.
Qed.
Lemma refined_range mid (f : lsample -> R) lo hi l l' fl : refined mid l l' fl ->
  (forall s t m, mid s t m -> f m = (f s + f t) / 2) ->
  List.Forall (fun s => lo <= f s < hi) l -> List.Forall (fun s => lo <= f s < hi) l'.
Proof.
  intros H Hm. induction H; intros F; auto; inversion F; subst.
  - constructor; auto.
  - constructor; auto. constructor; auto. rewrite (Hm _ _ _ H). inversion H4; subst. lra.
Qed.

Section Steps.
Variables (step : option (list C) -> C -> list C * list bool) (det : C -> R) (w0 : C) (rho : R).
Variables (kick : nat -> nat -> C) (jitter : nat -> nat -> R) (nb : nat).
Hypothesis Hstep : forall init w, length (fst (step init w)) = nb /\ length (snd (step init w)) = nb.

Lemma col_length s : col step det w0 rho s -> length (s_z s) = nb /\ length (s_mask s) = nb /\ length (s_par s) = nb.
Proof.
  intros [[init E] Hp]. destruct (Hstep init (limb_at w0 rho (s_th s))) as [A B]. rewrite E in A, B. simpl in A, B.
  rewrite Hp, map_length. auto.
Qed.

Record good (l : list lsample) : Prop := {
  g_ne : l <> [];
  g_col : List.Forall (col step det w0 rho) l;
  g_range : List.Forall (fun s => - PI <= s_th s < PI) l }.

Lemma kick_bound_ex k n : exists eps, forall a b, (a < k)%nat -> (b < n)%nat -> Cmod (kick a b) <= eps.
Proof.
  revert n. induction k as [|k IH]; intros n. { exists 0; intros; lia. }
  destruct (IH n) as [e He].
  assert (exists e2, forall b, (b < n)%nat -> Cmod (kick k b) <= e2) as [e2 He2].
  { clear. induction n as [|n [e He]]. { exists 0; intros; lia. }
    exists (Rmax e (Cmod (kick k n))). intros b Hb. destruct (Nat.eq_dec b n) as [->|]; [apply Rmax_r|].
    eapply Rle_trans; [apply He; lia|apply Rmax_l]. }
  exists (Rmax e e2). intros a b Ha Hb. destruct (Nat.eq_dec a k) as [->|].
  - eapply Rle_trans; [apply He2; auto|apply Rmax_r].
  - eapply Rle_trans; [apply He; lia|apply Rmax_l].
Qed.
Lemma refine_struct n l : l <> [] ->
  exists fl, refined (mid_sample step det w0 rho) l (refine step det w0 rho kick n l) fl /\ count_true fl = Nat.min n (length l - 1).
Proof.
  intros Hne. exists (map (fun i => memb i (widest n l)) (seq 0 (length l - 1))).
  assert (HL : (0 < length l)%nat) by (destruct l; simpl; [congruence|lia]).
  split.
  - unfold refine, insert_after.
    apply (refined_seq _ l
       (fun i => map snd (filter (fun p => (fst p =? i)%nat)
         (combine (widest n l) (map (fun ki => new_sample step det w0 rho kick l (fst ki) (snd ki)) (combine (seq 0 (length (widest n l))) (widest n l)))))) 
       (fun i => memb i (widest n l))) with (i := 0%nat); auto.
    + intros i. destruct (memb i (widest n l)) eqn:E.
      * right. apply memb_in in E. destruct (pick_one (widest n l) (new_sample step det w0 rho kick l) i 0 (widest_nodup n l) E) as [k Hk].
        exists (new_sample step det w0 rho kick l k i). split; [exact Hk|]. split; auto.
        unfold new_sample. rewrite Nat.add_1_r. split; [simpl; lra|apply make_col].
      * left. split; auto. rewrite pick_nil; auto. intros H. apply memb_in in H. congruence.
    + intros i H. apply memb_in in H. apply (widest_in n); auto.
  - rewrite count_memb. apply widest_length. apply widest_nodup. intros i Hi. apply widest_in in Hi. lia.
Qed.
Lemma refine_good n l : good l -> good (refine step det w0 rho kick n l).
Proof.
  intros [A B D]. destruct (refine_struct n l A) as (fl & Hr & _). constructor.
  - destruct (refined_hd _ _ _ _ Hr) as (s & a & b & _ & ->). congruence.
  - eapply refined_forall; eauto. intros s t m [_ H]; auto.
  - eapply refined_range; eauto. intros s t m [H _]; auto.
Qed.
Lemma refine_times_good k n : forall l, good l -> good (refine_times step det w0 rho kick k n l).
Proof. induction k; intros l H; simpl; auto. apply IHk, refine_good; auto. Qed.
Lemma refine_times_sorted k n : forall l, good l -> Sorted Rlt (map s_th l) -> Sorted Rlt (map s_th (refine_times step det w0 rho kick k n l)).
Proof.
  induction k; intros l H Hs; simpl; auto. apply IHk. apply refine_good; auto.
  destruct (refine_struct n l (g_ne _ H)) as (fl & Hr & _). eapply refined_sorted; eauto. intros s t m [E _]; auto.
Qed.
Lemma refine_times_length k n : forall l, l <> [] -> (n <= length l - 1)%nat ->
  length (refine_times step det w0 rho kick k n l) = (length l + k * n)%nat.
Proof.
  induction k; intros l Hne Hn; simpl; [lia|].
  destruct (refine_struct n l Hne) as (fl & Hr & Hc). rewrite Nat.min_l in Hc by auto.
  pose proof (refined_length _ _ _ _ Hr) as HL. rewrite Hc in HL.
  rewrite IHk; [lia| |lia]. destruct (refined_hd _ _ _ _ Hr) as (s & a & b & _ & ->). congruence.
Qed.
Lemma initial_good n : (0 < n)%nat -> good (initial_samples step det w0 rho n).
Proof.
  intros Hn. constructor.
  - intros E. apply (f_equal (@length lsample)) in E. rewrite initial_length in E by auto. simpl in E. lia.
  - apply initial_cols.
  - apply List.Forall_forall. intros s Hs. apply (thetas_range n). rewrite <- (initial_thetas step det w0 rho n). apply in_map; auto.
Qed.

(** ** de-duplication *)
Lemma dedup_length l : length (dedup jitter l) = length l.
Proof. unfold dedup. rewrite map_length, seq_length. auto. Qed.
Lemma dedup_nth l j : (j < length l)%nat -> nth_s (dedup jitter l) j =
   Sample (s_th (nth_s l j))
     (map (fun i => if is_dup l i j then (entry l i j + RtoC (jitter i j))%C else entry l i j) (seq 0 (length (s_z (nth_s l j)))))
     (s_mask (nth_s l j)) (s_par (nth_s l j)).
Proof.
  intros Hj. unfold dedup, nth_s at 1. rewrite nth_map_lt with (da := 0%nat) by (rewrite seq_length; auto).
  rewrite seq_nth by auto. reflexivity.
Qed.
Lemma is_dup_true l i j : is_dup l i j = true -> exists i' j', (i' <= i)%nat /\ (j' < length l)%nat /\ (i', j') <> (i, j) /\
  entry l i' j' = entry l i j.
Proof.
  unfold is_dup. rewrite existsb_exists. intros (i' & Hi & H). rewrite existsb_exists in H. destruct H as (j' & Hj & H).
  apply in_seq in Hi, Hj. apply andb_true_iff in H as [H1 H2]. exists i', j'. split; [lia|]. split; [lia|]. split.
  - intros E. injection E as -> ->. rewrite !Nat.ltb_irrefl, andb_false_r in H1. discriminate.
  - unfold ceqb in H2. apply andb_true_iff in H2 as [A B]. apply Reqb_true in A, B. apply Ceq; auto.
Qed.

(** ** permutation *)
Lemma permute_scan_length carry l : length (permute_scan carry l) = length l.
Proof. revert carry; induction l; intros; simpl; auto. Qed.
Lemma permute_scan_spec l : forall carry, length carry = nb -> List.Forall (fun s => length (s_z s) = nb) l ->
  forall j, (j < length l)%nat ->
  let prev := match j with 0%nat => carry | S j' => s_z (nth_s (permute_scan carry l) j') end in
  exists p, greedy_matching prev (s_z (nth_s l j)) p /\ Permutation p (seq 0 nb) /\ length prev = nb /\
    nth_s (permute_scan carry l) j = reorder (nth_s l j) p.
Proof.
  induction l as [|s t IH]; intros carry Hc HF; [simpl; intros; lia|].
  assert (Hs : length (s_z s) = nb) by (inversion HF; auto).
  assert (Ht : List.Forall (fun s => length (s_z s) = nb) t) by (inversion HF; auto).
  assert (Hp : Permutation (match_points carry (s_z s)) (seq 0 nb)) by (rewrite <- Hs; apply match_points_perm; lia).
  assert (Gr : greedy_matching carry (s_z s) (match_points carry (s_z s))) by (apply match_points_greedy; lia).
  assert (Hg : length (s_z (reorder s (match_points carry (s_z s)))) = nb).
  { simpl. rewrite gather_length. apply Permutation_length in Hp. rewrite seq_length in Hp. auto. }
  intros [|j] Hj.
  - exists (match_points carry (s_z s)). auto.
  - simpl in Hj. specialize (IH (s_z (reorder s (match_points carry (s_z s)))) Hg Ht j ltac:(lia)).
    destruct IH as (p & A & B & D & E). exists p. destruct j; auto.
Qed.
End Steps.

Section Final.
Variables (step : option (list C) -> C -> list C * list bool) (det : C -> R) (w0 : C) (rho : R).
Variables (kick : nat -> nat -> C) (jitter : nat -> nat -> R) (nb : nat).
Hypothesis Hstep : forall init w, length (fst (step init w)) = nb /\ length (snd (step init w)) = nb.
Let limb := images_of_source_limb step det w0 rho kick jitter.

Lemma limb_ok npts niter out : limb npts niter = Ok out ->
  (0 < npts / 2)%nat /\ niter <> 0%nat /\
  out = permute_images (dedup jitter (refine_times step det w0 rho kick niter (npts / 2 / niter) (initial_samples step det w0 rho (npts / 2)))).
Proof.
  unfold limb, images_of_source_limb. destruct (Nat.eqb_spec (npts / 2) 0) as [|A]; [discriminate|].
  destruct (Nat.eqb_spec niter 0) as [|B]; [discriminate|]. intros H. split; [lia|]. split; auto. congruence.
Qed.
Lemma dedup_z_length l j : (j < length l)%nat -> length (s_z (nth_s (dedup jitter l) j)) = length (s_z (nth_s l j)).
Proof. intros H. rewrite dedup_nth by auto. simpl. rewrite map_length, seq_length. auto. Qed.
Lemma forall_nth_s (P : lsample -> Prop) l : List.Forall P l <-> forall j, (j < length l)%nat -> P (nth_s l j).
Proof.
  rewrite List.Forall_forall. split.
  - intros H j Hj. apply H, nth_In; auto.
  - intros H s Hs. apply (In_nth _ _ no_limb_sample) in Hs as (j & Hj & <-). apply H; auto.
Qed.
Lemma permute_images_spec l : l <> [] -> List.Forall (fun s => length (s_z s) = nb) l ->
  length (permute_images l) = length l /\
  forall j, (j < length l)%nat ->
  let prev := match j with 0%nat => s_z (nth_s l 0) | S j' => s_z (nth_s (permute_images l) j') end in
  exists p, greedy_matching prev (s_z (nth_s l j)) p /\ Permutation p (seq 0 nb) /\ length prev = nb /\
    nth_s (permute_images l) j = reorder (nth_s l j) p.
Proof.
  intros Hne HF. unfold permute_images. split; [apply permute_scan_length|].
  destruct l as [|s t]; [congruence|]. cbn [hd]. apply permute_scan_spec; auto. inversion HF; auto.
Qed.
Lemma refined_all npts niter : (0 < npts / 2)%nat ->
  good step det w0 rho (refine_times step det w0 rho kick niter (npts / 2 / niter) (initial_samples step det w0 rho (npts / 2))).
Proof. intros H. apply refine_times_good, initial_good; auto. Qed.
Lemma dedup_lengths l : good step det w0 rho l -> List.Forall (fun s => length (s_z s) = nb) (dedup jitter l) /\ dedup jitter l <> [].
Proof.
  intros [A B D]. split.
  - apply forall_nth_s. intros j Hj. rewrite dedup_length in Hj. rewrite dedup_z_length by auto.
    rewrite forall_nth_s in B. apply (col_length step det w0 rho nb Hstep); auto.
  - intros E. apply (f_equal (@length lsample)) in E. rewrite dedup_length in E. destruct l; simpl in *; congruence.
Qed.

Lemma nth_gather {A} (d : A) l p i : (i < length p)%nat -> nth i (gather d l p) d = nth (nth i p 0%nat) l d.
Proof. intros H. unfold gather. rewrite nth_map_lt with (da := 0%nat) by auto. auto. Qed.

Theorem limb_columns npts niter out : (forall i j, Rabs (jitter i j) <= 1e-9) -> limb npts niter = Ok out ->
  exists raw : list (list C), length raw = length out /\
  forall j, (j < length out)%nat ->
  exists p ms ps, Permutation p (seq 0 nb) /\
    solver_column step det w0 rho (s_th (nth_s out j)) (nth j raw []) ms ps /\
    s_mask (nth_s out j) = map (fun k => nth k ms false) p /\
    s_par (nth_s out j) = map (fun k => nth k ps 0) p /\
    length (s_z (nth_s out j)) = nb /\
    forall i, (i < nb)%nat -> exists d, Rabs d <= 1e-9 /\
      nth i (s_z (nth_s out j)) (RtoC 0) = (nth (nth i p 0%nat) (nth j raw []) (RtoC 0) + RtoC d)%C /\
      (d <> 0 -> exists i' j', (i' < nb)%nat /\ (j' < length out)%nat /\ (i', j') <> (nth i p 0%nat, j) /\
         nth i' (nth j' raw []) (RtoC 0) = nth (nth i p 0%nat) (nth j raw []) (RtoC 0)).
Proof.
  intros Hjit H. apply limb_ok in H as (Hn & _ & ->).
  pose proof (refined_all npts niter Hn) as Hg. set (l := refine_times _ _ _ _ _ _ _ _) in *.
  destruct (dedup_lengths l Hg) as [HF Hne]. destruct (permute_images_spec _ Hne HF) as [HL HP].
  rewrite dedup_length in HL, HP.
  exists (map s_z l). rewrite map_length, HL. split; auto. intros j Hj.
  destruct (HP j Hj) as (p & _ & Hp & _ & E). rewrite E. exists p, (s_mask (nth_s l j)), (s_par (nth_s l j)).
  pose proof (proj1 (forall_nth_s _ _) (g_col _ _ _ _ _ Hg)) as Hcol.
  assert (Hlen : forall a, (a < length l)%nat -> length (s_z (nth_s l a)) = nb) by (intros a Ha; apply (col_length step det w0 rho nb Hstep); auto).
  assert (Hraw : forall a, (a < length l)%nat -> nth a (map s_z l) [] = s_z (nth_s l a)) by (intros a Ha; apply nth_map_lt; auto).
  rewrite Hraw by auto. rewrite dedup_nth by auto. unfold reorder. cbn [s_th s_z s_mask s_par].
  assert (Lp : length p = nb) by (apply Permutation_length in Hp; rewrite seq_length in Hp; auto).
  split; auto. split; [apply Hcol; auto|]. split; auto. split; auto. split; [rewrite gather_length; auto|].
  intros i Hi. assert (Hk : (nth i p 0 < nb)%nat).
  { assert (In (nth i p 0%nat) (seq 0 nb)) by (eapply Permutation_in; [exact Hp|apply nth_In; lia]). apply in_seq in H; lia. }
  set (k := nth i p 0%nat) in *. rewrite nth_gather by lia. fold k.
  rewrite nth_map_lt with (da := 0%nat) by (rewrite seq_length, Hlen; auto). rewrite seq_nth by (rewrite Hlen; auto). cbn [plus].
  destruct (is_dup l k j) eqn:Ed.
  - exists (jitter k j). split; auto. split; auto. intros _. apply is_dup_true in Ed as (i' & j' & A & B & D & F).
    exists i', j'. split; [lia|]. split; auto. split; auto. rewrite Hraw by auto. exact F.
  - exists 0. rewrite Rabs_R0. split; [lra|]. split; [|congruence]. change (entry l k j) with (nth k (s_z (nth_s l j)) (RtoC 0)). rewrite Cplus_0_r; auto.
Qed.

Lemma nth_s_th l i : (i < length l)%nat -> nth i (map s_th l) 0 = s_th (nth_s l i).
Proof. intros. apply nth_map_lt; auto. Qed.
Lemma final_thetas npts niter out : limb npts niter = Ok out ->
  map s_th out = map s_th (refine_times step det w0 rho kick niter (npts / 2 / niter) (initial_samples step det w0 rho (npts / 2))).
Proof.
  intros H. apply limb_ok in H as (Hn & _ & ->).
  pose proof (refined_all npts niter Hn) as Hg. set (l := refine_times _ _ _ _ _ _ _ _) in *.
  destruct (dedup_lengths l Hg) as [HF Hne]. destruct (permute_images_spec _ Hne HF) as [HL HP].
  rewrite dedup_length in HL, HP.
  apply (list_eq_nth 0). { rewrite !map_length; auto. }
  intros i Hi. rewrite map_length, HL in Hi. rewrite !nth_s_th by lia.
  destruct (HP i Hi) as (p & _ & _ & _ & E). rewrite E, dedup_nth by auto. reflexivity.
Qed.
Theorem limb_angles npts niter out : INR npts <= 1e9 -> limb npts niter = Ok out ->
  StronglySorted Rlt (map s_th out) /\ List.Forall (fun th => - PI <= th < PI) (map s_th out).
Proof.
  intros Hsz H. pose proof (final_thetas _ _ _ H) as E. apply limb_ok in H as (Hn & _ & _). rewrite E.
  split.
  - apply Sorted_StronglySorted. { intros x y z; apply Rlt_trans. }
    apply refine_times_sorted. { apply initial_good; auto. } rewrite initial_thetas. apply thetas_sorted.
    assert (2 * INR (npts / 2) <= INR npts). { change 2 with (INR 2). rewrite <- mult_INR. apply le_INR. apply Nat.mul_div_le; lia. } lra.
  - apply List.Forall_forall. intros th Hth. apply in_map_iff in Hth as (s & <- & Hs).
    pose proof (g_range _ _ _ _ _ (refined_all npts niter Hn)) as F. rewrite List.Forall_forall in F. apply F; auto.
Qed.
Theorem limb_count npts niter out : (2 <= niter)%nat -> limb npts niter = Ok out ->
  length out = (npts / 2 + niter * (npts / 2 / niter))%nat.
Proof.
  intros Hi H. pose proof (final_thetas _ _ _ H) as E. apply limb_ok in H as (Hn & _ & _).
  apply (f_equal (@length R)) in E. rewrite !map_length in E. rewrite E.
  rewrite (refine_times_length step det w0 rho kick).
  - rewrite initial_length by auto. auto.
  - intros Z. apply (f_equal (@length lsample)) in Z. rewrite initial_length in Z by auto. cbn [length] in Z. lia.
  - rewrite initial_length by auto. enough (npts / 2 / niter < npts / 2)%nat by lia. apply Nat.div_lt; lia.
Qed.
Theorem limb_continuity npts niter out : limb npts niter = Ok out ->
  forall j, (S j < length out)%nat -> forall i k, (i <= k)%nat -> (k < nb)%nat ->
  Cmod (nth i (s_z (nth_s out (S j))) (RtoC 0) - nth i (s_z (nth_s out j)) (RtoC 0))%C <=
  Cmod (nth k (s_z (nth_s out (S j))) (RtoC 0) - nth i (s_z (nth_s out j)) (RtoC 0))%C.
Proof.
  intros H j Hj i k Hik Hk. apply limb_ok in H as (Hn & _ & ->).
  pose proof (refined_all npts niter Hn) as Hg. set (l := refine_times _ _ _ _ _ _ _ _) in *.
  destruct (dedup_lengths l Hg) as [HF Hne]. destruct (permute_images_spec _ Hne HF) as [HL HP].
  rewrite HL in Hj. destruct (HP (S j) Hj) as (p & Gr & Hp & Lprev & E). cbv zeta in *.
  rewrite E. unfold reorder. cbn [s_z].
  assert (Lp : length p = nb) by (apply Permutation_length in Hp; rewrite seq_length in Hp; auto).
  rewrite !nth_gather by lia.
  destruct (Nat.eq_dec i k) as [->|Ne]; [lra|].
  destruct Gr as [_ Gr]. destruct (Gr i ltac:(lia)) as (A & B & D).
  assert (Hnd : NoDup p) by (eapply Permutation_NoDup; [symmetry; exact Hp|apply seq_NoDup]).
  specialize (D (nth k p 0%nat)). rewrite NoDup_nth with (d := 0%nat) in Hnd.
  destruct D as [D|[D _]]; try lra.
  - assert (Hr : In (nth k p 0%nat) (seq 0 nb)) by (eapply Permutation_in; [exact Hp|apply nth_In; lia]).
    apply in_seq in Hr. rewrite forall_nth_s in HF. rewrite HF by auto. lia.
  - intros Hin. apply (In_nth _ _ 0%nat) in Hin as (a & Ha & Ea). rewrite firstn_length in Ha. rewrite nth_firstn_lt in Ea by lia.
    apply Hnd in Ea; lia.
  - intros Ea. apply Hnd in Ea; lia.
Qed.
End Final.

(** ** following branches *)
Definition labelled (s : lsample) : list (C * (bool * R)) := combine (s_z s) (combine (s_mask s) (s_par s)).
Lemma labelled_split s nb : length (s_z s) = nb -> length (s_mask s) = nb -> length (s_par s) = nb ->
  forall i, (i < nb)%nat -> nth i (labelled s) (RtoC 0, (false, 0)) = (nth i (s_z s) (RtoC 0), (nth i (s_mask s) false, nth i (s_par s) 0)).
Proof. intros. unfold labelled. rewrite !combine_nth by (rewrite ?combine_length; lia). auto. Qed.

Lemma follow_match nb (c : nat -> C) (g : nat -> C) sg tau p : Permutation sg (seq 0 nb) -> Permutation tau (seq 0 nb) ->
  greedy_matching (map c sg) (map g tau) p ->
  (forall i k, (i < nb)%nat -> (k < nb)%nat -> k <> i -> Cmod (g i - c i)%C < Cmod (g k - c i)%C) ->
  forall i, (i < nb)%nat -> (nth i p 0 < nb)%nat /\ nth (nth i p 0%nat) tau 0%nat = nth i sg 0%nat.
Proof.
  intros Hs Ht [Lp Gr] Hc.
  assert (Ls : length sg = nb) by (apply Permutation_length in Hs; rewrite seq_length in Hs; auto).
  assert (Lt : length tau = nb) by (apply Permutation_length in Ht; rewrite seq_length in Ht; auto).
  assert (Ns : NoDup sg) by (eapply Permutation_NoDup; [symmetry; exact Hs|apply seq_NoDup]).
  assert (Nt : NoDup tau) by (eapply Permutation_NoDup; [symmetry; exact Ht|apply seq_NoDup]).
  rewrite map_length, Ls in Lp. rewrite map_length, Ls in Gr.
  rewrite NoDup_nth with (d := 0%nat) in Ns. rewrite NoDup_nth with (d := 0%nat) in Nt. rewrite Ls in *. rewrite Lt in *.
  induction i as [i IH] using lt_wf_ind. intros Hi.
  destruct (Gr i Hi) as (A & B & D). rewrite map_length, Lt in A, D. split; auto.
  assert (Hsi : (nth i sg 0 < nb)%nat).
  { assert (H : In (nth i sg 0%nat) (seq 0 nb)) by (eapply Permutation_in; [exact Hs|apply nth_In; lia]). apply in_seq in H; lia. }
  assert (Hin : In (nth i sg 0%nat) tau) by (eapply Permutation_in; [symmetry; exact Ht|apply in_seq; lia]).
  apply (In_nth _ _ 0%nat) in Hin as (ks & Hks & Eks). rewrite Lt in Hks.
  destruct (Nat.eq_dec ks (nth i p 0%nat)) as [<-|Ne]; auto. exfalso.
  assert (Hu : ~ In ks (firstn i p)).
  { intros Hin. apply (In_nth _ _ 0%nat) in Hin as (a & Ha & Ea). rewrite firstn_length in Ha. rewrite nth_firstn_lt in Ea by lia.
    destruct (IH a ltac:(lia) ltac:(lia)) as [_ Q]. rewrite Ea, Eks in Q. apply Ns in Q; lia. }
  specialize (D ks Hks Hu Ne).
  assert (Hpi : (nth (nth i p 0) tau 0 < nb)%nat).
  { assert (H : In (nth (nth i p 0%nat) tau 0%nat) (seq 0 nb)) by (eapply Permutation_in; [exact Ht|apply nth_In; lia]). apply in_seq in H; lia. }
  assert (Hne : nth (nth i p 0%nat) tau 0%nat <> nth i sg 0%nat) by (intros Q; rewrite <- Eks in Q; apply Nt in Q; lia).
  pose proof (Hc _ _ Hsi Hpi Hne) as Hlt.
  rewrite !nth_map_lt with (da := 0%nat) in D by lia. rewrite Eks in D. 
  lra.
Qed.

Section Follow.
Variables (nb : nat) (G : nat -> nat -> C * (bool * R)).
Let g i j : C := fst (G i j).
Lemma follow_scan l : forall j0 c sg, Permutation sg (seq 0 nb) ->
  List.Forall (fun s => length (s_z s) = nb /\ length (s_mask s) = nb /\ length (s_par s) = nb) l ->
  (forall j, (j < length l)%nat -> Permutation (labelled (nth_s l j)) (map (fun i => G i (j0 + j)%nat) (seq 0 nb))) ->
  (forall i k, (i < nb)%nat -> (k < nb)%nat -> k <> i -> Cmod (g i j0 - c i)%C < Cmod (g k j0 - c i)%C) ->
  (forall j i k, (S j < length l)%nat -> (i < nb)%nat -> (k < nb)%nat -> k <> i ->
     Cmod (g i (j0 + S j) - g i (j0 + j))%C < Cmod (g k (j0 + S j) - g i (j0 + j))%C) ->
  forall j i, (j < length l)%nat -> (i < nb)%nat ->
    nth i (labelled (nth_s (permute_scan (map c sg) l) j)) (RtoC 0, (false, 0)) = G (nth i sg 0%nat) (j0 + j)%nat.
Proof.
  induction l as [|s t IH]; intros j0 c sg Hs HF HG H0 Hm j i Hj Hi; [simpl in Hj; lia|].
  assert (Ls : length sg = nb) by (apply Permutation_length in Hs; rewrite seq_length in Hs; auto).
  assert (HFs : length (s_z s) = nb /\ length (s_mask s) = nb /\ length (s_par s) = nb) by (inversion HF; auto).
  assert (HFt : List.Forall (fun s => length (s_z s) = nb /\ length (s_mask s) = nb /\ length (s_par s) = nb) t) by (inversion HF; auto).
  destruct HFs as (Lz & Lm & Lr).
  pose proof (HG 0%nat ltac:(simpl; lia)) as P0. rewrite Nat.add_0_r in P0. unfold nth_s in P0. cbn [nth] in P0.
  symmetry in P0. apply Permutation_sym, Permutation_map_inv in P0 as (tau & Et & Pt). apply Permutation_sym in Pt.
  assert (Ltau : length tau = nb) by (apply Permutation_length in Pt; rewrite seq_length in Pt; auto).
  assert (Ez : s_z s = map (fun i => g i j0) tau).
  { rewrite <- (map_map (fun i => G i j0) fst), <- Et. unfold labelled. rewrite map_fst_combine; auto. rewrite combine_length; lia. }
  set (p := match_points (map c sg) (s_z s)).
  assert (Gr : greedy_matching (map c sg) (map (fun i => g i j0) tau) p).
  { unfold p. rewrite Ez. apply match_points_greedy. rewrite !map_length. lia. }
  pose proof (follow_match nb c (fun i => g i j0) sg tau p Hs Pt Gr H0) as Hfm.
  assert (Lp : length p = nb) by (destruct Gr as [L _]; rewrite map_length in L; lia).
  assert (E0 : forall i, (i < nb)%nat -> nth i (labelled (reorder s p)) (RtoC 0, (false, 0)) = G (nth i sg 0%nat) j0).
  { intros a Ha. destruct (Hfm a Ha) as [Ka Kb]. 
    rewrite (labelled_split _ nb) by (unfold reorder; cbn; rewrite ?gather_length; auto).
    unfold reorder; cbn [s_z s_mask s_par]. rewrite !nth_gather by lia. rewrite <- (labelled_split s nb) by auto.
    rewrite Et. rewrite nth_map_lt with (da := 0%nat) by lia. rewrite Kb. auto. }
  destruct j as [|j].
  - rewrite Nat.add_0_r. apply E0; auto.
  - cbn [permute_scan]. fold p. unfold nth_s. cbn [nth].
    assert (Ec : s_z (reorder s p) = map (fun i => g i j0) sg).
    { apply (list_eq_nth (RtoC 0)). { unfold reorder; cbn; rewrite gather_length, map_length; lia. }
      intros a Ha. unfold reorder in Ha; cbn in Ha. rewrite gather_length in Ha.
      specialize (E0 a ltac:(lia)). rewrite (labelled_split _ nb) in E0 by (unfold reorder; cbn; rewrite ?gather_length; auto; lia).
      rewrite nth_map_lt with (da := 0%nat) by lia. unfold g. rewrite <- E0. reflexivity. }
    rewrite Ec. simpl in Hj. replace (j0 + S j)%nat with (S j0 + j)%nat by lia.
    apply (IH (S j0) (fun i => g i j0) sg); auto; try lia.
    + intros b Hb. specialize (HG (S b) ltac:(simpl; lia)). replace (S j0 + b)%nat with (j0 + S b)%nat by lia. exact HG.
    + intros a b Ha Hb Hab. specialize (Hm 0%nat a b ltac:(simpl; lia) Ha Hb Hab). rewrite Nat.add_0_r, Nat.add_1_r in Hm. auto.
    + intros a b d Ha Hb Hd Hbd. specialize (Hm (S a) b d ltac:(simpl; lia) Hb Hd Hbd).
      replace (S j0 + S a)%nat with (j0 + S (S a))%nat by lia. replace (S j0 + a)%nat with (j0 + S a)%nat by lia. auto.
Qed.

Theorem follow_branches l : l <> [] ->
  List.Forall (fun s => length (s_z s) = nb /\ length (s_mask s) = nb /\ length (s_par s) = nb) l ->
  (forall j, (j < length l)%nat -> Permutation (labelled (nth_s l j)) (map (fun i => G i j) (seq 0 nb))) ->
  (forall i k, (i < nb)%nat -> (k < nb)%nat -> k <> i -> g k 0 <> g i 0) ->
  (forall j i k, (S j < length l)%nat -> (i < nb)%nat -> (k < nb)%nat -> k <> i ->
     Cmod (g i (S j) - g i j)%C < Cmod (g k (S j) - g i j)%C) ->
  exists sg, Permutation sg (seq 0 nb) /\
  forall j i, (j < length l)%nat -> (i < nb)%nat ->
    nth i (labelled (nth_s (permute_images l) j)) (RtoC 0, (false, 0)) = G (nth i sg 0%nat) j.
Proof.
  intros Hne HF HG H0 Hm. destruct l as [|s t]; [congruence|]. unfold permute_images. cbn [hd].
  pose proof (HG 0%nat ltac:(simpl; lia)) as P0. unfold nth_s in P0. cbn [nth] in P0.
  apply Permutation_map_inv in P0 as (tau & Et & Pt). apply Permutation_sym in Pt.
  assert (HFs : length (s_z s) = nb /\ length (s_mask s) = nb /\ length (s_par s) = nb) by (inversion HF; auto).
  destruct HFs as (Lz & Lm & Lr).
  assert (Ez : s_z s = map (fun i => g i 0%nat) tau).
  { rewrite <- (map_map (fun i => G i 0%nat) fst), <- Et. unfold labelled. rewrite map_fst_combine; auto. rewrite combine_length; lia. }
  exists tau. split; auto. intros j i Hj Hi. rewrite Ez.
  apply (follow_scan (s :: t) 0 (fun i => g i 0%nat) tau); auto.
  intros a b Ha Hb Hab. replace (g a 0%nat - g a 0%nat)%C with (RtoC 0) by ring. rewrite Cmod_0. apply Cmod_gt_0.
  intros E. apply (H0 a b Ha Hb Hab). replace (g b 0%nat) with (g b 0%nat - g a 0%nat + g a 0%nat)%C by ring. rewrite E. ring.
Qed.
End Follow.
