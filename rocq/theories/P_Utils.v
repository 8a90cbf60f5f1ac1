(** Proofs about the model of utils.py *)
From Coq Require Import Reals Lra Bool List Arith Lia Permutation Sorted.
From Coquelicot Require Import Complex.
From Verif Require Import Base_R Base_List M_Utils S_Utils.
Import ListNotations.
Local Open Scope R_scope.

Lemma nonzero_true x : nonzero x = true <-> x <> 0.
Proof. unfold nonzero. rewrite negb_true_iff. apply Reqb_false. Qed.
Lemma nonzero_false x : nonzero x = false <-> x = 0.
Proof. unfold nonzero. rewrite negb_false_iff. apply Reqb_true. Qed.
Lemma iszero_true x : iszero x = true <-> x = 0.
Proof. apply Reqb_true. Qed.
Lemma iszero_false x : iszero x = false <-> x <> 0.
Proof. apply Reqb_false. Qed.

Lemma argmax_map_first (p : R -> bool) (P : R -> Prop) x :
  (forall v, p v = true <-> P v) -> (exists v, In v x /\ P v) ->
  is_first P x (argmax_bool (map p x)).
Proof.
  intros Hp [v [Hin HP]].
  destruct (In_nth x v 0 Hin) as (j & Hj & Hv).
  destruct (argmax_bool_spec (map p x)) as (H1 & H2 & H3).
  - exists j. rewrite nth_map_lt with (da := 0); auto. rewrite Hv. now apply Hp.
  - rewrite map_length in H1. rewrite nth_map_lt with (da := 0) in H2 by auto.
    split; [auto|split].
    + now apply Hp.
    + intros k Hk HPk. specialize (H3 k Hk). rewrite nth_map_lt with (da := 0) in H3 by lia.
      apply Hp in HPk. congruence.
Qed.

Lemma argmax_map_none (p : R -> bool) (P : R -> Prop) x :
  (forall v, p v = true <-> P v) -> (forall v, In v x -> ~ P v) -> argmax_bool (map p x) = 0%nat.
Proof.
  intros Hp Hn. apply argmax_bool_none. intros j.
  destruct (lt_dec j (length x)) as [Hj|Hj].
  - rewrite nth_map_lt with (da := 0) by auto. destruct (p (nth j x 0)) eqn:E; auto.
    apply Hp in E. exfalso; eapply Hn; [|exact E]. now apply nth_In.
  - apply nth_overflow. rewrite map_length; lia.
Qed.

Lemma first_nonzero_spec x :
  ((exists v, In v x /\ v <> 0) -> is_first (fun v => v <> 0) x (first_nonzero x)) /\
  ((forall v, In v x -> v = 0) -> first_nonzero x = 0%nat).
Proof.
  split; intros H.
  - apply argmax_map_first; auto. apply nonzero_true.
  - apply (argmax_map_none _ (fun v => v <> 0)). apply nonzero_true. intros v Hv Hc; apply Hc; auto.
Qed.

Lemma first_zero_spec x :
  (In 0 x -> is_first (fun v => v = 0) x (first_zero x)) /\
  (~ In 0 x -> first_zero x = 0%nat).
Proof.
  split; intros H.
  - apply argmax_map_first. apply iszero_true. exists 0; auto.
  - apply (argmax_map_none _ (fun v => v = 0)). apply iszero_true. intros v Hv ->; auto.
Qed.

Lemma last_nonzero_spec x :
  ((exists v, In v x /\ v <> 0) -> is_last (fun v => v <> 0) x (last_nonzero x)) /\
  ((forall v, In v x -> v = 0) -> last_nonzero x = 0%nat).
Proof.
  unfold last_nonzero. split; intros H.
  - assert (E : existsb nonzero x = true).
    { destruct H as [v [Hv Hn]]. apply existsb_exists. exists v. split; auto. now apply nonzero_true. }
    rewrite E.
    assert (Hr : is_first (fun v => v <> 0) (rev x) (argmax_bool (map nonzero (rev x)))).
    { apply argmax_map_first. apply nonzero_true. destruct H as [v [Hv Hn]]. exists v. split; auto. now apply -> in_rev. }
    set (k := argmax_bool (map nonzero (rev x))) in *. destruct Hr as (H1 & H2 & H3).
    rewrite rev_length in H1. split; [lia|split].
    + replace (length x - 1 - k)%nat with (length x - S k)%nat by lia. rewrite <- rev_nth; auto.
    + intros j Hj. specialize (H3 (length x - S j)%nat ltac:(lia)).
      rewrite rev_nth in H3 by lia. replace (length x - S (length x - S j))%nat with j in H3 by lia. auto.
  - assert (E : existsb nonzero x = false).
    { apply not_true_is_false. intros E. apply existsb_exists in E. destruct E as (v & Hv & Hn).
      apply nonzero_true in Hn. auto. }
    now rewrite E.
Qed.

(** min / max *)
Lemma fold_Rmin_spec t a : (In (fold_left Rmin t a) (a :: t)) /\ (forall v, In v (a :: t) -> fold_left Rmin t a <= v).
Proof.
  revert a; induction t as [|b t IH]; intros a; simpl.
  - split; auto. intros v [->|[]]; lra.
  - destruct (IH (Rmin a b)) as [H1 H2]. split.
    + destruct H1 as [H1|H1]; auto. rewrite <- H1. unfold Rmin. destruct (Rle_dec a b); auto.
    + intros v Hv. assert (Hm : fold_left Rmin t (Rmin a b) <= Rmin a b) by (apply H2; left; auto).
      destruct Hv as [<-|[<-|Hv]].
      * pose proof (Rmin_l a b); lra.
      * pose proof (Rmin_r a b); lra.
      * apply H2; right; auto.
Qed.
Lemma fold_Rmax_spec t a : (In (fold_left Rmax t a) (a :: t)) /\ (forall v, In v (a :: t) -> v <= fold_left Rmax t a).
Proof.
  revert a; induction t as [|b t IH]; intros a; simpl.
  - split; auto. intros v [->|[]]; lra.
  - destruct (IH (Rmax a b)) as [H1 H2]. split.
    + destruct H1 as [H1|H1]; auto. rewrite <- H1. unfold Rmax. destruct (Rle_dec a b); auto.
    + intros v Hv. assert (Hm : Rmax a b <= fold_left Rmax t (Rmax a b)) by (apply H2; left; auto).
      destruct Hv as [<-|[<-|Hv]].
      * pose proof (Rmax_l a b); lra.
      * pose proof (Rmax_r a b); lra.
      * apply H2; right; auto.
Qed.
Lemma jmin_spec x : x <> [] -> In (jmin x) x /\ forall v, In v x -> jmin x <= v.
Proof. destruct x as [|a t]; [easy|]. intros _. apply fold_Rmin_spec. Qed.
Lemma jmax_spec x : x <> [] -> In (jmax x) x /\ forall v, In v x -> v <= jmax x.
Proof. destruct x as [|a t]; [easy|]. intros _. apply fold_Rmax_spec. Qed.

Lemma jsort_perm x : Permutation (jsort x) x.
Proof. apply ssort_perm. Qed.
Lemma jsort_in x v : In v (jsort x) <-> In v x.
Proof. split; apply Permutation_in; [|symmetry]; apply jsort_perm. Qed.
Lemma jsort_nil x : x <> [] -> jsort x <> [].
Proof. intros H E. pose proof (Permutation_length (jsort_perm x)) as L. rewrite E in L. destruct x; simpl in L; [auto|discriminate]. Qed.
Lemma jsort_sorted x i j : (i < j)%nat -> (j < length x)%nat -> nth i (jsort x) 0 <= nth j (jsort x) 0.
Proof.
  intros Hij Hj. apply Rleb_true.
  apply (StronglySorted_nth 0 (fun a b => Rleb a b = true)); auto.
  - apply ssort_sorted, Rleb_total_preorder.
  - unfold jsort. now rewrite ssort_length.
Qed.

Lemma min_zero_avoiding_spec x : x <> [] ->
  ((exists v, In v x /\ v <> 0) -> is_min_nonzero x (min_zero_avoiding x)) /\
  ((forall v, In v x -> v = 0) -> min_zero_avoiding x = 0).
Proof.
  intros Hne. pose proof (jsort_nil x Hne) as Hs. destruct (jmin_spec _ Hs) as [Hin Hle].
  unfold min_zero_avoiding. split; intros H.
  - destruct (Reqb_spec (jmin (jsort x)) 0) as [E|E].
    + assert (Hf : is_first (fun v => v <> 0) (jsort x) (argmax_bool (map nonzero (jsort x)))).
      { apply argmax_map_first. apply nonzero_true. destruct H as [v [Hv Hn]]. exists v. split; auto. now apply jsort_in. }
      set (k := argmax_bool _) in *. destruct Hf as (H1 & H2 & H3).
      split; [apply jsort_in, nth_In; auto|]. split; auto.
      intros v Hv Hv0. apply jsort_in in Hv. destruct (In_nth _ _ 0 Hv) as (j & Hj & <-).
      destruct (lt_eq_lt_dec j k) as [[L|L]|L].
      * exfalso. eapply H3; eauto.
      * subst; lra.
      * apply jsort_sorted; auto. unfold jsort in Hj; now rewrite ssort_length in Hj.
    + split; [now apply jsort_in|]. split; auto. intros v Hv _. apply Hle. now apply jsort_in.
  - assert (E : jmin (jsort x) = 0) by (apply H, jsort_in; auto).
    rewrite E, Reqb_refl. set (k := argmax_bool _).
    destruct (lt_dec k (length (jsort x))).
    + apply H, jsort_in, nth_In; auto.
    + apply nth_overflow; lia.
Qed.

Lemma max_zero_avoiding_spec x : x <> [] ->
  ((exists v, In v x /\ v <> 0) -> is_max_nonzero x (max_zero_avoiding x)) /\
  ((forall v, In v x -> v = 0) -> max_zero_avoiding x = 0).
Proof.
  intros Hne. pose proof (jsort_nil x Hne) as Hs. destruct (jmax_spec _ Hs) as [Hin Hle].
  assert (Ha : map Rabs (jsort x) <> []) by (destruct (jsort x); [easy|discriminate]).
  destruct (min_zero_avoiding_spec _ Ha) as [M1 M2].
  unfold max_zero_avoiding. split; intros H.
  - destruct (Reqb_spec (jmax (jsort x)) 0) as [E|E].
    + destruct M1 as (A1 & A2 & A3).
      { destruct H as [v [Hv Hn]]. exists (Rabs v). split. apply in_map, jsort_in; auto. now apply Rabs_no_R0. }
      set (m := min_zero_avoiding _) in *.
      apply in_map_iff in A1. destruct A1 as (v & Hv & Hvin).
      assert (v <= 0) by (rewrite <- E; auto).
      rewrite Rabs_left1 in Hv by lra. assert (Em : - m = v) by lra.
      split; [rewrite Em; now apply jsort_in|]. split; [lra|].
      intros u Hu Hu0. apply jsort_in in Hu. assert (u <= 0) by (rewrite <- E; auto).
      specialize (A3 (Rabs u) (in_map Rabs _ _ Hu) (Rabs_no_R0 _ Hu0)). rewrite Rabs_left1 in A3 by lra. lra.
    + split; [now apply jsort_in|]. split; auto. intros v Hv _. apply Hle. now apply jsort_in.
  - assert (E : jmax (jsort x) = 0) by (apply H, jsort_in; auto).
    rewrite E, Reqb_refl. rewrite M2; [lra|].
    intros v Hv. apply in_map_iff in Hv. destruct Hv as (u & <- & Hu). rewrite jsort_in in Hu. rewrite (H u Hu). apply Rabs_R0.
Qed.

(** mean *)
Lemma nz_stats_somes x s n : nz_stats x s n ->
  s = sumR (somes (map (fun v => if iszero v then None else Some v) x)) /\
  n = length (somes (map (fun v => if iszero v then None else Some v) x)).
Proof.
  induction 1 as [|t s n H [-> ->]|a t s n Ha H [-> ->]]; simpl; auto.
  - rewrite (proj2 (iszero_true 0) eq_refl). auto.
  - rewrite (proj2 (iszero_false a) Ha). simpl. auto.
Qed.
Lemma nz_stats_ex x : exists s n, nz_stats x s n.
Proof.
  induction x as [|a t (s & n & H)]; [exists 0, 0%nat; constructor|].
  destruct (Req_dec a 0) as [->|Ha]; eexists; eexists; [apply nz_zero|apply nz_cons]; eauto.
Qed.
Lemma nz_stats_pos x s n : nz_stats x s n -> (n = 0%nat <-> forall v, In v x -> v = 0).
Proof.
  induction 1 as [|t s n H IH|a t s n Ha H IH]; simpl.
  - split; auto. intros _ v [].
  - rewrite IH. split; intros HH v; auto. intros [<-|Hv]; auto.
  - split; [discriminate|]. intros HH. exfalso; apply Ha; apply HH; auto.
Qed.

Lemma mean_zero_avoiding_spec x s n : nz_stats x s n ->
  mean_zero_avoiding x = Some (if (n =? 0)%nat then 0 else s / INR n).
Proof.
  intros H. unfold mean_zero_avoiding. pose proof (nz_stats_pos _ _ _ H) as Hp.
  destruct (nz_stats_somes _ _ _ H) as [Hs Hn].
  destruct (forallb iszero x) eqn:E.
  - assert (n = 0%nat). { apply Hp. intros v Hv. rewrite forallb_forall in E. now apply iszero_true, E. }
    subst n. rewrite H0. reflexivity.
  - destruct (Nat.eqb_spec n 0) as [E0|E0].
    + exfalso. apply not_true_iff_false in E. apply E. apply forallb_forall. intros v Hv. apply iszero_true. apply Hp; auto.
    + unfold nanmean. rewrite Hs, Hn. destruct (somes _) eqn:E1; [simpl in Hn; lia|]. reflexivity.
Qed.

(** sparse_argsort *)
Lemma nan_le_preorder : total_preorder nan_le.
Proof.
  split.
  - intros [a|] [b|]; simpl; auto. apply Rleb_total_preorder.
  - intros [a|] [b|] [c|]; simpl; auto; try discriminate. apply Rleb_total_preorder.
Qed.

Lemma sparse_argsort_perm a : Permutation (sparse_argsort a) (seq 0 (length a)).
Proof. unfold sparse_argsort. rewrite argsort_perm, map_length. auto. Qed.

Lemma sparse_argsort_sorted a i j : (i < j)%nat -> (j < length a)%nat ->
  sparse_order a (nth i (sparse_argsort a) 0%nat) (nth j (sparse_argsort a) 0%nat).
Proof.
  intros Hij Hj. unfold sparse_argsort.
  set (k := map _ a). assert (Lk : length k = length a) by apply map_length.
  pose proof (argsort_sorted None nan_le k nan_le_preorder) as Hs.
  apply (StronglySorted_nth 0%nat) with (i := i) (j := j) in Hs; auto; [|rewrite argsort_length; lia].
  set (p := nth i _ _) in *. set (q := nth j _ _) in *.
  assert (Hp : (p < length a)%nat). { rewrite <- Lk. apply (argsort_in nan_le). apply nth_In. rewrite argsort_length; lia. }
  assert (Hq : (q < length a)%nat). { rewrite <- Lk. apply (argsort_in nan_le). apply nth_In. rewrite argsort_length; lia. }
  assert (Hne : p <> q).
  { intros E. pose proof (argsort_nodup nan_le k) as Hnd. rewrite NoDup_nth with (d := 0%nat) in Hnd.
    specialize (Hnd i j). rewrite argsort_length in Hnd. specialize (Hnd ltac:(lia) ltac:(lia) E). lia. }
  destruct Hs as [H1 H2]. unfold k in H1, H2.
  rewrite (nth_map_lt _ _ p 0 None), (nth_map_lt _ _ q 0 None) in H1, H2 by auto.
  unfold sparse_order. unfold nonzero in *.
  destruct (Reqb_spec (nth p a 0) 0) as [Ep|Ep]; destruct (Reqb_spec (nth q a 0) 0) as [Eq|Eq]; simpl in *.
  - right; right. repeat split; auto.
  - discriminate.
  - left; auto.
  - right; left. repeat split; auto. rewrite Rleb_true in *.
    destruct (Rlt_dec (nth p a 0) (nth q a 0)); auto. right. split; [lra|]. apply H2; lra.
Qed.

(** trapezoid *)
Lemma trapezoid_nil_r y : trapezoid y [] = 0.
Proof. unfold trapezoid; simpl; lra. Qed.
Lemma trapezoid_one y x0 : trapezoid y [x0] = 0.
Proof. unfold trapezoid; simpl; lra. Qed.
Lemma trapezoid_cons x0 x1 xs y0 y1 ys :
  trapezoid (y0 :: y1 :: ys) (x0 :: x1 :: xs) = 0.5 * ((x1 - x0) * (y1 + y0)) + trapezoid (y1 :: ys) (x1 :: xs).
Proof.
  unfold trapezoid. replace (length (x0 :: x1 :: xs) - 1)%nat with (S (length (x1 :: xs) - 1)) by (simpl; lia).
  set (n := (length (x1 :: xs) - 1)%nat).
  change (seq 0 (S n)) with (0%nat :: seq 1 n).
  rewrite map_cons, <- seq_shift, map_map.
  match goal with |- _ * sumR (?a :: ?l) = _ => change (sumR (a :: l)) with (a + sumR l) end.
  rewrite Rmult_plus_distr_l. reflexivity.
Qed.
Lemma trapezoid_spec y x : length y = length x -> trapezoid y x = trap_spec (combine x y).
Proof.
  revert y; induction x as [|x0 xs IH]; intros [|y0 ys] L; simpl in L; try lia.
  - apply trapezoid_nil_r.
  - destruct xs as [|x1 xs], ys as [|y1 ys]; simpl in L; try lia.
    + rewrite trapezoid_one. reflexivity.
    + rewrite trapezoid_cons, IH by (simpl; lia). change (combine (x0 :: x1 :: xs) (y0 :: y1 :: ys)) with ((x0,y0) :: combine (x1 :: xs) (y1 :: ys)).
      simpl. lra.
Qed.

Lemma trap_spec_split l1 p q l2 :
  trap_spec (l1 ++ p :: q :: l2) = trap_spec (l1 ++ [p]) + (fst q - fst p) * ((snd p + snd q)/2) + trap_spec (q :: l2).
Proof.
  destruct p as [xp yp], q as [xq yq].
  induction l1 as [|[a b] [|[c d] l1] IH].
  - simpl. destruct l2 as [|[]]; simpl; lra.
  - simpl. destruct l2 as [|[]]; simpl; lra.
  - change (((a,b) :: (c,d) :: l1) ++ (xp, yp) :: (xq, yq) :: l2) with ((a,b) :: (c,d) :: (l1 ++ (xp, yp) :: (xq, yq) :: l2)).
    change (((a,b) :: (c,d) :: l1) ++ [(xp, yp)]) with ((a,b) :: (c,d) :: (l1 ++ [(xp, yp)])).
    assert (U : forall t, trap_spec ((a,b)::(c,d)::t) = (c - a) * ((b+d)/2) + trap_spec ((c,d)::t)) by reflexivity.
    rewrite !U. change ((c,d) :: l1 ++ (xp, yp) :: (xq, yq) :: l2) with (((c,d) :: l1) ++ (xp, yp) :: (xq, yq) :: l2).
    rewrite IH. simpl app. lra.
Qed.

Lemma skipn_cons_nth {A} (d : A) l n : (n < length l)%nat -> skipn n l = nth n l d :: skipn (S n) l.
Proof. revert l; induction n; intros [|a l] H; simpl in *; try lia; auto. rewrite IHn by lia. auto. Qed.
Lemma firstn_S_nth {A} (d : A) l n : (n < length l)%nat -> firstn (S n) l = firstn n l ++ [nth n l d].
Proof. revert l; induction n; intros [|a l] H; simpl in *; try lia; auto. f_equal. apply IHn. lia. Qed.

(** exact value for every tail *)
Lemma trapz_zero_avoiding_exact y x t : length y = length x -> (S t < length x)%nat ->
  trapz_zero_avoiding y x t =
    trap_spec (firstn (S t) (combine x y)) + trap_spec (skipn (S t) (combine x y)).
Proof.
  intros L Ht. unfold trapz_zero_avoiding.
  destruct (Nat.eqb_spec t (length x - 1)); [lia|].
  rewrite trapezoid_spec by auto. set (l := combine x y).
  assert (Ll : length l = length x) by (unfold l; rewrite combine_length; lia).
  assert (N : forall i, (i < length x)%nat -> nth i l (0,0) = (nth i x 0, nth i y 0)) by (intros; apply combine_nth; auto).
  rewrite <- (firstn_skipn t l) at 1.
  rewrite (skipn_cons_nth (0,0) l t) by lia. rewrite (skipn_cons_nth (0,0) l (S t)) by lia.
  rewrite trap_spec_split. rewrite <- firstn_S_nth by lia.
  rewrite !N by lia. simpl fst; simpl snd. unfold jget.
  rewrite !Nat.min_l by lia.
  replace (t + 1)%nat with (S t) by lia. lra.
Qed.

Lemma trap_spec_zero l : (forall p, In p l -> snd p = 0) -> trap_spec l = 0.
Proof.
  induction l as [|[a b] [|[c d] l] IH]; intros H; auto.
  assert (U : trap_spec ((a,b)::(c,d)::l) = (c - a) * ((b+d)/2) + trap_spec ((c,d)::l)) by reflexivity.
  rewrite U, IH; [|intros p Hp; apply H; right; auto].
  pose proof (H (a,b) ltac:(simpl;auto)) as Hb. pose proof (H (c,d) ltac:(simpl;auto)) as Hd. simpl in Hb, Hd. subst. lra.
Qed.

Lemma trapz_zero_avoiding_spec y x t : length y = length x -> (t < length x)%nat ->
  (forall j, (t < j < length x)%nat -> nth j y 0 = 0) ->
  trapz_zero_avoiding y x t = trap_spec (combine (firstn (S t) x) (firstn (S t) y)).
Proof.
  intros L Ht Hz. rewrite <- combine_firstn.
  destruct (Nat.eq_dec (S t) (length x)) as [E|E].
  - unfold trapz_zero_avoiding. destruct (Nat.eqb_spec t (length x - 1)); [|lia].
    rewrite trapezoid_spec by auto. rewrite E, firstn_all2; auto. rewrite combine_length. lia.
  - rewrite trapz_zero_avoiding_exact by (auto; lia).
    rewrite (trap_spec_zero (skipn _ _)); [lra|].
    intros p Hp. destruct (In_nth _ _ (0,0) Hp) as (k & Hk & <-).
    rewrite skipn_length, combine_length in Hk.
    rewrite nth_skipn_add. rewrite combine_nth by auto. simpl. apply Hz. lia.
Qed.

(** refutation of the documented equivalence when the integrand is not zero past the tail *)
Lemma trapz_doc_false : exists y x t, length y = length x /\ (t < length x)%nat /\
  trapz_zero_avoiding y x t <> trap_spec (combine (firstn (S t) x) (firstn (S t) y)).
Proof.
  exists [0;0;1;1]%R, [0;1;2;3]%R, 1%nat. repeat split; simpl; auto; try lia.
  unfold trapz_zero_avoiding, trapezoid, jget; simpl. lra.
Qed.

(** match_points *)
Lemma mp_row_in b z k : In k (mp_row b z) <-> (k < length b)%nat.
Proof. unfold mp_row. rewrite argsort_in, map_length. tauto. Qed.

Lemma existsb_eqb_in k l : existsb (Nat.eqb k) l = true <-> In k l.
Proof.
  rewrite existsb_exists. split.
  - intros (y & Hy & E). apply Nat.eqb_eq in E. now subst.
  - intros H. exists k. split; auto. apply Nat.eqb_refl.
Qed.

Lemma mp_pick_spec b used z : (exists j, (j < length b)%nat /\ ~ In j used) ->
  nearest_unused b used z
    (nth (first_nonzero_b (map (fun k => negb (existsb (Nat.eqb k) used)) (mp_row b z))) (mp_row b z) 0%nat).
Proof.
  intros (j & Hj & Hju).
  set (row := mp_row b z). set (mask := map _ row).
  assert (Lr : length row = length b) by (unfold row, mp_row; now rewrite argsort_length, map_length).
  assert (Hm : forall i, (i < length row)%nat -> nth i mask false = true <-> ~ In (nth i row 0%nat) used).
  { intros i Hi. unfold mask. rewrite nth_map_lt with (da := 0%nat) by auto.
    rewrite negb_true_iff. rewrite <- not_true_iff_false, existsb_eqb_in. tauto. }
  destruct (In_nth row j 0%nat) as (i0 & Hi0 & Ei0). { apply mp_row_in; auto. }
  unfold first_nonzero_b. destruct (argmax_bool_spec mask) as (A1 & A2 & A3).
  { exists i0. apply Hm; auto. now rewrite Ei0. }
  set (k := argmax_bool mask) in *.
  assert (Hk : (k < length row)%nat) by (unfold mask in A1; now rewrite map_length in A1).
  split; [|split].
  - apply mp_row_in with (z := z). apply nth_In; auto.
  - apply Hm; auto.
  - intros i Hi Hiu Hne.
    destruct (In_nth row i 0%nat) as (m & Hmm & Em). { apply mp_row_in; auto. }
    assert (Hkm : (k < m)%nat).
    { destruct (lt_eq_lt_dec k m) as [[|E]|Hlt]; auto.
      - subst m. congruence.
      - specialize (A3 m Hlt). rewrite <- Em in Hiu. apply Hm in Hiu; auto. congruence. }
    set (key := map (fun bj => Cmod (bj - z)%C) b) in *.
    assert (Hs : StronglySorted (idxlt 0 Rleb key) row) by (apply argsort_sorted, Rleb_total_preorder).
    apply (StronglySorted_nth 0%nat) with (i := k) (j := m) in Hs; auto.
    rewrite Em in Hs. set (kk := nth k row 0%nat) in *.
    assert (Hkk : (kk < length b)%nat) by (apply mp_row_in with (z := z), nth_In; auto).
    destruct Hs as [H1 H2]. unfold key in H1, H2.
    rewrite (nth_map_lt _ _ kk (RtoC 0) 0), (nth_map_lt _ _ i (RtoC 0) 0) in H1, H2 by auto.
    rewrite Rleb_true in *.
    destruct (Rlt_dec (Cmod (nth kk b (RtoC 0) - z)%C) (Cmod (nth i b (RtoC 0) - z)%C)); auto.
    right. split; [lra|]. apply H2; lra.
Qed.

Lemma fold_mp_length b a acc : length (fold_left (mp_step b) a acc) = (length acc + length a)%nat.
Proof.
  revert acc; induction a as [|z a IH]; intros acc; simpl; [lia|].
  rewrite IH. unfold mp_step. rewrite app_length; simpl; lia.
Qed.
Lemma fold_mp_prefix b a acc : exists t, fold_left (mp_step b) a acc = acc ++ t.
Proof.
  revert acc; induction a as [|z a IH]; intros acc; simpl; [exists []; now rewrite app_nil_r|].
  destruct (IH (mp_step b acc z)) as [t ->]. unfold mp_step. rewrite <- app_assoc. eexists; reflexivity.
Qed.

Lemma exists_unused n (used : list nat) : (length used < n)%nat -> exists j, (j < n)%nat /\ ~ In j used.
Proof.
  intros H. destruct (existsb (fun j => negb (existsb (Nat.eqb j) used)) (seq 0 n)) eqn:E.
  - apply existsb_exists in E. destruct E as (j & Hj & Hn). apply in_seq in Hj. exists j. split; [lia|].
    rewrite negb_true_iff, <- not_true_iff_false, existsb_eqb_in in Hn. auto.
  - exfalso. assert (incl (seq 0 n) used).
    { intros j Hj. destruct (existsb (Nat.eqb j) used) eqn:E1; [now apply existsb_eqb_in|].
      apply not_true_iff_false in E. exfalso; apply E. apply existsb_exists. exists j. rewrite E1. auto. }
    apply NoDup_incl_length in H0; [|apply seq_NoDup]. rewrite seq_length in H0. lia.
Qed.

Lemma fold_mp_spec b a acc : (length acc + length a <= length b)%nat ->
  let p := fold_left (mp_step b) a acc in
  forall i, (i < length a)%nat ->
    nearest_unused b (firstn (length acc + i) p) (nth i a (RtoC 0)) (nth (length acc + i) p 0%nat).
Proof.
  revert acc; induction a as [|z a IH]; intros acc H p i Hi; simpl in *; [lia|].
  destruct i.
  - destruct (fold_mp_prefix b a (mp_step b acc z)) as [t Ht]. unfold p. rewrite Ht. unfold mp_step.
    rewrite <- app_assoc, Nat.add_0_r, firstn_app, Nat.sub_diag, firstn_all. simpl. rewrite app_nil_r.
    rewrite app_nth2, Nat.sub_diag by lia. simpl. apply mp_pick_spec. apply exists_unused. lia.
  - assert (L : length (mp_step b acc z) = S (length acc)) by (unfold mp_step; rewrite app_length; simpl; lia).
    specialize (IH (mp_step b acc z) ltac:(lia) i ltac:(lia)).
    replace (length acc + S i)%nat with (length (mp_step b acc z) + i)%nat by lia. exact IH.
Qed.

Lemma match_points_greedy a b : (length a <= length b)%nat -> greedy_matching a b (match_points a b).
Proof.
  intros H. split.
  - unfold match_points. now rewrite fold_mp_length.
  - intros i Hi. exact (fold_mp_spec b a [] ltac:(simpl; lia) i Hi).
Qed.

Lemma greedy_nodup a b p : greedy_matching a b p -> NoDup p /\ (forall k, In k p -> (k < length b)%nat).
Proof.
  intros [L H]. split.
  - rewrite NoDup_nth with (d := 0%nat). intros i j Hi Hj E.
    assert (W : forall i j, (i < j)%nat -> (j < length p)%nat -> nth i p 0%nat <> nth j p 0%nat).
    { intros i' j' Hij Hj' E'. destruct (H j') as (_ & Hn & _); [lia|]. apply Hn. rewrite <- E'.
      assert (Hl : (i' < length (firstn j' p))%nat) by (rewrite firstn_length; lia).
      rewrite <- (nth_firstn_lt 0%nat p j' i') by auto. apply nth_In; auto. }
    destruct (lt_eq_lt_dec i j) as [[Hlt|]|Hlt]; auto.
    + exfalso; exact (W i j Hlt Hj E).
    + exfalso; exact (W j i Hlt Hi (eq_sym E)).
  - intros k Hk. destruct (In_nth p k 0%nat Hk) as (i & Hi & <-). apply H; lia.
Qed.

Lemma greedy_unique a b p q : greedy_matching a b p -> greedy_matching a b q -> p = q.
Proof.
  intros [Lp Hp] [Lq Hq].
  assert (W : forall n, (n <= length a)%nat -> firstn n p = firstn n q).
  { induction n; intros Hn; auto.
    rewrite !(firstn_S_nth 0%nat) by lia. specialize (IHn ltac:(lia)). f_equal; auto. f_equal.
    specialize (Hp n ltac:(lia)). specialize (Hq n ltac:(lia)). rewrite IHn in Hp.
    destruct Hp as (P1 & P2 & P3), Hq as (Q1 & Q2 & Q3).
    destruct (Nat.eq_dec (nth n p 0%nat) (nth n q 0%nat)) as [|Hne]; auto.
    specialize (P3 _ Q1 Q2 ltac:(auto)). specialize (Q3 _ P1 P2 ltac:(auto)).
    destruct P3 as [|[? ?]], Q3 as [|[? ?]]; try lra; lia. }
  specialize (W (length a) ltac:(lia)). rewrite <- Lp in W at 1. rewrite <- Lq in W. now rewrite !firstn_all in W.
Qed.

Lemma match_points_perm a b : length a = length b -> Permutation (match_points a b) (seq 0 (length b)).
Proof.
  intros L. pose proof (match_points_greedy a b ltac:(lia)) as G. destruct (greedy_nodup _ _ _ G) as [Hn Hr].
  apply NoDup_Permutation_bis; auto.
  - rewrite seq_length. destruct G as [-> _]. lia.
  - intros k Hk. apply in_seq. specialize (Hr k Hk). lia.
Qed.

Lemma gather_perm {A} (d : A) l p : Permutation p (seq 0 (length l)) -> Permutation (gather d l p) l.
Proof.
  intros H. unfold gather. rewrite (Permutation_map _ H).
  assert (E : map (fun i => nth i l d) (seq 0 (length l)) = l).
  { apply (list_eq_nth d). now rewrite map_length, seq_length.
    intros i Hi. rewrite map_length, seq_length in Hi. rewrite nth_map_lt with (da := 0%nat) by now rewrite seq_length.
    now rewrite seq_nth. }
  now rewrite E.
Qed.

(** once more points than candidates are matched, indices are reused *)
Lemma match_points_reuse : exists a b, ~ NoDup (match_points a b).
Proof.
  exists [RtoC 0; RtoC 1], [RtoC 0].
  assert (E : match_points [RtoC 0; RtoC 1] [RtoC 0] = [0;0]%nat) by reflexivity.
  rewrite E. intros H. inversion H as [|? ? Hn _]; subst. apply Hn; simpl; auto.
Qed.
