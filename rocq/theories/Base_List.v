(** Arrays as lists: argmax, stable argsort, gather/scatter, sums. Library code, no microjax content. *)
From Coq Require Import Reals Lra Bool List ZArith Lia Permutation Sorted.
From Verif Require Import Base_R.
Import ListNotations.

(** ** numpy-like primitives *)

(** [jnp.argmax] of a boolean array: index of the first [true], 0 when there is none. *)
Fixpoint find_true (l : list bool) : option nat :=
  match l with
  | [] => None
  | true :: _ => Some 0
  | false :: t => option_map S (find_true t)
  end.
Definition argmax_bool (l : list bool) : nat :=
  match find_true l with Some i => i | None => 0 end.

(** Stable insertion sort on an arbitrary boolean order. *)
Fixpoint sinsert {A} (le : A -> A -> bool) (x : A) (l : list A) : list A :=
  match l with
  | [] => [x]
  | y :: t => if le x y then x :: y :: t else y :: sinsert le x t
  end.
Fixpoint ssort {A} (le : A -> A -> bool) (l : list A) : list A :=
  match l with [] => [] | x :: t => sinsert le x (ssort le t) end.

(** [jnp.argsort] (stable). *)
Definition argsort {K} (le : K -> K -> bool) (l : list K) : list nat :=
  map snd (ssort (fun p q => le (fst p) (fst q)) (combine l (seq 0 (length l)))).

Fixpoint sumR (l : list R) : R :=
  match l with [] => 0%R | x :: t => (x + sumR t)%R end.

(** [x.at[idx].set(v)] with one index *)
Fixpoint upd {A} (l : list A) (i : nat) (v : A) : list A :=
  match l, i with
  | [], _ => []
  | _ :: t, 0 => v :: t
  | x :: t, S j => x :: upd t j v
  end.
(** [x.at[idxs].set(vs)] *)
Fixpoint scatter {A} (l : list A) (idx : list nat) (vs : list A) : list A :=
  match idx, vs with
  | i :: it, v :: vt => scatter (upd l i v) it vt
  | _, _ => l
  end.
(** [x[idx]] (gather) *)
Definition gather {A} (d : A) (l : list A) (idx : list nat) : list A :=
  map (fun i => nth i l d) idx.

(** ** Facts *)

Lemma find_true_spec l :
  match find_true l with
  | Some i => i < length l /\ nth i l false = true /\ (forall j, j < i -> nth j l false = false)
  | None => forall j, nth j l false = false
  end.
Proof.
  induction l as [|[|] t IH]; simpl.
  - intros [|j]; reflexivity.
  - repeat split; try lia; try reflexivity. all: intros; lia.
  - destruct (find_true t) as [i|]; simpl.
    + destruct IH as (H1 & H2 & H3). repeat split; try lia; auto.
      intros [|j] Hj; auto. apply H3; lia.
    + intros [|j]; auto.
Qed.

Lemma argmax_bool_spec l :
  (exists j, nth j l false = true) ->
  argmax_bool l < length l /\ nth (argmax_bool l) l false = true /\
  (forall j, j < argmax_bool l -> nth j l false = false).
Proof.
  intros [j Hj]. unfold argmax_bool. pose proof (find_true_spec l) as H.
  destruct (find_true l); auto. rewrite H in Hj; discriminate.
Qed.

Lemma argmax_bool_none l : (forall j, nth j l false = false) -> argmax_bool l = 0.
Proof.
  intros Hn. unfold argmax_bool. pose proof (find_true_spec l) as H.
  destruct (find_true l); auto. destruct H as (_ & H & _). rewrite Hn in H; discriminate.
Qed.

Lemma sinsert_perm {A} le (x : A) l : Permutation (sinsert le x l) (x :: l).
Proof.
  induction l as [|y t IH]; simpl; auto.
  destruct (le x y); auto.
  rewrite IH. apply perm_swap.
Qed.
Lemma ssort_perm {A} le (l : list A) : Permutation (ssort le l) l.
Proof.
  induction l as [|x t IH]; simpl; auto. rewrite sinsert_perm. auto.
Qed.
Lemma ssort_length {A} le (l : list A) : length (ssort le l) = length l.
Proof. apply Permutation_length, ssort_perm. Qed.

Definition total_preorder {A} (le : A -> A -> bool) : Prop :=
  (forall x y, le x y = true \/ le y x = true) /\
  (forall x y z, le x y = true -> le y z = true -> le x z = true).

Lemma sinsert_sorted {A} (le : A -> A -> bool) x l : total_preorder le ->
  StronglySorted (fun a b => le a b = true) l -> StronglySorted (fun a b => le a b = true) (sinsert le x l).
Proof.
  intros [Htot Htr] Hs. induction Hs as [|y t Hs IH Hf]; simpl.
  - constructor; constructor.
  - destruct (le x y) eqn:E.
    + constructor. constructor; auto. constructor; auto.
      eapply Forall_impl; [|exact Hf]. intros z Hz; simpl in *. eapply Htr; eauto.
    + constructor; auto.
      assert (Hy : le y x = true) by (destruct (Htot x y); congruence).
      rewrite Forall_forall in *. intros z Hz.
      apply (Permutation_in _ (sinsert_perm le x t)) in Hz. destruct Hz as [<-|Hz]; auto.
Qed.
Lemma ssort_sorted {A} (le : A -> A -> bool) l : total_preorder le ->
  StronglySorted (fun a b => le a b = true) (ssort le l).
Proof.
  intros H; induction l; simpl. constructor. apply sinsert_sorted; auto.
Qed.

(** Lexicographic "key then original index" order: the exact specification of a stable sort. *)
Definition lexlt {K} (le : K -> K -> bool) (p q : K * nat) : Prop :=
  le (fst p) (fst q) = true /\ (le (fst q) (fst p) = true -> snd p < snd q).

Lemma sinsert_lex {K} (le : K -> K -> bool) x (l : list (K*nat)) : total_preorder le ->
  StronglySorted (lexlt le) l -> Forall (fun p => snd x < snd p) l ->
  StronglySorted (lexlt le) (sinsert (fun p q => le (fst p) (fst q)) x l).
Proof.
  intros [Htot Htr] Hs Hx. induction Hs as [|y t Hs IH Hf]; simpl.
  - repeat constructor.
  - inversion Hx as [|? ? Hxy Hxt]; subst.
    destruct (le (fst x) (fst y)) eqn:E.
    + constructor. constructor; auto.
      constructor.
      * split; auto.
      * rewrite Forall_forall in *. intros z Hz. specialize (Hf z Hz). destruct Hf as [Ha Hb].
        split; [eapply Htr; eauto|]. intros _. auto.
    + constructor; auto.
      assert (Hy : le (fst y) (fst x) = true) by (destruct (Htot (fst x) (fst y)); congruence).
      rewrite Forall_forall in *. intros z Hz.
      apply (Permutation_in _ (sinsert_perm _ x t)) in Hz. destruct Hz as [<-|Hz]; auto.
      split; auto. congruence.
Qed.

Lemma ssort_lex {K} (le : K -> K -> bool) (l : list K) n : total_preorder le ->
  StronglySorted (lexlt le) (ssort (fun p q => le (fst p) (fst q)) (combine l (seq n (length l)))).
Proof.
  intros H. revert n. induction l as [|k t IH]; intros n; simpl. constructor.
  apply sinsert_lex; auto.
  rewrite Forall_forall. intros p Hp. apply (Permutation_in _ (ssort_perm _ _)) in Hp.
  destruct p as [kk j]. apply in_combine_r in Hp. apply in_seq in Hp. simpl; lia.
Qed.

Lemma map_snd_combine {A B} (l : list A) (m : list B) : length l = length m -> map snd (combine l m) = m.
Proof. revert m; induction l; intros [|]; simpl; intros; try lia; auto. f_equal; auto. Qed.
Lemma map_fst_combine {A B} (l : list A) (m : list B) : length l = length m -> map fst (combine l m) = l.
Proof. revert m; induction l; intros [|]; simpl; intros; try lia; auto. f_equal; auto. Qed.

Lemma argsort_perm {K} le (l : list K) : Permutation (argsort le l) (seq 0 (length l)).
Proof.
  unfold argsort. rewrite ssort_perm, map_snd_combine; auto. now rewrite seq_length.
Qed.
Lemma argsort_length {K} le (l : list K) : length (argsort le l) = length l.
Proof. rewrite (Permutation_length (argsort_perm le l)). apply seq_length. Qed.
Lemma argsort_in {K} le (l : list K) i : In i (argsort le l) <-> i < length l.
Proof.
  split; intros H.
  - apply (Permutation_in _ (argsort_perm le l)) in H. apply in_seq in H; lia.
  - apply (Permutation_in _ (Permutation_sym (argsort_perm le l))). apply in_seq; lia.
Qed.
Lemma argsort_nodup {K} le (l : list K) : NoDup (argsort le l).
Proof. eapply Permutation_NoDup; [symmetry; apply argsort_perm | apply seq_NoDup]. Qed.

Lemma in_combine_nth {A} (d : A) (l : list A) k i n :
  In (k, i) (combine l (seq n (length l))) -> n <= i < n + length l /\ k = nth (i - n) l d.
Proof.
  revert n; induction l as [|x t IH]; simpl; intros n; [easy|].
  intros [H|H].
  - inversion H; subst. split; [lia|]. now rewrite Nat.sub_diag.
  - apply IH in H. destruct H as [H1 H2]. split; [lia|].
    replace (i - n) with (S (i - S n)) by lia. auto.
Qed.

(** Index order of a stable argsort. *)
Definition idxlt {K} (d : K) (le : K -> K -> bool) (l : list K) (i j : nat) : Prop :=
  le (nth i l d) (nth j l d) = true /\ (le (nth j l d) (nth i l d) = true -> i < j).

Lemma StronglySorted_map {A B} (R : A -> A -> Prop) (S : B -> B -> Prop) (f : A -> B) l :
  (forall x y, In x l -> In y l -> R x y -> S (f x) (f y)) ->
  StronglySorted R l -> StronglySorted S (map f l).
Proof.
  intros H Hs; induction Hs as [|x t Hs IH Hf]; simpl; constructor.
  - apply IH. intros; apply H; simpl; auto.
  - rewrite Forall_forall in *. intros y Hy. apply in_map_iff in Hy. destruct Hy as (z & <- & Hz).
    apply H; simpl; auto.
Qed.

Lemma argsort_sorted {K} (d : K) (le : K -> K -> bool) (l : list K) : total_preorder le ->
  StronglySorted (idxlt d le l) (argsort le l).
Proof.
  intros H. unfold argsort.
  apply StronglySorted_map with (R := lexlt le); [|apply ssort_lex; auto].
  intros [k i] [k' j] Hi Hj HR.
  apply (Permutation_in _ (ssort_perm _ _)) in Hi. apply (Permutation_in _ (ssort_perm _ _)) in Hj.
  apply (in_combine_nth d) in Hi. apply (in_combine_nth d) in Hj.
  destruct Hi as [Hi Hk], Hj as [Hj Hk']. rewrite Nat.sub_0_r in *.
  destruct HR as [HR1 HR2]; simpl in *. subst. split; auto.
Qed.

Lemma StronglySorted_nth {A} (d : A) (R : A -> A -> Prop) l i j :
  StronglySorted R l -> i < j -> j < length l -> R (nth i l d) (nth j l d).
Proof.
  intros Hs. revert i j. induction Hs as [|x t Hs IH Hf]; simpl; intros i j Hij Hj; [lia|].
  destruct j; [lia|]. destruct i.
  - rewrite Forall_forall in Hf. apply Hf. apply nth_In. lia.
  - apply IH; lia.
Qed.

(** gather / scatter / update *)
Lemma upd_length {A} (l : list A) i v : length (upd l i v) = length l.
Proof. revert i; induction l; intros [|i]; simpl; auto. Qed.
Lemma nth_upd {A} (d : A) l i v j :
  nth j (upd l i v) d = if (j =? i) && (i <? length l) then v else nth j l d.
Proof.
  revert i j; induction l as [|x t IH]; intros i j; simpl.
  - destruct j; now rewrite andb_false_r.
  - destruct i, j; simpl; auto.
    rewrite IH. destruct (j =? i) eqn:E; simpl; auto.
Qed.
Lemma scatter_length {A} (l : list A) idx vs : length (scatter l idx vs) = length l.
Proof. revert l vs; induction idx; intros l [|v vs]; simpl; auto. rewrite IHidx. apply upd_length. Qed.

Lemma nth_scatter_notin {A} (d : A) l idx vs j : ~ In j idx -> nth j (scatter l idx vs) d = nth j l d.
Proof.
  revert l vs; induction idx as [|i it IH]; intros l [|v vt] Hn; simpl; auto.
  rewrite IH; [|intros H; apply Hn; right; auto]. rewrite nth_upd.
  destruct (Nat.eqb_spec j i); simpl; auto. subst. exfalso; apply Hn; left; auto.
Qed.
Lemma nth_scatter_in {A} (d : A) l idx vs k : NoDup idx -> length idx = length vs ->
  k < length idx -> nth k idx 0 < length l ->
  nth (nth k idx 0) (scatter l idx vs) d = nth k vs d.
Proof.
  revert l vs k; induction idx as [|i it IH]; intros l [|v vt] k Hnd Hl Hk Hb; simpl in *; try lia.
  inversion Hnd; subst. destruct k.
  - rewrite nth_scatter_notin; auto. rewrite nth_upd, Nat.eqb_refl. simpl.
    destruct (Nat.ltb_spec i (length l)); auto; lia.
  - apply IH; auto; try lia. now rewrite upd_length.
Qed.
Lemma gather_length {A} (d : A) l idx : length (gather d l idx) = length idx.
Proof. apply map_length. Qed.

Lemma nth_map_lt {A B} (f : A -> B) l i da db : i < length l -> nth i (map f l) db = f (nth i l da).
Proof. intros H. rewrite nth_indep with (d' := f da); [apply map_nth|]. now rewrite map_length. Qed.

Lemma list_eq_nth {A} (d : A) (l m : list A) :
  length l = length m -> (forall i, i < length l -> nth i l d = nth i m d) -> l = m.
Proof.
  revert m; induction l; intros [|b m] Hl H; simpl in *; try lia; auto.
  f_equal. apply (H 0); lia. apply IHl; try lia. intros i Hi. apply (H (S i)); lia.
Qed.

(** sums *)
Lemma sumR_app l m : sumR (l ++ m) = (sumR l + sumR m)%R.
Proof. induction l; simpl; [lra|]. rewrite IHl; lra. Qed.
Lemma sumR_perm l m : Permutation l m -> sumR l = sumR m.
Proof. induction 1; simpl; lra. Qed.
Lemma sumR_nonneg l : (forall x, In x l -> 0 <= x)%R -> (0 <= sumR l)%R.
Proof.
  induction l; simpl; intros H; [lra|].
  pose proof (H a (or_introl eq_refl)). assert (0 <= sumR l)%R by (apply IHl; intros; apply H; auto). lra.
Qed.
Lemma sumR_map_scal {A} c (f : A -> R) l : sumR (map (fun x => (c * f x)%R) l) = (c * sumR (map f l))%R.
Proof. induction l; simpl; [lra|]. rewrite IHl; lra. Qed.
Lemma sumR_map_plus {A} (f g : A -> R) l : sumR (map (fun x => (f x + g x)%R) l) = (sumR (map f l) + sumR (map g l))%R.
Proof. induction l; simpl; [lra|]. rewrite IHl; lra. Qed.
Lemma sumR_map_le {A} (f g : A -> R) l : (forall x, In x l -> f x <= g x)%R -> (sumR (map f l) <= sumR (map g l))%R.
Proof.
  induction l; simpl; intros H; [lra|].
  pose proof (H a (or_introl eq_refl)). assert (sumR (map f l) <= sumR (map g l))%R by (apply IHl; intros; apply H; auto). lra.
Qed.

Lemma Rleb_total_preorder : total_preorder Rleb.
Proof.
  split; intros *.
  - rewrite !Rleb_true. lra.
  - rewrite !Rleb_true. lra.
Qed.

Lemma nth_skipn_add {A} (d : A) l n i : nth i (skipn n l) d = nth (n + i) l d.
Proof. revert l; induction n; intros [|a l]; simpl; auto. now destruct i. Qed.
Lemma nth_firstn_lt {A} (d : A) l n i : i < n -> nth i (firstn n l) d = nth i l d.
Proof. revert l i; induction n; intros [|a l] [|i] H; simpl; auto; try lia. apply IHn; lia. Qed.
Lemma skipn_skipn_add {A} (l : list A) n m : skipn n (skipn m l) = skipn (m + n) l.
Proof. revert l; induction m; intros [|a l]; simpl; auto. now rewrite skipn_nil. Qed.
