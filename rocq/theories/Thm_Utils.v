(** Property theorems for utils.py (C19, C20, C21). *)
From Coq Require Import Reals Lra Bool List Arith Lia Permutation.
From Coquelicot Require Import Complex.
From Verif Require Import Base_R Base_List M_Utils S_Utils P_Utils.
Import ListNotations.
Local Open Scope R_scope.

(** ** C19 matching *)
Theorem C19_match_points_greedy : forall a b, (length a <= length b)%nat ->
  greedy_matching a b (match_points a b).
Proof. exact match_points_greedy. Qed.
(** the specification determines the answer *)
Theorem C19_greedy_matching_unique : forall a b p q,
  greedy_matching a b p -> greedy_matching a b q -> p = q.
Proof. exact greedy_unique. Qed.
Theorem C19_match_points_injective : forall a b, (length a <= length b)%nat ->
  NoDup (match_points a b) /\ (forall k, In k (match_points a b) -> (k < length b)%nat).
Proof. intros a b H; exact (greedy_nodup _ _ _ (match_points_greedy a b H)). Qed.
Theorem C19_match_points_permutation : forall a b, length a = length b ->
  Permutation (match_points a b) (seq 0 (length b)).
Proof. exact match_points_perm. Qed.
Theorem C19_reordered_points_are_a_permutation : forall a b, length a = length b ->
  Permutation (gather (RtoC 0) b (match_points a b)) b.
Proof. intros a b H; exact (gather_perm _ _ _ (match_points_perm a b H)). Qed.
(** without the length hypothesis injectivity fails *)
Theorem C19_injective_refuted_when_more_points_than_candidates :
  exists a b, ~ NoDup (match_points a b).
Proof. exact match_points_reuse. Qed.

Example C19_example : match_points [RtoC 0; RtoC 1] [RtoC 1.1; RtoC 0.1; RtoC 5] = [1; 0]%nat.
Proof.
  apply (greedy_unique [RtoC 0; RtoC 1] [RtoC 1.1; RtoC 0.1; RtoC 5]).
  - apply match_points_greedy; simpl; lia.
  - assert (D : forall x y, Cmod (RtoC x - RtoC y)%C = Rabs (x - y)).
    { intros. rewrite <- RtoC_minus. apply Cmod_R. }
    split; [reflexivity|]. intros [|[|i]] Hi; simpl in *; try lia.
    + split; [simpl; lia|split; [simpl; tauto|]]. intros [|[|[|j]]] Hj _ Hne; simpl in *; try lia;
      rewrite !D; left; unfold Rabs; repeat destruct (Rcase_abs _); lra.
    + split; [simpl; lia|split; [intros [E|[]]; discriminate|]]. intros [|[|[|j]]] Hj Hn Hne; simpl in *; try lia;
      rewrite !D; left; unfold Rabs; repeat destruct (Rcase_abs _); lra.
Qed.

(** ** C20 zero-padding helpers *)
Theorem C20_first_nonzero : forall x,
  ((exists v, In v x /\ v <> 0) -> is_first (fun v => v <> 0) x (first_nonzero x)) /\
  ((forall v, In v x -> v = 0) -> first_nonzero x = 0%nat).
Proof. exact first_nonzero_spec. Qed.
Theorem C20_last_nonzero : forall x,
  ((exists v, In v x /\ v <> 0) -> is_last (fun v => v <> 0) x (last_nonzero x)) /\
  ((forall v, In v x -> v = 0) -> last_nonzero x = 0%nat).
Proof. exact last_nonzero_spec. Qed.
Theorem C20_first_zero : forall x,
  (In 0 x -> is_first (fun v => v = 0) x (first_zero x)) /\ (~ In 0 x -> first_zero x = 0%nat).
Proof. exact first_zero_spec. Qed.
Theorem C20_min_zero_avoiding : forall x, x <> [] ->
  ((exists v, In v x /\ v <> 0) -> is_min_nonzero x (min_zero_avoiding x)) /\
  ((forall v, In v x -> v = 0) -> min_zero_avoiding x = 0).
Proof. exact min_zero_avoiding_spec. Qed.
Theorem C20_max_zero_avoiding : forall x, x <> [] ->
  ((exists v, In v x /\ v <> 0) -> is_max_nonzero x (max_zero_avoiding x)) /\
  ((forall v, In v x -> v = 0) -> max_zero_avoiding x = 0).
Proof. exact max_zero_avoiding_spec. Qed.
(** never NaN; the mean of the non-zero entries, 0 when there is none *)
Theorem C20_mean_zero_avoiding : forall x s n, nz_stats x s n ->
  mean_zero_avoiding x = Some (if (n =? 0)%nat then 0 else s / INR n).
Proof. exact mean_zero_avoiding_spec. Qed.
Theorem C20_mean_stats_exist : forall x, exists s n, nz_stats x s n.
Proof. exact nz_stats_ex. Qed.
Print Assumptions C20_mean_stats_exist.
Theorem C20_sparse_argsort_permutation : forall a, Permutation (sparse_argsort a) (seq 0 (length a)).
Proof. exact sparse_argsort_perm. Qed.
Theorem C20_sparse_argsort_sorted : forall a i j, (i < j)%nat -> (j < length a)%nat ->
  sparse_order a (nth i (sparse_argsort a) 0%nat) (nth j (sparse_argsort a) 0%nat).
Proof. exact sparse_argsort_sorted. Qed.

(** witnesses: arrays with and without zeros, all-negative with zeros *)
Example C20_example_hyp : [0; -2; 0; -1] <> [] /\ (exists v, In v [0; -2; 0; -1] /\ v <> 0).
Proof. split; [discriminate|]. exists (-2). simpl; split; [auto|lra]. Qed.
Example C20_example_max : max_zero_avoiding [0; -2; 0; -1] = -1.
Proof.
  destruct (max_zero_avoiding_spec [0; -2; 0; -1] ltac:(discriminate)) as [H _].
  destruct H as (A & B & C); [exists (-2); simpl; split; [auto|lra]|].
  simpl in A. pose proof (C (-1) ltac:(simpl; auto) ltac:(lra)). destruct A as [A|[A|[A|[A|[]]]]]; lra.
Qed.
Example C20_example_stats : nz_stats [0; 2; 0; 4] (2 + (4 + 0)) 2.
Proof. repeat constructor; lra. Qed.

(** ** C21 zero-avoiding trapezoid rule *)
Theorem C21_trapz_zero_avoiding : forall y x t, length y = length x -> (t < length x)%nat ->
  (forall j, (t < j < length x)%nat -> nth j y 0 = 0) ->
  trapz_zero_avoiding y x t = trap_spec (combine (firstn (S t) x) (firstn (S t) y)).
Proof. exact trapz_zero_avoiding_spec. Qed.
(** exact value without any hypothesis on the padding: only ONE trapezoid is removed *)
Theorem C21_trapz_zero_avoiding_exact : forall y x t, length y = length x -> (S t < length x)%nat ->
  trapz_zero_avoiding y x t =
    trap_spec (firstn (S t) (combine x y)) + trap_spec (skipn (S t) (combine x y)).
Proof. exact trapz_zero_avoiding_exact. Qed.
(** the documented equivalence (docstring, utils.py:197) is false for unpadded data *)
Theorem C21_doc_equivalence_refuted : exists y x t, length y = length x /\ (t < length x)%nat /\
  trapz_zero_avoiding y x t <> trap_spec (combine (firstn (S t) x) (firstn (S t) y)).
Proof. exact trapz_doc_false. Qed.
Example C21_example : trapz_zero_avoiding [1; 3; 0; 0] [0; 1; 0; 0] 1 = 2.
Proof.
  rewrite trapz_zero_avoiding_spec; simpl; auto; try lia; try lra.
  intros [|[|[|[|j]]]] H; simpl in *; try lia; auto.
Qed.

Print Assumptions C19_match_points_greedy.
Print Assumptions C19_greedy_matching_unique.
Print Assumptions C19_match_points_injective.
Print Assumptions C19_match_points_permutation.
Print Assumptions C19_reordered_points_are_a_permutation.
Print Assumptions C19_injective_refuted_when_more_points_than_candidates.
Print Assumptions C20_first_nonzero.
Print Assumptions C20_last_nonzero.
Print Assumptions C20_first_zero.
Print Assumptions C20_min_zero_avoiding.
Print Assumptions C20_max_zero_avoiding.
Print Assumptions C20_mean_zero_avoiding.
Print Assumptions C20_sparse_argsort_permutation.
Print Assumptions C20_sparse_argsort_sorted.
Print Assumptions C21_trapz_zero_avoiding.
Print Assumptions C21_trapz_zero_avoiding_exact.
Print Assumptions C21_doc_equivalence_refuted.
