(** [peri_vernal] for an array of reference times: property C37. *)
From Coq Require Import Reals List Bool Arith Lia Lra Permutation.
From Verif Require Import Base_R Base_List M_Utils M_MergeArea S_Parallax M_Parallax M_ParallaxArray P_Parallax.
Import ListNotations.
Local Open Scope R_scope.

Lemma argmin_from_ge b ib i x t : b <= x -> argmin_from b ib i (x :: t) = argmin_from b ib (S i) t.
Proof. intros H. cbn [argmin_from]. destruct (Rltb_spec x b); [lra|reflexivity]. Qed.
Lemma argmin_from_lt b ib i x t : x < b -> argmin_from b ib i (x :: t) = argmin_from x i (S i) t.
Proof. intros H. cbn [argmin_from]. destruct (Rltb_spec x b); [reflexivity|lra]. Qed.

Theorem C37_array_one : forall t, peri_vernal_array [t] = Ok (peri_vernal t).
Proof. reflexivity. Qed.
(** the docstring accepts arrays; only those with one or with 21 entries get past the subtraction *)
Theorem C37_array_refuted : forall l, length l <> 1%nat -> length l <> 21%nat -> peri_vernal_array l = Raise TypeError.
Proof.
  intros l H1 H21. unfold peri_vernal_array. set (l' := map _ l). assert (L : length l' = length l) by apply map_length.
  unfold table_distance. destruct (Nat.eqb_spec (length l') (length peris)) as [E|_]; [change (length peris) with 21%nat in E; lia|].
  destruct l' as [|a [|b t]]; [reflexivity|cbn in L; lia|reflexivity].
Qed.
(** and with 21 the answer depends on the order of the times: each is compared with one entry of the table only *)
Theorem C37_array_order_refuted : exists l l' p p', Permutation l l' /\ peri_vernal_array l = Ok p /\ peri_vernal_array l' = Ok p' /\ p <> p'.
Proof.
  exists peris, (1913.87500 :: 1546.70833 :: skipn 2 peris), (1546.70833, 1623.81597), (2277.08333, 2354.30278).
  assert (S : forall l, (forall x, In x l -> x <= 2450000) -> map (fun t => if Rltb 2450000 t then t - 2450000 else t) l = l).
  { induction l as [|a l IH]; intros H; [reflexivity|]. cbn [map]. rewrite IH by (intros; apply H; right; assumption).
    destruct (Rltb_spec 2450000 a); [specialize (H a (or_introl eq_refl)); lra|reflexivity]. }
  split; [apply perm_swap|]. split; [|split].
  - unfold peri_vernal_array. rewrite S by (intros x H; unfold peris in H; cbn [In] in H; repeat destruct H as [<-|H]; try lra; contradiction).
    unfold table_distance, peris, res_map. cbn [length Nat.eqb combine map fst snd]. rewrite !Rminus_eq_0, Rabs_R0.
    unfold argmin. rewrite argmin_from_skip by (intros x H; cbn [In] in H; repeat destruct H as [<-|H]; try lra; contradiction). reflexivity.
  - unfold peri_vernal_array. rewrite S by (intros x H; unfold peris in H; cbn [In skipn] in H; repeat destruct H as [<-|H]; try lra; contradiction).
    unfold table_distance, peris, res_map. cbn [skipn length Nat.eqb combine map fst snd]. rewrite !Rminus_eq_0, Rabs_R0.
    unfold argmin. rewrite argmin_from_ge by (rewrite Rabs_minus_sym; lra).
    rewrite argmin_from_lt by (apply Rabs_pos_lt; lra).
    rewrite argmin_from_skip by (intros x H; cbn [In] in H; repeat destruct H as [<-|H]; try lra; contradiction). reflexivity.
  - intros H. injection H. lra.
Qed.
Example C37_array_case : peri_vernal_array [8000; 8100] = Raise TypeError.
Proof. apply C37_array_refuted; cbn; lia. Qed.

Print Assumptions C37_array_one.
Print Assumptions C37_array_refuted.
Print Assumptions C37_array_order_refuted.
