(** Enclosures of the sine of a rational, by integer arithmetic. *)
From Coq Require Import Reals ZArith Lia Lra Rtrigo_alt.
Local Open Scope R_scope.

(** partial sum of the series at [m/D]: numerator, denominator, last power *)
Fixpoint sinz (m D : Z) (n : nat) : Z * Z * Z := match n with
  | O => (m, D, m)
  | S n => let '(f, d, p) := sinz m D n in let c := (D * D * (Z.of_nat (2 * n + 2) * Z.of_nat (2 * n + 3)))%Z in let p := (- p * (m * m))%Z in (f * c + p, d * c, p)%Z end.
Lemma sinz_spec m D n : (0 < D)%Z -> let '(f, d, p) := sinz m D n in
  IZR d = IZR D ^ (2 * n + 1) * INR (fact (2 * n + 1)) /\ IZR p = (-1) ^ n * IZR m ^ (2 * n + 1) /\ sin_approx (IZR m / IZR D) n = IZR f / IZR d.
Proof.
  intros HD. assert (PD : 0 < IZR D) by (apply IZR_lt; auto). induction n as [|n IH].
  - cbn [sinz]. simpl. unfold sin_approx. cbn [sum_f_R0]. unfold sin_term. simpl. repeat split; field. lra.
  - cbn [sinz]. destruct (sinz m D n) as ((f, d), p). destruct IH as (Hd & Hp & Hf). replace (2 * S n + 1)%nat with (S (S (2 * n + 1))) by lia.
    assert (E1 : IZR (d * (D * D * (Z.of_nat (2 * n + 2) * Z.of_nat (2 * n + 3)))) = IZR D ^ S (S (2 * n + 1)) * INR (fact (S (S (2 * n + 1))))).
    { rewrite !mult_IZR, Hd, <- !INR_IZR_INZ. rewrite (fact_simpl (S (2 * n + 1))), (fact_simpl (2 * n + 1)), !mult_INR. replace (S (S (2 * n + 1))) with (2 * n + 3)%nat by lia. replace (S (2 * n + 1)) with (2 * n + 2)%nat by lia. replace (2 * n + 3)%nat with (S (S (2 * n + 1))) at 2 by lia. cbn [pow]. ring. }
    assert (E2 : IZR (- p * (m * m)) = (-1) ^ S n * IZR m ^ S (S (2 * n + 1))) by (rewrite !mult_IZR, opp_IZR, Hp; cbn [pow]; ring).
    split; [exact E1|]. split; [exact E2|]. unfold sin_approx in *. cbn [sum_f_R0]. rewrite Hf. unfold sin_term. replace (2 * S n + 1)%nat with (S (S (2 * n + 1))) by lia.
    rewrite plus_IZR, E1, E2. replace ((IZR m / IZR D) ^ S (S (2 * n + 1))) with (IZR m ^ S (S (2 * n + 1)) / IZR D ^ S (S (2 * n + 1))) by (unfold Rdiv; rewrite Rpow_mult_distr, pow_inv; reflexivity). rewrite mult_IZR. set (c := (D * D * _)%Z) in *.
    assert (Pf : forall k, 0 < INR (fact k)) by (intros; apply INR_fact_lt_0). assert (Pd : 0 < IZR d) by (rewrite Hd; apply Rmult_lt_0_compat; auto; apply pow_lt; auto).
    rewrite mult_IZR in E1. assert (Pc : IZR c <> 0). { intros Z. rewrite Z, Rmult_0_r in E1. symmetry in E1. apply Rmult_integral in E1 as [E1|E1]; [pose proof (pow_lt (IZR D) (S (S (2 * n + 1))) PD); lra|pose proof (Pf (S (S (2 * n + 1)))); lra]. }
    pose proof (pow_lt (IZR D) (S (S (2 * n + 1))) PD). pose proof (Pf (S (S (2 * n + 1)))). set (A := IZR D ^ S (S (2 * n + 1))) in *. set (B := INR (fact (S (S (2 * n + 1))))) in *. set (U := IZR m ^ S (S (2 * n + 1))) in *. set (W := (-1) ^ S n) in *. clearbody A B U W.
    transitivity (IZR f / IZR d + W * U / (A * B)); [field; repeat split; lra|]. replace (IZR f * IZR c + W * U) with (IZR f / IZR d * (A * B) + W * U) by (rewrite <- E1; field; lra). field. repeat split; lra.
Qed.
Definition sin_check (m D : Z) (n : nat) (c w s : Z) : bool :=
  let '(f, d, _) := sinz m D (2 * n + 1) in let '(f', d', _) := sinz m D (2 * (n + 1)) in
  ((c - w) * d <=? f * s)%Z && (f' * s <=? (c + w) * d')%Z.
Lemma sin_check_sound m D n c w s : (0 < D)%Z -> (0 <= m <= 4 * D)%Z -> (0 < s)%Z -> sin_check m D n c w s = true -> Rabs (sin (IZR m / IZR D) - IZR c / IZR s) <= IZR w / IZR s.
Proof.
  intros HD Hm Hs H. unfold sin_check in H. pose proof (sinz_spec m D (2 * n + 1) HD) as A. pose proof (sinz_spec m D (2 * (n + 1)) HD) as B.
  destruct (sinz m D (2 * n + 1)) as ((f, d), p). destruct (sinz m D (2 * (n + 1))) as ((f', d'), p'). destruct A as (Ad & _ & A). destruct B as (Bd & _ & B).
  apply andb_prop in H as [H1 H2]. apply Z.leb_le, IZR_le in H1. apply Z.leb_le, IZR_le in H2. rewrite !mult_IZR, minus_IZR in H1. rewrite !mult_IZR, plus_IZR in H2.
  assert (PD : 0 < IZR D) by (apply IZR_lt; auto). assert (Ps : 0 < IZR s) by (apply IZR_lt; auto). assert (Hm1 : 0 <= IZR m) by (apply IZR_le; lia). assert (Hm2 : IZR m <= 4 * IZR D) by (rewrite <- mult_IZR; apply IZR_le; lia).
  assert (P1 : 0 < IZR d) by (rewrite Ad; apply Rmult_lt_0_compat; [apply pow_lt; auto|apply INR_fact_lt_0]). assert (P2 : 0 < IZR d') by (rewrite Bd; apply Rmult_lt_0_compat; [apply pow_lt; auto|apply INR_fact_lt_0]).
  destruct (pre_sin_bound (IZR m / IZR D) n) as [L U]. { apply Rmult_le_pos; [auto|left; apply Rinv_0_lt_compat; auto]. } { apply (Rmult_le_reg_r (IZR D)); auto. unfold Rdiv. rewrite Rmult_assoc, Rinv_l; lra. }
  rewrite A in L. rewrite B in U.
  assert (L' : IZR c / IZR s - IZR w / IZR s <= IZR f / IZR d). { apply (Rmult_le_reg_r (IZR s * IZR d)); [apply Rmult_lt_0_compat; auto|]. replace ((IZR c / IZR s - IZR w / IZR s) * (IZR s * IZR d)) with ((IZR c - IZR w) * IZR d) by (field; lra). replace (IZR f / IZR d * (IZR s * IZR d)) with (IZR f * IZR s) by (field; lra). auto. }
  assert (U' : IZR f' / IZR d' <= IZR c / IZR s + IZR w / IZR s). { apply (Rmult_le_reg_r (IZR s * IZR d')); [apply Rmult_lt_0_compat; auto|]. replace ((IZR c / IZR s + IZR w / IZR s) * (IZR s * IZR d')) with ((IZR c + IZR w) * IZR d') by (field; lra). replace (IZR f' / IZR d' * (IZR s * IZR d')) with (IZR f' * IZR s) by (field; lra). auto. }
  apply Rabs_le. lra.
Qed.
