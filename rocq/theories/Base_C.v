(** Complex numbers: conjugation, integer powers, ring/field with numerals, polynomial evaluation.
    Library code, no microjax content. *)
From Coq Require Import Reals Lra Bool List ZArith Lia Setoid Ring Field.
From Coquelicot Require Import Complex.
Import ListNotations.
Local Open Scope R_scope.
Local Open Scope C_scope.

Fixpoint Cpow (z : C) (n : nat) : C := match n with O => RtoC 1 | S m => z * Cpow z m end.

Definition ZtoC (z : Z) : C := RtoC (IZR z).
Lemma ZtoC_morph : ring_morph (RtoC 0) (RtoC 1) Cplus Cmult Cminus Copp (@eq C)
  0%Z 1%Z Z.add Z.mul Z.sub Z.opp Zeq_bool ZtoC.
Proof.
  constructor; intros; unfold ZtoC; auto.
  - now rewrite plus_IZR, RtoC_plus.
  - now rewrite minus_IZR, RtoC_minus.
  - now rewrite mult_IZR, RtoC_mult.
  - now rewrite opp_IZR, RtoC_opp.
  - apply Zeq_bool_eq in H. now subst.
Qed.
Lemma Cpow_theory : power_theory (RtoC 1) Cmult (@eq C) N.to_nat Cpow.
Proof.
  constructor. intros r n. destruct n as [|p]; simpl; auto.
  induction p using Pos.peano_ind; simpl. apply Cmult_1_r.
  rewrite Pos2Nat.inj_succ. simpl. rewrite IHp.
  clear. rewrite pow_pos_succ; auto.
  - exact (Eqsth C).
  - intros ? ? -> ? ? ->; auto.
  - apply Cmult_assoc.
Qed.

Ltac ZtoC_const t :=
  match t with
  | RtoC (IZR ?x) => match isZcst x with true => x | _ => constr:(NotConstant) end
  | _ => constr:(NotConstant)
  end.
Ltac natpow_tac t :=
  match isnatcst t with true => constr:(N.of_nat t) | _ => constr:(NotConstant) end.

Add Field C_field_num : C_field_theory
  (morphism ZtoC_morph, constants [ZtoC_const], power_tac Cpow_theory [natpow_tac]).

Arguments Cpow z%C n%nat.
#[global] Arguments Cmod _%C.
#[global] Arguments Cconj _%C.
#[global] Arguments RtoC _%R.
Notation "z ^ n" := (Cpow z n) : C_scope.


(** *** conjugation *)
Lemma Ceq (z w : C) : fst z = fst w -> snd z = snd w -> z = w.
Proof. destruct z, w; simpl; intros; subst; auto. Qed.
Lemma Cconj_conj z : Cconj (Cconj z) = z.
Proof. apply Ceq; simpl; auto. lra. Qed.
Lemma Cconj_plus z w : Cconj (z + w) = Cconj z + Cconj w.
Proof. apply Ceq; simpl; lra. Qed.
Lemma Cconj_opp z : Cconj (- z) = - Cconj z.
Proof. apply Ceq; simpl; lra. Qed.
Lemma Cconj_minus z w : Cconj (z - w) = Cconj z - Cconj w.
Proof. apply Ceq; simpl; lra. Qed.
Lemma Cconj_mult z w : Cconj (z * w) = Cconj z * Cconj w.
Proof. apply Ceq; simpl; lra. Qed.
Lemma Cconj_RtoC (x : R) : Cconj x = x.
Proof. apply Ceq; simpl; lra. Qed.
Lemma Cconj_neq0 (z : C) : z <> 0 -> Cconj z <> 0.
Proof. intros H E. apply H. rewrite <- (Cconj_conj z), E. apply Cconj_RtoC. Qed.
Lemma Cinv_0 : / RtoC 0 = 0.
Proof. apply Ceq; simpl; unfold Rdiv; rewrite ?Rmult_0_l, ?Ropp_0, ?Rmult_0_l; auto. Qed.
Lemma Cconj_inv z : Cconj (/ z) = / Cconj z.
Proof.
  apply Ceq; simpl; auto.
  - f_equal; f_equal; lra.
  - unfold Rdiv. replace (- snd z * (- snd z * 1))%R with (snd z * (snd z * 1))%R by lra. lra.
Qed.
Lemma Cconj_div z w : Cconj (z / w) = Cconj z / Cconj w.
Proof. unfold Cdiv. now rewrite Cconj_mult, Cconj_inv. Qed.
Lemma Cconj_pow z n : Cconj (z ^ n) = Cconj z ^ n.
Proof. induction n; simpl. apply Cconj_RtoC. now rewrite Cconj_mult, IHn. Qed.
Lemma Cconj_inj z w : Cconj z = Cconj w -> z = w.
Proof. intros H. rewrite <- (Cconj_conj z), H. apply Cconj_conj. Qed.
Lemma Cmod_conj z : Cmod (Cconj z) = Cmod z.
Proof. unfold Cmod; simpl. f_equal. lra. Qed.
Lemma Cmod_sq z : (Cmod z * Cmod z)%R = (fst z * fst z + snd z * snd z)%R.
Proof. unfold Cmod. rewrite sqrt_sqrt; nra. Qed.
Lemma Cmult_conj z : z * Cconj z = RtoC (Cmod z * Cmod z).
Proof. rewrite Cmod_sq. apply Ceq; simpl; lra. Qed.
Lemma Cmod_pow z n : Cmod (z ^ n) = (Cmod z ^ n)%R.
Proof. induction n; simpl. apply Cmod_1. now rewrite Cmod_mult, IHn. Qed.
Lemma C1_neq0 : RtoC 1 <> 0.
Proof. intros H; apply RtoC_inj in H; lra. Qed.
Lemma Cpow_neq0 (z : C) n : z <> 0 -> z ^ n <> 0.
Proof. intros H; induction n; simpl. apply C1_neq0. now apply Cmult_neq_0. Qed.
Lemma Cmult_integral (z w : C) : z * w = 0 -> z = 0 \/ w = 0.
Proof.
  intros H. destruct (Ceq_dec z 0); auto. right.
  rewrite <- (Cmult_1_l w), <- (Cinv_l z) by auto. rewrite <- Cmult_assoc, H. ring.
Qed.
Lemma Cminus_eq_0 (z w : C) : z - w = 0 -> z = w.
Proof. intros H. replace z with ((z - w) + w) by ring. rewrite H. ring. Qed.
Lemma RtoC_neq0 (x : R) : x <> 0%R -> RtoC x <> 0.
Proof. intros H E. apply H. now apply RtoC_inj. Qed.
Lemma RtoC_pow (x : R) n : RtoC (x ^ n)%R = (RtoC x) ^ n.
Proof. induction n; simpl; auto. now rewrite RtoC_mult, IHn. Qed.
Lemma Cpow_plus z n m : z ^ (n + m) = z ^ n * z ^ m.
Proof. induction n; simpl. ring. rewrite IHn. ring. Qed.
Lemma Cmod_pos_neq (z : C) : (0 < Cmod z)%R -> z <> 0.
Proof. intros H E. rewrite E, Cmod_0 in H. lra. Qed.
Lemma Cmod_neg_swap z w : Cmod (z - w) = Cmod (w - z).
Proof. rewrite <- Cmod_opp. f_equal. ring. Qed.

#[global] Hint Rewrite Cconj_conj Cconj_plus Cconj_minus Cconj_opp Cconj_mult Cconj_RtoC Cconj_inv Cconj_div Cconj_pow : cconj.

(** exp(i t) *)
Definition cexpi (t : R) : C := (cos t, sin t).
Lemma Cmod_cexpi t : Cmod (cexpi t) = 1%R.
Proof.
  unfold Cmod, cexpi; simpl. replace (cos t * (cos t * 1) + sin t * (sin t * 1))%R with 1%R.
  apply sqrt_1. pose proof (sin2_cos2 t) as H. unfold Rsqr in H. lra.
Qed.
Lemma cexpi_neq0 t : cexpi t <> 0.
Proof. apply Cmod_pos_neq. rewrite Cmod_cexpi. lra. Qed.
Lemma Cconj_cexpi t : Cconj (cexpi t) = cexpi (- t).
Proof. apply Ceq; simpl. now rewrite cos_neg. now rewrite sin_neg. Qed.
Lemma cexpi_0 : cexpi 0 = RtoC 1.
Proof. apply Ceq; simpl; [apply cos_0|apply sin_0]. Qed.
Lemma cexpi_add s t : cexpi (s + t) = cexpi s * cexpi t.
Proof. apply Ceq; simpl. rewrite cos_plus; lra. rewrite sin_plus; lra. Qed.

(** ** polynomials, highest power first *)
(** [jnp.polyval] (Horner) *)
Definition polyval (cs : list C) (z : C) : C := fold_left (fun acc c => acc * z + c) cs 0.
(** mathematical evaluation: sum of c_k z^(n-k) *)
Fixpoint peval (cs : list C) (z : C) : C :=
  match cs with [] => 0 | c :: t => c * z ^ (length t) + peval t z end.

Lemma polyval_acc cs acc z : fold_left (fun acc c => acc * z + c) cs acc = acc * z ^ (length cs) + peval cs z.
Proof.
  revert acc; induction cs as [|c t IH]; intros acc; simpl. ring.
  rewrite IH. ring.
Qed.
Lemma polyval_peval cs z : polyval cs z = peval cs z.
Proof. unfold polyval. rewrite polyval_acc. ring. Qed.

Fixpoint sumC (l : list C) : C := match l with [] => 0 | x :: t => x + sumC t end.
Fixpoint prodC (l : list C) : C := match l with [] => RtoC 1 | x :: t => x * prodC t end.

(** sanity *)
Goal forall z : C, (z + 3) ^ 2 = z ^ 2 + 6 * z + 9.
Proof. intros. ring. Qed.
Goal forall z : C, z <> 0 -> (z + 3) / z  = 1 + 3 / z.
Proof. intros. field. auto. Qed.
