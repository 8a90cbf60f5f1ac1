(** The gamma function at integer arguments (C69). *)
From Coq Require Import Reals ZArith List Bool Lia Lra.
From Coquelicot Require Import Complex.
From Verif Require Import Base_R Base_C M_Kernels P_Kernels S_Gamma P_Gamma P_GammaKer M_GammaInt.
Import ListNotations.
Local Open Scope R_scope.

Lemma clog_pos x : 0 < x -> clog (RtoC x) = Some (RtoC (ln x)).
Proof.
  intros H. unfold clog. rewrite Cmod_R, Rabs_pos_eq by lra. destruct (Reqb_spec x 0); [lra|]. f_equal. unfold RtoC. f_equal. unfold carg. cbn [Re Im fst snd]. destruct (Rltb_spec 0 x); [|lra].
  unfold Rdiv. rewrite Rmult_0_l. apply atan_0.
Qed.
Lemma cexp_real x : cexp (RtoC x) = RtoC (exp x).
Proof. unfold cexp, cexpi. cbn [Re Im RtoC fst snd]. rewrite cos_0, sin_0. unfold RtoC. apply injective_projections; cbn; ring. Qed.
Definition prodZ (n : Z) (l : list nat) : Z := fold_right (fun i acc => ((n + Z.of_nat i) * acc)%Z) 1%Z l.
Lemma prodZ_C n l : prodC (map (fun i => RtoC (IZR n) + RtoC (INR i))%C l) = RtoC (IZR (prodZ n l)).
Proof. induction l as [|i l IH]; [reflexivity|]. cbn [map prodC prodZ fold_right]. fold (prodZ n l). rewrite IH, mult_IZR, plus_IZR, <- INR_IZR_INZ, RtoC_mult, RtoC_plus. reflexivity. Qed.
(** what the code computes without overflow *)
Lemma gamma_int_value n v : (1 <= n <= 100)%Z -> prod_int 64 n = prodZ n (seq 0 16) -> series_int 64 gamma_a_R (n + 16) ((n + 16) * (n + 16)) = Some v ->
  RtoC v = gamma_series gamma_a (RtoC (IZR n) + RtoC (INR 16))%C ((RtoC (IZR n) + RtoC (INR 16)) * (RtoC (IZR n) + RtoC (INR 16)))%C ->
  exists w, gamma_int 64 n = Some w /\ gamma_ (RtoC (IZR n)) = Some (RtoC w).
Proof.
  intros Hn Hp Hv Hs. assert (W : wrap 64 (n + 16) = (n + 16)%Z) by (unfold wrap; rewrite Z.mod_small; lia). assert (W2 : wrap 64 ((n + 16) * (n + 16)) = ((n + 16) * (n + 16))%Z) by (unfold wrap; rewrite Z.mod_small; nia).
  unfold gamma_int. rewrite W, W2, Hv, Hp. unfold nlog. assert (P : (0 < prodZ n (seq 0 16))%Z). { assert (F : forall l, (0 < prodZ n l)%Z) by (induction l as [|i l IH]; [reflexivity|]; cbn [prodZ fold_right]; fold (prodZ n l); apply Z.mul_pos_pos; lia). apply F. }
  destruct (Z.ltb_spec 0 (n + 16)); [|lia]. destruct (Z.ltb_spec 0 (prodZ n (seq 0 16))); [|lia]. eexists. split; [reflexivity|].
  assert (Pn : 0 < IZR n) by (apply (IZR_lt 0); lia). unfold gamma_. cbn [Re RtoC fst]. destruct (Rleb_spec (IZR n) 0); [lra|]. unfold gamma_case. cbv zeta. rewrite <- Hs, prodZ_C.
  assert (E16 : (RtoC (IZR n) + RtoC (INR 16))%C = RtoC (IZR (n + 16))). { rewrite plus_IZR, RtoC_plus. do 2 f_equal. simpl. lra. } rewrite E16. assert (P16 : 0 < IZR (n + 16)) by (apply (IZR_lt 0); lia).
  rewrite clog_pos by auto. cbn [cbind]. rewrite clog_pos by (apply (IZR_lt 0); auto). cbn [cbind]. f_equal. rewrite <- cexp_real. f_equal. rewrite <- !RtoC_minus, <- RtoC_mult, <- RtoC_plus, <- RtoC_minus, <- RtoC_plus. reflexivity.
Qed.
Lemma series_ok n : (1 <= n <= 8)%Z -> exists v, series_int 64 gamma_a_R (n + 16) ((n + 16) * (n + 16)) = Some v /\
  RtoC v = gamma_series gamma_a (RtoC (IZR n) + RtoC (INR 16))%C ((RtoC (IZR n) + RtoC (INR 16)) * (RtoC (IZR n) + RtoC (INR 16)))%C.
Proof.
  intros Hn. assert (E16 : (RtoC (IZR n) + RtoC (INR 16))%C = RtoC (IZR (n + 16))). { rewrite plus_IZR, RtoC_plus. do 2 f_equal. simpl. lra. } rewrite E16, <- RtoC_mult, <- mult_IZR. set (t := (n + 16)%Z). assert (Ht : (17 <= t <= 24)%Z) by (unfold t; lia). clearbody t. clear E16.
  assert (S : forall a t', (1 <= t')%Z -> (t' * (t * t) ^ (Z.of_nat (length a)) < 2 ^ 63)%Z -> exists v, series_int 64 a t' (t * t) = Some v /\ RtoC v = gamma_series (map RtoC a) (RtoC (IZR t')) (RtoC (IZR (t * t)))).
  { induction a as [|c a IH]; intros t' H1 H2; [exists 0; split; reflexivity|]. cbn [series_int map gamma_series length] in *. destruct (Z.eqb_spec t' 0); [lia|]. rewrite Nat2Z.inj_succ, Z.pow_succ_r in H2 by lia.
    assert (P1 : (1 <= (t * t) ^ Z.of_nat (length a))%Z). { assert (0 < (t * t) ^ Z.of_nat (length a))%Z by (apply Z.pow_pos_nonneg; nia). lia. }
    assert (P2 : (t' * (t * t) <= t' * (t * t * (t * t) ^ Z.of_nat (length a)))%Z) by nia. assert (W : wrap 64 (t' * (t * t)) = (t' * (t * t))%Z). { unfold wrap. rewrite Z.mod_small; [lia|]. change (2 ^ (64 - 1))%Z with (2 ^ 63)%Z. change (2 ^ 64)%Z with (2 ^ 63 + 2 ^ 63)%Z. nia. }
    rewrite W. destruct (IH (t' * (t * t))%Z ltac:(nia)) as (v & V1 & V2). { rewrite <- Z.mul_assoc. exact H2. } rewrite V1. eexists. split; [reflexivity|]. rewrite RtoC_plus, V2, <- RtoC_mult, <- mult_IZR. f_equal. rewrite RtoC_div; [reflexivity|]. apply not_0_IZR. auto. }
  destruct (S gamma_a_R t ltac:(lia)) as (v & V1 & V2). { change (Z.of_nat (length gamma_a_R)) with 5%Z. assert (B : (t * t <= 576)%Z) by nia. assert ((t * t) ^ 5 <= 576 ^ 5)%Z by (apply Z.pow_le_mono_l; nia). assert (0 < (t * t) ^ 5)%Z by (apply Z.pow_pos_nonneg; nia). change (2 ^ 63)%Z with 9223372036854775808%Z. assert ((576 ^ 5 = 63403380965376)%Z) by reflexivity. nia. }
  exists v. split; auto.
Qed.
(** with 64-bit integers the value at an integer from 1 to 8 is that of the real argument, the factorial to 2.1e-11 *)
Theorem C69_integers_partial : forall n, (1 <= n <= 8)%Z -> exists v, gamma_int 64 n = Some v /\ gamma_ (RtoC (IZR n)) = Some (RtoC v) /\ Rabs (v - INR (fact (Z.to_nat n - 1))) <= 2.1e-11 * INR (fact (Z.to_nat n - 1)).
Proof.
  intros n Hn. destruct (series_ok n Hn) as (s & S1 & S2). assert (P : prod_int 64 n = prodZ n (seq 0 16)).
  { assert (D : (n = 1 \/ n = 2 \/ n = 3 \/ n = 4 \/ n = 5 \/ n = 6 \/ n = 7 \/ n = 8)%Z) by lia. destruct D as [->|[->|[->|[->|[->|[->|[->| ->]]]]]]]; vm_compute; reflexivity. }
  destruct (gamma_int_value n s ltac:(lia) P S1 S2) as (w & W1 & W2). exists w. split; auto. split; auto.
  assert (Pn : 0 < Re (RtoC (IZR n))) by (apply (IZR_lt 0); lia). destruct (gamma_accuracy _ Pn) as (g & v & A1 & A2 & _ & A4). rewrite W2 in A2. injection A2 as <-. set (m := (Z.to_nat n - 1)%nat) in *.
  pose proof (is_Gamma_fact m) as F. replace (INR m + 1) with (IZR n) in F. 2:{ rewrite INR_IZR_INZ. unfold m. rewrite <- (plus_IZR _ 1). f_equal. lia. }
  rewrite (Gamma_unique _ _ _ A1 F), <- RtoC_minus, !Cmod_R in A4. rewrite (Rabs_pos_eq (INR (fact m))) in A4 by apply pos_INR. exact A4.
Qed.
Print Assumptions C69_integers_partial.
(** the product of the sixteen factors overflows: with 32-bit integers already at 2, where [magnification_limb2] needs the value,
    and with 64-bit integers at 9 *)
Theorem C69_integers_refuted : gamma_int 32 2 = None /\ gamma_int 64 9 = None.
Proof.
  assert (G : forall b n, nlog (prod_int b n) = None -> gamma_int b n = None). { intros b n H. unfold gamma_int. rewrite H. destruct (nlog (wrap b (n + 16))); reflexivity. }
  split; apply G; unfold nlog; [change (prod_int 32 2) with (-288522240)%Z|]; [reflexivity|]. replace (0 <? prod_int 64 9)%Z with false by (vm_compute; reflexivity). reflexivity.
Qed.
Print Assumptions C69_integers_refuted.
