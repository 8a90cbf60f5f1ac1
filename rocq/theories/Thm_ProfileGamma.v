(** Source profiles: the factor [gamma nu] of the jax classes and the profiles in position space (C65). *)
From Coq Require Import Reals List Bool Arith ZArith Lia Lra.
From Coquelicot Require Import Coquelicot.
From Verif Require Import Base_R Base_C Base_List M_Fftlog M_Special M_MagFft M_MagCurve S_MagCurve S_Profile P_Profile P_MagSamples P_Profile2 M_Bessel S_Bessel M_Kernels P_Kernels S_Gamma P_Stirling P_Gamma P_Sine P_GammaKer Thm_Profile.
Import ListNotations.
Local Open Scope R_scope.

(** ** the gamma function on the positive axis is real and positive *)
Lemma rising_real x : 0 < x -> forall n, exists r, 0 < r /\ rising n (RtoC x) = RtoC r.
Proof.
  intros Hx. induction n as [|n (r & Hr & E)]; [exists x; split; auto|]. exists (r * (x + INR (S n))). split.
  - pose proof (pos_INR (S n)). apply Rmult_lt_0_compat; lra.
  - cbn [rising]. rewrite E, <- RtoC_plus, <- RtoC_mult. reflexivity.
Qed.
Lemma gauss_real x n : 0 < x -> exists r, 0 < r /\ gauss (RtoC x) n = RtoC r.
Proof.
  intros Hx. destruct (rising_real x Hx n) as (r & Hr & E). exists (INR (fact n) * exp (x * ln (INR n)) / r). split.
  - apply Rdiv_lt_0_compat; auto. apply Rmult_lt_0_compat; [apply INR_fact_lt_0|apply exp_pos].
  - unfold gauss. rewrite E. unfold rpow. cbn [Re Im RtoC fst snd]. rewrite Rmult_0_l, cos_0, sin_0, Rmult_1_r, Rmult_0_r. change ((exp (x * ln (INR n)), 0) : C) with (RtoC (exp (x * ln (INR n)))).
    unfold Rdiv. rewrite !RtoC_mult, RtoC_inv by lra. reflexivity.
Qed.
Lemma gamma_real_pos x g : 0 < x -> is_Gamma (RtoC x) g -> exists r, 0 <= r /\ g = RtoC r.
Proof.
  intros Hx H. exists (Re g). assert (Im0 : Im g = 0).
  { destruct (Req_dec (Im g) 0) as [|N]; auto. exfalso. destruct (H (Rabs (Im g)) (Rabs_pos_lt _ N)) as (M & L). specialize (L M (le_n _)). destruct (gauss_real x M Hx) as (r & _ & E). rewrite E in L.
    pose proof (proj2 (comp_le (RtoC r - g)%C)) as B. change (Im (RtoC r - g)%C) with (0 + - Im g) in B. rewrite Rplus_0_l, Rabs_Ropp in B. lra. }
  split; [|destruct g as [a b]; cbn in Im0; subst b; reflexivity].
  destruct (Rle_lt_dec 0 (Re g)) as [|N]; auto. exfalso. destruct (H (- Re g) ltac:(lra)) as (M & L). specialize (L M (le_n _)). destruct (gauss_real x M Hx) as (r & Pr & E). rewrite E in L.
  pose proof (proj1 (comp_le (RtoC r - g)%C)) as B. change (Re (RtoC r - g)%C) with (r + - Re g) in B. rewrite Rabs_pos_eq in B by lra. lra.
Qed.
Lemma gamma_real_value x g : 0 < x -> is_Gamma (RtoC x) (RtoC g) -> exists v, gamma_ (RtoC x) = Some (RtoC v) /\ Rabs (v - g) <= 2.1e-11 * Rabs g.
Proof.
  intros Hx H. destruct (gamma_accuracy (RtoC x) Hx) as (g' & v & A1 & A2 & A3 & A4). rewrite (Gamma_unique _ _ _ A1 H) in A4.
  destruct (gamma_conj (RtoC x) Hx) as (w & B1 & B2 & _). replace (Cconj (RtoC x)) with (RtoC x) in B2 by (unfold Cconj, RtoC; cbn; f_equal; ring). rewrite A2 in B1, B2. injection B1 as <-. injection B2 as B2.
  assert (I : Im v = 0). { apply (f_equal Im) in B2. cbn in B2. change (Im v = - Im v) in B2. lra. }
  exists (Re v). destruct v as [a b]. cbn in I. subst b. split; [exact A2|]. change ((a, 0) : C) with (RtoC a) in A4. rewrite <- RtoC_minus, !Cmod_R in A4. exact A4.
Qed.
Lemma gamma_3_2 : is_Gamma (RtoC 1.5) (RtoC (sqrt PI / 2)).
Proof.
  destruct (gamma_accuracy (RtoC (1 / 2)) ltac:(change (0 < 1 / 2); lra)) as (g & _ & G & _). destruct (gamma_real_pos (1 / 2) g ltac:(lra) G) as (r & Hr & ->).
  pose proof (is_Gamma_half _ G) as E. rewrite <- RtoC_mult in E. apply RtoC_inj in E. assert (Er : r = sqrt PI). { rewrite <- E. rewrite sqrt_square; auto. }
  replace (RtoC 1.5) with (RtoC (1 / 2) + RtoC 1)%C by (rewrite <- RtoC_plus; f_equal; lra). replace (RtoC (sqrt PI / 2)) with (RtoC (1 / 2) * RtoC r)%C by (rewrite <- RtoC_mult; f_equal; lra).
  apply is_Gamma_step; auto. intros k F. apply RtoC_inj in F. pose proof (pos_INR k). lra.
Qed.
Lemma gamma_2 : is_Gamma (RtoC 2) (RtoC 1).
Proof. pose proof (is_Gamma_fact 1) as H. replace (INR 1 + 1) with 2 in H by (simpl; lra). replace (INR (fact 1)) with 1 in H by (simpl; lra). exact H. Qed.

(** with the value of the gamma function that the code computes, the jax square-root profile is the transform up to the relative error
    2.1e-11, and the jax quadratic profile is within that and the error of [j2] divided by the square of its argument *)
Theorem C65_jax_gamma_partial : exists g15 g2, gamma_ (RtoC 1.5) = Some (RtoC g15) /\ gamma_ (RtoC 2) = Some (RtoC g2) /\
  forall k rho, 0 < rho -> (forall q, In q k -> 0 < q) ->
  (exists v, sk_limb1 g15 (map Some k) rho = map Some v /\ Forall2 (fun q v => Rabs (v - transform (root rho) rho q) <= 2.1e-11 * Rabs (transform (root rho) rho q)) k v) /\
  (exists v, sk_limb2 j2v g2 (map Some k) rho = map Some v /\ Forall2 (fun q v => Rabs (v - transform (quadratic rho) rho q) <= 2.1e-11 * Rabs (transform (quadratic rho) rho q) + 6.1e-13 / (q * rho) ^ 2) k v).
Proof.
  pose proof PI_RGT_0 as Hpi. pose proof (sqrt_lt_R0 PI Hpi) as Sp. destruct (gamma_real_value 1.5 _ ltac:(lra) gamma_3_2) as (g15 & A1 & A2). destruct (gamma_real_value 2 _ ltac:(lra) gamma_2) as (g2 & B1 & B2).
  exists g15, g2. split; [exact A1|]. split; [exact B1|]. intros k rho Hr Hk. destruct (C65_jax_partial g15 k rho Hr Hk) as (_ & P1 & _). destruct (C65_jax_partial g2 k rho Hr Hk) as (_ & _ & v & P2 & P3). rewrite Rabs_R1, Rmult_1_r in B2. split.
  - eexists. split; [exact P1|]. apply Forall2_map_r. intros q Hq. set (T := transform (root rho) rho q). replace (g15 / (sqrt PI / 2) * T - T) with ((g15 - sqrt PI / 2) / (sqrt PI / 2) * T) by (field; lra).
    rewrite Rabs_mult. apply Rmult_le_compat_r; [apply Rabs_pos|]. unfold Rdiv at 1. rewrite Rabs_mult, Rabs_inv. rewrite (Rabs_pos_eq (sqrt PI / 2)) in * by lra. apply (Rmult_le_reg_r (sqrt PI / 2)); [lra|]. rewrite Rmult_assoc, Rinv_l, Rmult_1_r by lra. exact A2.
  - exists v. split; [exact P2|]. clear P2 P1. revert Hk. induction P3 as [|q w l l' H P IH]; intros Hk; constructor; [|apply IH; intros; apply Hk; right; auto].
    specialize (Hk q (or_introl eq_refl)). set (T := transform (quadratic rho) rho q) in *. assert (Hx : 0 < (q * rho) ^ 2) by (apply pow_lt, Rmult_lt_0_compat; auto).
    replace (w - T) with ((w - g2 * T) + (g2 - 1) * T) by ring. eapply Rle_trans; [apply Rabs_triang|]. rewrite Rabs_mult. assert (Rabs (g2 - 1) * Rabs T <= 2.1e-11 * Rabs T) by (apply Rmult_le_compat_r; [apply Rabs_pos|lra]).
    assert (Hg : Rabs g2 <= 1.01) by (apply Rabs_le; apply Rabs_le_between in B2; lra). assert (Rabs g2 * 6e-13 / (q * rho) ^ 2 <= 6.1e-13 / (q * rho) ^ 2); [|lra].
    apply Rmult_le_compat_r; [left; apply Rinv_0_lt_compat; auto|]. lra.
Qed.
Print Assumptions C65_jax_gamma_partial.

(** [su] in position space: the linear law inside the disc, nothing outside; [mag_limb1] divides by its value at the first grid point,
    which is [nan] everywhere if the grid starts outside the disc *)
Theorem C65_su : forall a1 rho u, 0 < rho -> (forall x, In x u -> 0 <= x) ->
  su_limb a1 rho u = map (fun x => Some (if Rlt_dec x rho then linear a1 rho x else 0)) u.
Proof.
  intros a1 rho u Hr Hu. unfold su_limb. apply map_ext_in. intros x Hx. specialize (Hu x Hx). f_equal. unfold su_linear. destruct (Rltb_spec x rho); destruct (Rlt_dec x rho); try lra. unfold linear. do 3 f_equal. f_equal.
  replace (x ^ 2 / rho ^ 2) with ((x / rho) ^ 2) by (field; lra). apply Rabs_pos_eq. assert (0 <= x / rho < 1). { split; [apply Rdiv_le_0_compat; lra|]. apply (Rmult_lt_reg_r rho); auto. unfold Rdiv. rewrite Rmult_assoc, Rinv_l; lra. } nra.
Qed.
Print Assumptions C65_su.
Theorem C65_su_first : forall a1 rho x u, 0 < a1 < 1 -> 0 < rho -> (forall y, In y (x :: u) -> 0 <= y) ->
  (x < rho -> su_limb1 a1 rho (x :: u) = map (fun y => Some ((if Rlt_dec y rho then linear a1 rho y else 0) / linear a1 rho x)) (x :: u)) /\
  (rho <= x -> su_limb1 a1 rho (x :: u) = map (fun _ => None) (x :: u)).
Proof.
  intros a1 rho x u Ha Hr Hu. pose proof (C65_su a1 rho (x :: u) Hr Hu) as E. assert (E1 : forall y, In y (x :: u) -> su_linear a1 rho y = if Rlt_dec y rho then linear a1 rho y else 0).
  { intros y Hy. unfold su_limb in E. assert (Ez : forall l : list R, map (fun u => Some (su_linear a1 rho u)) l = map (fun x => Some (if Rlt_dec x rho then linear a1 rho x else 0)) l -> In y l -> su_linear a1 rho y = if Rlt_dec y rho then linear a1 rho y else 0).
    { induction l as [|z l IH]; intros F I; [destruct I|]. cbn [map] in F. injection F as F1 F2. destruct I as [<-|I]; auto. } apply (Ez _ E Hy). }
  unfold su_limb1. rewrite map_map. cbn [map nth]. fold (map (A := R) (B := R)). change (su_linear a1 rho x :: map (su_linear a1 rho) u) with (map (su_linear a1 rho) (x :: u)).
  assert (E0 := E1 x (or_introl eq_refl)). split; intros Hx; (destruct (Rlt_dec x rho) as [L|L]; [|try lra]); try lra.
  - assert (P : 0 < linear a1 rho x) by (unfold linear; pose proof (sqrt_pos (1 - (x / rho) ^ 2)); nra). 
    assert (G : forall y, In y (x :: u) -> ndiv (Some (su_linear a1 rho y)) (Some (su_linear a1 rho x)) = Some ((if Rlt_dec y rho then linear a1 rho y else 0) / linear a1 rho x)).
    { intros y Hy. rewrite E0, (E1 y Hy). cbn. destruct (Reqb_spec (linear a1 rho x) 0); [lra|reflexivity]. }
    f_equal; [rewrite (G x (or_introl eq_refl)); destruct (Rlt_dec x rho); [reflexivity|lra]|]. apply map_ext_in. intros y Hy. apply G. right. auto.
  - assert (G : forall v, ndiv (Some v) (Some (su_linear a1 rho x)) = None) by (intros v; rewrite E0; cbn; destruct (Reqb_spec 0 0); [reflexivity|lra]).
    f_equal; [apply G|]. apply map_ext. intros y. apply G.
Qed.
Print Assumptions C65_su_first.
(** a source of radius 0.1 at radius 0.06: the linear law gives [1 - a1 / 5]; a grid that starts at 1 gives nothing *)
Example C65_su_case : su_limb 0.5 0.1 [0.06; 0.2] = [Some 0.9; Some 0] /\ su_limb1 0.5 0.1 [1; 2] = [None; None].
Proof.
  split.
  - rewrite C65_su; [|lra|intros x [<-|[<-|[]]]; lra]. cbn [map]. destruct (Rlt_dec 0.06 0.1); [|lra]. destruct (Rlt_dec 0.2 0.1); [lra|]. unfold linear. replace (1 - (0.06 / 0.1) ^ 2) with (0.8 * 0.8) by lra. rewrite sqrt_square by lra. do 2 f_equal. lra.
  - apply (C65_su_first 0.5 0.1 1 [2]); [lra|lra|intros x [<-|[<-|[]]]; lra|lra].
Qed.
