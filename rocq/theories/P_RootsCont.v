(** The roots of a polynomial, with multiplicity, depend continuously on the coefficients (C75). *)
From Coq Require Import Reals List Lra Lia Permutation Classical.
From Coquelicot Require Import Complex.
From Verif Require Import Base_R Base_List Base_C S_Poly P_Poly P_PolyRoots.
Import ListNotations.
Local Open Scope R_scope.

(** entry by entry closer than [d] *)
Definition near (d : R) (l l' : list C) : Prop := Forall2 (fun x y => Cmod (y - x)%C < d) l l'.
Lemma near_length d l l' : near d l l' -> length l = length l'.
Proof. intros N. induction N; cbn; auto. Qed.
Lemma near_mono d e l l' : d <= e -> near d l l' -> near e l l'.
Proof. intros H N. unfold near in *. induction N; constructor; auto. lra. Qed.

Lemma mult_near (x y : C) eps : 0 < eps -> exists d, 0 < d /\ forall x' y', Cmod (x' - x)%C < d -> Cmod (y' - y)%C < d -> Cmod (x' * y' - x * y)%C < eps.
Proof.
  intros He. pose proof (Cmod_ge_0 x) as X0. pose proof (Cmod_ge_0 y) as Y0. set (k := Cmod x + Cmod y + 1). set (d := Rmin 1 (eps / (2 * k))). assert (Hk : 1 <= k) by (unfold k; lra).
  assert (Hq : 0 < eps / (2 * k)) by (apply Rdiv_lt_0_compat; lra). assert (Hd : 0 < d) by (apply Rmin_glb_lt; lra). assert (D1 : d <= 1) by apply Rmin_l. assert (D2 : d * k <= eps / 2).
  { apply Rle_trans with (eps / (2 * k) * k); [apply Rmult_le_compat_r; [lra|apply Rmin_r]|]. right. field. lra. }
  exists d. split; auto. intros x' y' Hx Hy. replace (x' * y' - x * y)%C with ((x' - x) * (y' - y) + ((x' - x) * y + x * (y' - y)))%C by ring.
  eapply Rle_lt_trans; [apply Cmod_triangle|]. pose proof (Cmod_triangle ((x' - x) * y)%C (x * (y' - y))%C) as T. rewrite !Cmod_mult in *. pose proof (Cmod_ge_0 (x' - x)%C). pose proof (Cmod_ge_0 (y' - y)%C).
  assert (Cmod (x' - x)%C * Cmod (y' - y)%C <= d * 1) by (apply Rmult_le_compat; lra). assert (Cmod (x' - x)%C * Cmod y <= d * Cmod y) by (apply Rmult_le_compat_r; lra). assert (Cmod x * Cmod (y' - y)%C <= Cmod x * d) by (apply Rmult_le_compat_l; lra). unfold k in D2. nra.
Qed.
Lemma plus_near (x y : C) d x' y' : Cmod (x' - x)%C < d -> Cmod (y' - y)%C < d -> Cmod (x' + y' - (x + y))%C < 2 * d.
Proof. intros Hx Hy. replace (x' + y' - (x + y))%C with ((x' - x) + (y' - y))%C by ring. eapply Rle_lt_trans; [apply Cmod_triangle|]. lra. Qed.

Lemma peval_near cs z eps : 0 < eps -> exists d, 0 < d /\ forall cs', near d cs cs' -> Cmod (peval cs' z - peval cs z)%C < eps.
Proof.
  revert eps. induction cs as [|c cs IH]; intros eps He.
  - exists 1. split; [lra|]. intros cs' N. inversion N; subst. cbn. replace (RtoC 0 - RtoC 0)%C with (RtoC 0) by ring. now rewrite Cmod_0.
  - destruct (IH (eps / 2) ltac:(lra)) as (d1 & H1 & K1). destruct (mult_near c (z ^ length cs)%C (eps / 2) ltac:(lra)) as (d2 & H2 & K2). exists (Rmin d1 d2). split; [now apply Rmin_glb_lt|]. intros cs' N. inversion N as [|a b l l' Hab Hl]; subst.
    assert (Ll : length l' = length cs) by (symmetry; apply (near_length _ _ _ Hl)). cbn [peval]. rewrite Ll. 
    assert (Cmod (b * z ^ length cs - c * z ^ length cs)%C < eps / 2). { apply K2; [eapply Rlt_le_trans; [exact Hab|apply Rmin_r]|]. replace (z ^ length cs - z ^ length cs)%C with (RtoC 0) by ring. now rewrite Cmod_0. }
    assert (Cmod (peval l' z - peval cs z)%C < eps / 2) by (apply K1; eapply near_mono; [apply Rmin_l|exact Hl]).
    pose proof (plus_near _ _ (eps / 2) _ _ H H0). lra.
Qed.
Lemma qd_near t : forall r b eps, 0 < eps -> exists d, 0 < d /\ forall r' b' t', Cmod (r' - r)%C < d -> Cmod (b' - b)%C < d -> near d t t' -> near eps (qd r b t) (qd r' b' t').
Proof.
  induction t as [|c t IH]; intros r b eps He.
  - exists eps. split; auto. intros r' b' t' _ _ N. inversion N; subst. constructor.
  - destruct (IH r (b * r + c)%C eps He) as (d1 & H1 & K1). destruct (mult_near b r (d1 / 2) ltac:(lra)) as (d2 & H2 & K2). exists (Rmin (Rmin (d1 / 2) d2) eps). assert (Hm : 0 < Rmin (Rmin (d1 / 2) d2) eps) by (repeat apply Rmin_glb_lt; lra). split; auto.
    intros r' b' t' Hr Hb N. inversion N as [|a c' l l' Hac Hl]; subst. pose proof (Rmin_l (Rmin (d1 / 2) d2) eps). pose proof (Rmin_r (Rmin (d1 / 2) d2) eps). pose proof (Rmin_l (d1 / 2) d2). pose proof (Rmin_r (d1 / 2) d2).
    cbn [qd]. constructor; [lra|]. apply K1; [lra| |eapply near_mono; [|exact Hl]; lra].
    assert (Cmod (b' * r' - b * r)%C < d1 / 2) by (apply K2; lra). assert (Cmod (c' - c)%C < d1 / 2) by lra. pose proof (plus_near _ _ (d1 / 2) _ _ H5 H6). lra.
Qed.
Lemma prod_lower (z : C) rs eta : 0 < eta -> (forall r, In r rs -> eta <= Cmod (z - r)%C) -> eta ^ length rs <= Cmod (prodC (map (fun r => z - r)%C rs)).
Proof.
  intros He. induction rs as [|r rs IH]; intros H; cbn [map prodC length pow]; [rewrite Cmod_1; lra|]. rewrite Cmod_mult. apply Rmult_le_compat; [lra|left; apply pow_lt; auto|apply H; now left|]. apply IH. intros x Hx. apply H. now right.
Qed.
Theorem roots_near n : forall cs rs eps, length cs = S n -> hd (RtoC 0) cs <> RtoC 0 -> splits cs rs -> 0 < eps ->
  exists d, 0 < d /\ forall cs' rs', near d cs cs' -> splits cs' rs' -> exists rs'', Permutation rs' rs'' /\ near eps rs rs''.
Proof.
  induction n as [|n IH]; intros cs rs eps Hl Hh Hs He.
  - destruct cs as [|b [|]]; try discriminate. cbn in Hh. pose proof (splits_length [b] rs Hh Hs) as L0. cbn in L0. destruct rs; [|discriminate]. assert (Pb : 0 < Cmod b) by now apply Cmod_gt_0.
    exists (Cmod b). split; auto. intros cs' rs' N S'. inversion N as [|x y l l' Hxy Hl']; subst. inversion Hl'; subst.
    assert (Ny : y <> RtoC 0). { intros ->. replace (RtoC 0 - b)%C with (- b)%C in Hxy by ring. rewrite Cmod_opp in Hxy. lra. }
    pose proof (splits_length [y] rs' Ny S') as L1. cbn in L1. destruct rs'; [|discriminate]. exists []. split; constructor.
  - destruct cs as [|b [|c t]]; try discriminate. cbn in Hh. pose proof (splits_length (b :: c :: t) rs Hh Hs) as L0. cbn in L0. destruct rs as [|r rs]; [discriminate|].
    assert (Pb : 0 < Cmod b) by now apply Cmod_gt_0. assert (Z : peval (b :: c :: t) r = RtoC 0) by (rewrite Hs; cbn; ring).
    destruct (IH (qd r b (c :: t)) rs eps) as (d1 & H1 & K1); auto; [rewrite qd_length; cbn in *; lia|now apply splits_qd|].
    destruct (qd_near (c :: t) r b d1 H1) as (d2 & H2 & K2). set (eta := Rmin d2 eps). assert (Het : 0 < eta) by (apply Rmin_glb_lt; auto).
    assert (Hpow : 0 < Cmod b / 2 * eta ^ S n) by (apply Rmult_lt_0_compat; [lra|now apply pow_lt]).
    destruct (peval_near (b :: c :: t) r _ Hpow) as (d3 & H3 & K3).
    exists (Rmin (Rmin d2 d3) (Cmod b / 2)). split; [repeat apply Rmin_glb_lt; lra|]. intros cs' rs' N S'. pose proof (Rmin_l (Rmin d2 d3) (Cmod b / 2)). pose proof (Rmin_r (Rmin d2 d3) (Cmod b / 2)). pose proof (Rmin_l d2 d3). pose proof (Rmin_r d2 d3).
    specialize (K3 cs' ltac:(eapply near_mono; [|exact N]; lra)). rewrite Z in K3. replace (peval cs' r - RtoC 0)%C with (peval cs' r) in K3 by ring.
    inversion N as [|x b' l ct' Hb' Hct]; subst. inversion Hct as [|x2 c' l2 t' Hc' Ht]; subst.
    assert (Lb : Cmod b / 2 <= Cmod b'). { pose proof (Cmod_triangle (b - b')%C b') as T. replace (b - b' + b')%C with b in T by ring. replace (Cmod (b - b')%C) with (Cmod (b' - b)%C) in T by (rewrite <- Cmod_opp; f_equal; ring). lra. }
    assert (Nb : b' <> RtoC 0) by (apply Cmod_gt_0; lra). pose proof (splits_length (b' :: c' :: t') rs' Nb S') as L1. cbn in L1.
    assert (Lt : length t' = length t) by (symmetry; apply (near_length _ _ _ Ht)).
    assert (Near : exists r', In r' rs' /\ Cmod (r - r')%C < eta).
    { apply NNPP. intros No. assert (Lo : eta ^ length rs' <= Cmod (prodC (map (fun x => r - x)%C rs'))). { apply prod_lower; auto. intros x Hx. apply Rnot_lt_le. intros Hlt. apply No. exists x. auto. }
      rewrite S' in K3. cbn [hd] in K3. rewrite Cmod_mult in K3. replace (length rs') with (S n) in Lo by (cbn in Hl; lia). assert (Cmod b / 2 * eta ^ S n <= Cmod b' * Cmod (prodC (map (fun x => (r - x)%C) rs'))) by (apply Rmult_le_compat; [lra|left; now apply pow_lt|auto|auto]). lra. }
    destruct Near as (r' & Hin & Hr). apply in_split in Hin as (l1 & l3 & ->). assert (Pm : Permutation (l1 ++ r' :: l3) (r' :: l1 ++ l3)) by (symmetry; apply Permutation_middle).
    pose proof (splits_perm _ _ _ Pm S') as S2. apply splits_qd in S2. replace (Cmod (r - r')%C) with (Cmod (r' - r)%C) in Hr by (rewrite <- Cmod_opp; f_equal; ring). assert (E1 : eta <= d2) by apply Rmin_l. assert (E2 : eta <= eps) by apply Rmin_r.
    assert (Nq : near d1 (qd r b (c :: t)) (qd r' b' (c' :: t'))). { apply K2; [lra|lra|]. constructor; [lra|]. eapply near_mono; [|exact Ht]. lra. }
    destruct (K1 _ _ Nq S2) as (rs'' & P'' & N''). exists (r' :: rs''). split; [eapply Permutation_trans; [exact Pm|now constructor]|]. constructor; [lra|auto].
Qed.
