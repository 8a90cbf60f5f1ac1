(** Continuity at a point, relative to a distance, and of sums over the roots of a polynomial (C75). *)
From Coq Require Import Reals List Lra Lia Permutation Classical.
From Coquelicot Require Import Complex.
From Verif Require Import Base_R Base_List Base_C S_Poly P_Poly P_PolyRoots P_RootsCont.
Import ListNotations.
Local Open Scope R_scope.

(** ** continuity of functions of a parameter [t] at [t0]; [dist t] measures how far [t] is from [t0] *)
Section At.
Context {T : Type} (dist : T -> R) (t0 : T).
Definition nbh (P : T -> Prop) : Prop := exists d, 0 < d /\ forall t, dist t < d -> P t.
Definition rc (u : T -> R) : Prop := forall eps, 0 < eps -> nbh (fun t => Rabs (u t - u t0) < eps).
Definition cc (u : T -> C) : Prop := forall eps, 0 < eps -> nbh (fun t => Cmod (u t - u t0)%C < eps).
Definition lc (u : T -> list C) : Prop := forall eps, 0 < eps -> nbh (fun t => near eps (u t0) (u t)).
Lemma nbh_and P Q : nbh P -> nbh Q -> nbh (fun t => P t /\ Q t).
Proof.
  intros (d & Hd & H) (e & He & K). exists (Rmin d e). split; [now apply Rmin_glb_lt|]. intros t Ht.
  pose proof (Rmin_l d e). pose proof (Rmin_r d e). split; [apply H|apply K]; lra.
Qed.
Lemma nbh_imp (P Q : T -> Prop) : (forall t, P t -> Q t) -> nbh P -> nbh Q.
Proof. intros I (d & Hd & H). exists d. split; auto. Qed.
Lemma nbh_true (P : T -> Prop) : (forall t, P t) -> nbh P.
Proof. intros H. exists 1. split; [lra|auto]. Qed.

Lemma rc_const c : rc (fun _ => c).
Proof. intros e He. apply nbh_true. intros _. replace (c - c) with 0 by ring. rewrite Rabs_R0. lra. Qed.
Lemma rc_plus u v : rc u -> rc v -> rc (fun t => u t + v t).
Proof.
  intros U V e He. assert (0 < e / 2) as H2 by lra. eapply nbh_imp; [|apply nbh_and; [apply (U _ H2)|apply (V _ H2)]]. intros t (A & B). cbv beta.
  replace (u t + v t - (u t0 + v t0)) with ((u t - u t0) + (v t - v t0)) by ring. pose proof (Rabs_triang (u t - u t0) (v t - v t0)). lra.
Qed.
Lemma rc_opp u : rc u -> rc (fun t => - u t).
Proof. intros U e He. eapply nbh_imp; [|apply (U _ He)]. intros t A. cbv beta. replace (- u t - - u t0) with (- (u t - u t0)) by ring. now rewrite Rabs_Ropp. Qed.
Lemma rc_minus u v : rc u -> rc v -> rc (fun t => u t - v t).
Proof. intros U V. apply (rc_plus u (fun t => - v t)); auto. now apply rc_opp. Qed.
Lemma rc_comp (f : R -> R) u : continuity_pt f (u t0) -> rc u -> rc (fun t => f (u t)).
Proof.
  intros F U e He. destruct (F e He) as (d & Hd & K). eapply nbh_imp; [|apply (U _ Hd)]. intros t A. cbv beta.
  destruct (Req_dec (u t) (u t0)) as [E|N]; [rewrite E; replace (f (u t0) - f (u t0)) with 0 by ring; rewrite Rabs_R0; lra|].
  apply K. split; [split; [exact I|auto]|exact A].
Qed.

Lemma cc_const c : cc (fun _ => c).
Proof. intros e He. apply nbh_true. intros _. replace (c - c)%C with (RtoC 0) by ring. rewrite Cmod_0. lra. Qed.
Lemma cc_plus u v : cc u -> cc v -> cc (fun t => u t + v t)%C.
Proof.
  intros U V e He. assert (0 < e / 2) as H2 by lra. eapply nbh_imp; [|apply nbh_and; [apply (U _ H2)|apply (V _ H2)]]. intros t (A & B). cbv beta.
  replace e with (2 * (e / 2)) by lra. now apply plus_near.
Qed.
Lemma cc_opp u : cc u -> cc (fun t => - u t)%C.
Proof. intros U e He. eapply nbh_imp; [|apply (U _ He)]. intros t A. cbv beta. replace (- u t - - u t0)%C with (- (u t - u t0))%C by ring. now rewrite Cmod_opp. Qed.
Lemma cc_minus u v : cc u -> cc v -> cc (fun t => u t - v t)%C.
Proof. intros U V. apply (cc_plus u (fun t => - v t)%C); auto. now apply cc_opp. Qed.
Lemma cc_mult u v : cc u -> cc v -> cc (fun t => u t * v t)%C.
Proof.
  intros U V e He. destruct (mult_near (u t0) (v t0) e He) as (d & Hd & K). eapply nbh_imp; [|apply nbh_and; [apply (U _ Hd)|apply (V _ Hd)]]. intros t (A & B). now apply K.
Qed.
Lemma cc_pow u n : cc u -> cc (fun t => u t ^ n)%C.
Proof. intros U. induction n; cbn; [apply cc_const|]. now apply cc_mult. Qed.
Lemma cc_inv u : u t0 <> RtoC 0 -> cc u -> cc (fun t => / u t)%C.
Proof.
  intros N U e He. apply Cmod_gt_0 in N. set (m := Cmod (u t0)) in *.
  assert (H1 : 0 < Rmin (m / 2) (e * (m * m) / 2)) by (apply Rmin_glb_lt; [lra|]; apply Rdiv_lt_0_compat; [|lra]; repeat apply Rmult_lt_0_compat; lra).
  eapply nbh_imp; [|apply (U _ H1)]. intros t A. cbv beta in A |- *.
  pose proof (Rmin_l (m / 2) (e * (m * m) / 2)) as L. pose proof (Rmin_r (m / 2) (e * (m * m) / 2)) as R.
  assert (B : m / 2 < Cmod (u t)).
  { pose proof (Cmod_triangle (u t) (u t0 - u t)%C) as Tr. replace (u t + (u t0 - u t))%C with (u t0) in Tr by ring. fold m in Tr.
    replace (u t0 - u t)%C with (- (u t - u t0))%C in Tr by ring. rewrite Cmod_opp in Tr. lra. }
  assert (N1 : u t <> RtoC 0) by (intros E; rewrite E, Cmod_0 in B; lra).
  assert (N0 : u t0 <> RtoC 0) by (apply Cmod_gt_0; exact N).
  replace (/ u t - / u t0)%C with (- (u t - u t0) / (u t * u t0))%C by (field; auto).
  rewrite Cmod_div by (apply Cmult_neq_0; auto). rewrite Cmod_opp, Cmod_mult. fold m.
  apply Rmult_lt_reg_r with (Cmod (u t) * m); [apply Rmult_lt_0_compat; lra|]. unfold Rdiv. rewrite Rmult_assoc, Rinv_l by (apply Rgt_not_eq; apply Rmult_lt_0_compat; lra).
  assert (m / 2 * m <= Cmod (u t) * m) by (apply Rmult_le_compat_r; lra). assert (e * (m / 2 * m) <= e * (Cmod (u t) * m)) by (apply Rmult_le_compat_l; lra). lra.
Qed.
Lemma cc_div u v : v t0 <> RtoC 0 -> cc u -> cc v -> cc (fun t => u t / v t)%C.
Proof. intros N U V. apply (cc_mult u (fun t => / v t)%C); auto. now apply cc_inv. Qed.
Lemma cc_conj u : cc u -> cc (fun t => Cconj (u t)).
Proof. intros U e He. eapply nbh_imp; [|apply (U _ He)]. intros t A. cbv beta. replace (Cconj (u t) - Cconj (u t0))%C with (Cconj (u t - u t0)%C) by (unfold Cconj, Cminus, Cplus, Copp; cbn; f_equal; ring). now rewrite Cmod_conj. Qed.
Lemma cc_R u : rc u -> cc (fun t => RtoC (u t)).
Proof. intros U e He. eapply nbh_imp; [|apply (U _ He)]. intros t A. cbv beta. rewrite <- RtoC_minus, Cmod_R. exact A. Qed.
Lemma cc_pair u v : rc u -> rc v -> cc (fun t => (u t, v t)).
Proof.
  intros U V. assert (E : forall t, (u t, v t) = (RtoC (u t) + Ci * RtoC (v t))%C) by (intros t; unfold RtoC, Ci, Cplus, Cmult; cbn; f_equal; ring).
  assert (K : cc (fun t => RtoC (u t) + Ci * RtoC (v t))%C) by (apply cc_plus; [|apply cc_mult; [apply cc_const|]]; now apply cc_R).
  intros e He. eapply nbh_imp; [|apply (K e He)]. intros t. cbv beta. now rewrite <- !E.
Qed.
Lemma rc_mod u : cc u -> rc (fun t => Cmod (u t)).
Proof.
  intros U e He. eapply nbh_imp; [|apply (U _ He)]. intros t A. cbv beta in *.
  pose proof (Cmod_triangle (u t - u t0)%C (u t0)) as T1. replace (u t - u t0 + u t0)%C with (u t) in T1 by ring.
  pose proof (Cmod_triangle (- (u t - u t0))%C (u t)) as T2. replace (- (u t - u t0) + u t)%C with (u t0) in T2 by ring. rewrite Cmod_opp in T2. apply Rabs_def1; lra.
Qed.
Lemma le_mod_re (z : C) : Rabs (fst z) <= Cmod z.
Proof. eapply Rle_trans; [|apply Rmax_Cmod]. apply Rmax_l. Qed.
Lemma le_mod_im (z : C) : Rabs (snd z) <= Cmod z.
Proof. eapply Rle_trans; [|apply Rmax_Cmod]. apply Rmax_r. Qed.
Lemma rc_re u : cc u -> rc (fun t => Re (u t)).
Proof. intros U e He. eapply nbh_imp; [|apply (U _ He)]. intros t A. cbv beta in *. eapply Rle_lt_trans; [|exact A]. apply (le_mod_re (u t - u t0)%C). Qed.
Lemma rc_im u : cc u -> rc (fun t => Im (u t)).
Proof. intros U e He. eapply nbh_imp; [|apply (U _ He)]. intros t A. cbv beta in *. eapply Rle_lt_trans; [|exact A]. apply (le_mod_im (u t - u t0)%C). Qed.
Lemma rc_mult u v : rc u -> rc v -> rc (fun t => u t * v t).
Proof.
  intros U V. assert (K : rc (fun t => Re (RtoC (u t) * RtoC (v t))%C)) by (apply rc_re, cc_mult; now apply cc_R).
  intros e He. eapply nbh_imp; [|apply (K e He)]. intros t. cbv beta. unfold Re, Cmult, RtoC; cbn. now rewrite !Rmult_0_l, !Rminus_0_r.
Qed.
Lemma rc_inv u : u t0 <> 0 -> rc u -> rc (fun t => / u t).
Proof. intros N. apply (rc_comp Rinv). apply (continuity_pt_inv id); [apply derivable_continuous_pt, derivable_pt_id|exact N]. Qed.
Lemma rc_div u v : v t0 <> 0 -> rc u -> rc v -> rc (fun t => u t / v t).
Proof. intros N U V. apply (rc_mult u (fun t => / v t)); auto. now apply rc_inv. Qed.
Lemma rc_pow u n : rc u -> rc (fun t => u t ^ n).
Proof. intros U. induction n; cbn; [apply rc_const|]. now apply rc_mult. Qed.
Lemma rc_abs u : rc u -> rc (fun t => Rabs (u t)).
Proof. apply (rc_comp Rabs). apply Rcontinuity_abs. Qed.
Lemma rc_cos u : rc u -> rc (fun t => cos (u t)).
Proof. apply (rc_comp cos). apply continuity_cos. Qed.
Lemma rc_sin u : rc u -> rc (fun t => sin (u t)).
Proof. apply (rc_comp sin). apply continuity_sin. Qed.
Lemma rc_below u c : rc u -> u t0 < c -> nbh (fun t => u t < c).
Proof. intros U H. assert (0 < c - u t0) as K by lra. eapply nbh_imp; [|apply (U _ K)]. intros t A. cbv beta in A. apply Rabs_def2 in A. lra. Qed.
Lemma rc_above u c : rc u -> c < u t0 -> nbh (fun t => c < u t).
Proof. intros U H. assert (0 < u t0 - c) as K by lra. eapply nbh_imp; [|apply (U _ K)]. intros t A. cbv beta in A. apply Rabs_def2 in A. lra. Qed.
(** two functions equal near [t0] *)
Lemma rc_ext u v : u t0 = v t0 -> nbh (fun t => u t = v t) -> rc u -> rc v.
Proof. intros E N U e He. eapply nbh_imp; [|apply nbh_and; [exact N|apply (U e He)]]. intros t (A & B). cbv beta in *. now rewrite <- A, <- E. Qed.

Lemma lc_nil : lc (fun _ => []).
Proof. intros e He. apply nbh_true. constructor. Qed.
Lemma lc_cons u l : cc u -> lc l -> lc (fun t => u t :: l t).
Proof. intros U L e He. eapply nbh_imp; [|apply nbh_and; [apply (U e He)|apply (L e He)]]. intros t (A & B). now constructor. Qed.
End At.

Ltac rcc := match goal with
  | |- lc _ _ (fun _ => []) => apply lc_nil
  | |- lc _ _ (fun t => @cons _ (@?u t) (@?l t)) => apply (lc_cons _ _ u l)
  | |- cc _ _ (fun _ => ?c) => apply (cc_const _ _ c)
  | |- cc _ _ (fun t => Cplus (@?u t) (@?v t)) => apply (cc_plus _ _ u v)
  | |- cc _ _ (fun t => Cminus (@?u t) (@?v t)) => apply (cc_minus _ _ u v)
  | |- cc _ _ (fun t => Cmult (@?u t) (@?v t)) => apply (cc_mult _ _ u v)
  | |- cc _ _ (fun t => Cdiv (@?u t) (@?v t)) => apply (cc_div _ _ u v)
  | |- cc _ _ (fun t => Copp (@?u t)) => apply (cc_opp _ _ u)
  | |- cc _ _ (fun t => Cpow (@?u t) ?n) => apply (cc_pow _ _ u n)
  | |- cc _ _ (fun t => Cconj (@?u t)) => apply (cc_conj _ _ u)
  | |- cc _ _ (fun t => RtoC (@?u t)) => apply (cc_R _ _ u)
  | |- cc _ _ (fun t => (@?u t, @?v t)) => apply (cc_pair _ _ u v)
  | |- rc _ _ (fun _ => ?c) => apply (rc_const _ _ c)
  | |- rc _ _ (fun t => Rplus (@?u t) (@?v t)) => apply (rc_plus _ _ u v)
  | |- rc _ _ (fun t => Rminus (@?u t) (@?v t)) => apply (rc_minus _ _ u v)
  | |- rc _ _ (fun t => Rmult (@?u t) (@?v t)) => apply (rc_mult _ _ u v)
  | |- rc _ _ (fun t => Rdiv (@?u t) (@?v t)) => apply (rc_div _ _ u v)
  | |- rc _ _ (fun t => Ropp (@?u t)) => apply (rc_opp _ _ u)
  | |- rc _ _ (fun t => pow (@?u t) ?n) => apply (rc_pow _ _ u n)
  | |- rc _ _ (fun t => Cmod (@?u t)) => apply (rc_mod _ _ u)
  | |- rc _ _ (fun t => Rabs (@?u t)) => apply (rc_abs _ _ u)
  | |- rc _ _ (fun t => cos (@?u t)) => apply (rc_cos _ _ u)
  | |- rc _ _ (fun t => sin (@?u t)) => apply (rc_sin _ _ u)
  | |- rc _ _ (fun t => Re (@?u t)) => apply (rc_re _ _ u)
  | |- rc _ _ (fun t => Im (@?u t)) => apply (rc_im _ _ u)
  end.

(** ** the sum of a function over the roots of a polynomial *)
Lemma sum_perm (g : C -> R) l l' : Permutation l l' -> sumR (map g l) = sumR (map g l').
Proof. intros P. apply (Permutation_map g) in P. revert P. generalize (map g l) (map g l'). intros a b P. induction P; cbn; try lra. Qed.

(** the summand [g t] tends to [h] at [z0] when the parameter tends to the base point and the position to [z0] *)
Section Sum.
Context {T : Type} (dist : T -> R) (t0 : T) (K : T -> list C) (g : T -> C -> R) (h : C -> R).
Definition joint_to (z0 : C) : Prop := forall eps, 0 < eps -> exists d, 0 < d /\ forall t z, dist t < d -> Cmod (z - z0)%C < d -> Rabs (g t z - h z0) < eps.
Lemma sum_matched rs : (forall r, In r rs -> joint_to r) -> forall eps, 0 < eps -> exists d, 0 < d /\ forall t rs', dist t < d -> near d rs rs' -> Rabs (sumR (map (g t) rs') - sumR (map h rs)) < eps.
Proof.
  induction rs as [|r rs IH]; intros J eps He.
  - exists 1. split; [lra|]. intros t rs' _ N. inversion N; subst. cbn. replace (0 - 0) with 0 by ring. rewrite Rabs_R0. lra.
  - destruct (IH (fun x H => J x (or_intror H)) (eps / 2)) as (d & Hd & Kd); [lra|]. destruct (J r (or_introl eq_refl) (eps / 2)) as (e & Hp & Ke); [lra|].
    exists (Rmin d e). pose proof (Rmin_l d e) as ML. pose proof (Rmin_r d e) as MR. split; [now apply Rmin_glb_lt|]. intros t rs' Ht N. inversion N as [|x y l l' Hx Hl]; subst. cbn.
    assert (A := Kd t l' ltac:(lra) (near_mono _ _ _ _ ML Hl)). assert (B := Ke t y ltac:(lra) ltac:(lra)).
    replace (g t y + sumR (map (g t) l') - (h r + sumR (map h rs))) with ((g t y - h r) + (sumR (map (g t) l') - sumR (map h rs))) by ring.
    pose proof (Rabs_triang (g t y - h r) (sumR (map (g t) l') - sumR (map h rs))). lra.
Qed.
Theorem sum_tends n rs : length (K t0) = S n -> hd (RtoC 0) (K t0) <> RtoC 0 -> splits (K t0) rs -> lc dist t0 K -> (forall r, In r rs -> joint_to r) ->
  forall eps, 0 < eps -> exists d, 0 < d /\ forall t rs', dist t < d -> splits (K t) rs' -> Rabs (sumR (map (g t) rs') - sumR (map h rs)) < eps.
Proof.
  intros Hn Hh Hs Hl J eps He. destruct (sum_matched rs J eps He) as (d1 & H1 & K1). destruct (roots_near n (K t0) rs d1 Hn Hh Hs H1) as (d2 & H2 & K2). destruct (Hl d2 H2) as (d3 & H3 & K3).
  exists (Rmin d1 d3). pose proof (Rmin_l d1 d3) as ML. pose proof (Rmin_r d1 d3) as MR. split; [now apply Rmin_glb_lt|]. intros t rs' Ht S'.
  destruct (K2 (K t) rs' (K3 t ltac:(lra)) S') as (rs'' & P & N). rewrite (sum_perm _ _ _ P). apply K1; [lra|exact N].
Qed.
End Sum.
