(** Polynomial algebra: synthetic division, formal derivative, multiplicity, continuity. *)
From Coq Require Import Reals List Lra Lia Permutation.
From Coquelicot Require Import Complex.
From Verif Require Import Base_R Base_List Base_C S_Poly.
Import ListNotations.
Local Open Scope R_scope.
Local Open Scope C_scope.

Fixpoint qd (r b : C) (t : list C) : list C :=
  match t with [] => [] | c :: t' => b :: qd r (b * r + c) t' end.
Lemma qd_length r b t : length (qd r b t) = length t.
Proof. revert b; induction t; intros; simpl; auto. Qed.
Lemma peval_cons c t z : peval (c :: t) z = c * z ^ (length t) + peval t z.
Proof. reflexivity. Qed.
Lemma qd_spec r b t z : peval (b :: t) z = (z - r) * peval (qd r b t) z + peval (b :: t) r.
Proof.
  revert b; induction t as [|c t IH]; intros b. simpl; ring.
  change (qd r b (c :: t)) with (b :: qd r (b * r + c) t).
  rewrite (peval_cons b (qd _ _ _)), qd_length.
  specialize (IH (b * r + c)). rewrite !peval_cons in *. simpl length in *. simpl Cpow in *.
  transitivity ((z - r) * (b * z ^ length t) + ((b * r + c) * z ^ length t + peval t z)). ring.
  rewrite IH. ring.
Qed.
Lemma pderiv_cons2 c c' t : pderiv (c :: c' :: t) = RtoC (INR (S (length t))) * c :: pderiv (c' :: t).
Proof. reflexivity. Qed.
Lemma pderiv_length c t : length (pderiv (c :: t)) = length t.
Proof. revert c; induction t as [|c' t IH]; intros; auto. rewrite pderiv_cons2. cbn [length]. now rewrite IH. Qed.
Lemma peval_pderiv_add b c t z :
  peval (pderiv ((b + c) :: t)) z = peval (pderiv (b :: t)) z + RtoC (INR (length t)) * c * z ^ (length t - 1).
Proof.
  destruct t as [|c' t].
  - simpl. ring.
  - rewrite !pderiv_cons2, !peval_cons, !pderiv_length. simpl length. replace (S (length t) - 1)%nat with (length t) by lia. ring.
Qed.
Lemma qd_deriv r b t : peval (qd r b t) r = peval (pderiv (b :: t)) r.
Proof.
  revert b; induction t as [|c t IH]; intros b. reflexivity.
  simpl qd. rewrite pderiv_cons2, !peval_cons, qd_length, pderiv_length, IH.
  rewrite Cplus_comm. replace (b * r + c) with (c + b * r) by ring. rewrite peval_pderiv_add.
  destruct (length t) as [|n] eqn:E.
  - simpl. ring.
  - replace (S n - 1)%nat with n by lia. rewrite (S_INR (S n)), RtoC_plus. simpl Cpow. ring.
Qed.

(** continuity at a point *)
Definition ccont (f : C -> C) (z : C) : Prop :=
  forall eps, (0 < eps)%R -> exists d, (0 < d)%R /\ forall h, (Cmod h < d)%R -> (Cmod (f (z + h) - f z)%C < eps)%R.
Lemma ccont_const c z : ccont (fun _ => c) z.
Proof.
  intros eps He. exists 1%R. split; [lra|]. intros. replace (c - c) with (RtoC 0) by ring. now rewrite Cmod_0.
Qed.
Lemma ccont_id z : ccont (fun x => x) z.
Proof. intros eps He. exists eps. split; auto. intros. now replace (z + h - z) with h by ring. Qed.
Lemma ccont_ext f g z : (forall x, f x = g x) -> ccont f z -> ccont g z.
Proof. intros E H eps He. destruct (H eps He) as (d & D & K). exists d. split; auto. intros. rewrite <- !E. auto. Qed.
Lemma ccont_plus f g z : ccont f z -> ccont g z -> ccont (fun x => f x + g x) z.
Proof.
  intros F G eps He. destruct (F (eps/2)%R ltac:(lra)) as (d1 & D1 & H1).
  destruct (G (eps/2)%R ltac:(lra)) as (d2 & D2 & H2).
  exists (Rmin d1 d2). split. now apply Rmin_pos. intros h Hh.
  specialize (H1 h (Rlt_le_trans _ _ _ Hh (Rmin_l _ _))). specialize (H2 h (Rlt_le_trans _ _ _ Hh (Rmin_r _ _))).
  replace (f (z + h) + g (z + h) - (f z + g z)) with ((f (z + h) - f z) + (g (z + h) - g z)) by ring.
  eapply Rle_lt_trans. apply Cmod_triangle. lra.
Qed.
Lemma ccont_mult f g z : ccont f z -> ccont g z -> ccont (fun x => f x * g x) z.
Proof.
  intros F G eps He.
  set (A := (Cmod (f z) + 1)%R). set (B := (Cmod (g z) + 1)%R).
  assert (PA : (0 < A)%R) by (unfold A; pose proof (Cmod_ge_0 (f z)); lra).
  assert (PB : (0 < B)%R) by (unfold B; pose proof (Cmod_ge_0 (g z)); lra).
  destruct (F (Rmin 1 (eps/(3*B)))%R) as (d1 & D1 & H1). { apply Rmin_pos; [lra|apply Rdiv_lt_0_compat; lra]. }
  destruct (G (Rmin 1 (eps/(3*A)))%R) as (d2 & D2 & H2). { apply Rmin_pos; [lra|apply Rdiv_lt_0_compat; lra]. }
  exists (Rmin d1 d2). split. now apply Rmin_pos. intros h Hh.
  specialize (H1 h (Rlt_le_trans _ _ _ Hh (Rmin_l _ _))). specialize (H2 h (Rlt_le_trans _ _ _ Hh (Rmin_r _ _))).
  pose proof (Rmin_l 1 (eps/(3*B))). pose proof (Rmin_r 1 (eps/(3*B))).
  pose proof (Rmin_l 1 (eps/(3*A))). pose proof (Rmin_r 1 (eps/(3*A))).
  set (u := f (z + h) - f z) in *. set (v := g (z + h) - g z) in *.
  replace (f (z + h) * g (z + h) - f z * g z) with (u * g z + (f z * v + u * v)) by (unfold u, v; ring).
  eapply Rle_lt_trans. apply Cmod_triangle. eapply Rle_lt_trans. apply Rplus_le_compat_l. apply Cmod_triangle.
  rewrite !Cmod_mult. pose proof (Cmod_ge_0 u). pose proof (Cmod_ge_0 v).
  pose proof (Cmod_ge_0 (f z)). pose proof (Cmod_ge_0 (g z)).
  assert (U : (Cmod u * B < eps / 3)%R).
  { apply Rlt_le_trans with (eps / (3 * B) * B)%R. apply Rmult_lt_compat_r; lra. right; field; lra. }
  assert (V : (Cmod v * A < eps / 3)%R).
  { apply Rlt_le_trans with (eps / (3 * A) * A)%R. apply Rmult_lt_compat_r; lra. right; field; lra. }
  assert (V2 : (Cmod v <= 1)%R) by lra.
  unfold A, B in U, V. nra.
Qed.
Lemma ccont_pow n z : ccont (fun x => x ^ n) z.
Proof. induction n; simpl. apply ccont_const. apply ccont_mult; auto. apply ccont_id. Qed.
Lemma ccont_peval cs z : ccont (peval cs) z.
Proof.
  induction cs as [|c t IH]; simpl. apply ccont_const.
  apply ccont_plus; auto. apply ccont_mult. apply ccont_const. apply ccont_pow.
Qed.
Lemma ccont_prod rs z : ccont (fun x => prodC (map (fun r => x - r) rs)) z.
Proof.
  induction rs as [|r t IH]; simpl. apply ccont_const. apply ccont_mult; auto.
  unfold Cminus. apply ccont_plus. apply ccont_id. apply ccont_const.
Qed.
Lemma ccont_zero f (z : C) : ccont f z -> (forall x, x <> z -> f x = 0) -> f z = 0.
Proof.
  intros F H. apply Cmod_eq_0. destruct (Req_dec (Cmod (f z)) 0) as [|N]; auto. exfalso.
  pose proof (Cmod_ge_0 (f z)). destruct (F (Cmod (f z)) ltac:(lra)) as (d & D & K).
  specialize (K (RtoC (d/2))). rewrite Cmod_R, Rabs_pos_eq in K by lra. specialize (K ltac:(lra)).
  rewrite H in K.
  - replace (0 - f z) with (- f z) in K by ring. rewrite Cmod_opp in K. lra.
  - intros E. assert (E' : RtoC (d/2) = 0) by (replace (RtoC (d/2)) with (z + RtoC (d/2) - z) by ring; rewrite E; ring).
    apply RtoC_inj in E'. lra.
Qed.

Lemma prodC_zero (l : list C) : prodC l = 0 <-> In (RtoC 0) l.
Proof.
  induction l as [|x l IH]; simpl.
  - split; [|tauto]. intros H. now apply C1_neq0 in H.
  - split.
    + intros H. apply Cmult_integral in H. destruct H; auto. right. now apply IH.
    + intros [->|H]. ring. apply IH in H. rewrite H. ring.
Qed.
Lemma prodC_perm l l' : Permutation l l' -> prodC l = prodC l'.
Proof. induction 1; simpl; try congruence. ring. Qed.

Lemma splits_root cs rs (z : C) : splits cs rs -> hd (RtoC 0) cs <> 0 -> (peval cs z = 0 <-> In z rs).
Proof.
  intros S H. rewrite S. split.
  - intros E. apply Cmult_integral in E. destruct E as [E|E]; [contradiction|].
    apply prodC_zero in E. apply in_map_iff in E. destruct E as (r & E & Hin).
    apply Cminus_eq_0 in E. now subst.
  - intros Hin. replace (prodC _) with (RtoC 0). ring. symmetry. apply prodC_zero.
    apply in_map_iff. exists z. split; auto. ring.
Qed.
(** a root listed twice is a root of the derivative *)
Lemma splits_double cs rs (z : C) : splits cs rs -> cs <> [] -> (exists l1 l2, rs = l1 ++ z :: l2 /\ In z (l1 ++ l2)) ->
  peval (pderiv cs) z = 0.
Proof.
  intros S Hne (l1 & l2 & -> & Hin). destruct cs as [|b t]; [easy|].
  destruct (in_split _ _ Hin) as (k1 & k2 & Ek).
  assert (P : forall x, peval (b :: t) x = b * ((x - z) * ((x - z) * prodC (map (fun r => x - r) (k1 ++ k2))))).
  { intros x. rewrite S. simpl hd. f_equal.
    rewrite (prodC_perm _ (map (fun r => x - r) (z :: z :: k1 ++ k2))). reflexivity.
    apply Permutation_map. rewrite <- Permutation_middle. constructor. rewrite Ek. symmetry. apply Permutation_middle. }
  rewrite <- qd_deriv.
  assert (Z : peval (b :: t) z = 0) by (rewrite P; ring).
  set (g := fun x => peval (qd z b t) x + (- b * ((x - z) * prodC (map (fun r => x - r) (k1 ++ k2))))).
  assert (G : g z = 0).
  { apply ccont_zero.
    - unfold g. apply ccont_plus. apply ccont_peval. apply ccont_mult. apply ccont_const.
      apply ccont_mult; [|apply ccont_prod]. unfold Cminus. apply ccont_plus. apply ccont_id. apply ccont_const.
    - intros x Hx. unfold g. pose proof (qd_spec z b t x) as Q. rewrite Z, P in Q.
      assert (N : x - z <> 0) by (intros E; apply Hx; now apply Cminus_eq_0).
      assert (K : (x - z) * (peval (qd z b t) x - b * ((x - z) * prodC (map (fun r => x - r) (k1 ++ k2)))) = 0).
      { rewrite <- (Cplus_0_r ((x - z) * peval (qd z b t) x)) in Q. 
        replace ((x - z) * (peval (qd z b t) x - b * ((x - z) * prodC (map (fun r => x - r) (k1 ++ k2)))))
          with ((x - z) * peval (qd z b t) x + 0 - b * ((x - z) * ((x - z) * prodC (map (fun r => x - r) (k1 ++ k2))))) by ring.
        rewrite Q. ring. }
      apply Cmult_integral in K. destruct K as [K|K]; [contradiction|]. rewrite <- K. ring. }
  unfold g in G. rewrite <- G. ring.
Qed.
