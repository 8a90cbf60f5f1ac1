(** Root counting, uniqueness of factorisation, polar form and the fundamental theorem of algebra. *)
From Coq Require Import Reals List Lra Lia Permutation Classical_Prop.
From Coquelicot Require Import Rcomplements Complex Compactness.
From Verif Require Import Base_R Base_List Base_C S_Poly P_Poly.
Import ListNotations.
Local Open Scope R_scope.
Local Open Scope C_scope.

(** ** at most n roots *)
Lemma roots_le_aux n : forall (b : C) t (l : list C), length t = n -> b <> 0 -> NoDup l ->
  (forall z, In z l -> peval (b :: t) z = 0) -> (length l <= n)%nat.
Proof.
  induction n as [|n IH]; intros b t l Hn Hb Hd Hr.
  - destruct t; [|discriminate]. destruct l as [|z l]; [auto|]. exfalso. apply Hb.
    rewrite <- (Hr z) by now left. simpl. ring.
  - destruct t as [|c t]; [discriminate|]. injection Hn as Hn. destruct l as [|r l]; [simpl; lia|].
    inversion Hd; subst. simpl. apply le_n_S. apply (IH b (qd r (b * r + c) t)); auto. now rewrite qd_length.
    intros z Hz. assert (E1 : peval (b :: c :: t) z = 0) by (apply Hr; now right).
    assert (E2 : peval (b :: c :: t) r = 0) by (apply Hr; now left).
    pose proof (qd_spec r b (c :: t) z) as Q. rewrite E1, E2, Cplus_0_r in Q. symmetry in Q.
    apply Cmult_integral in Q. destruct Q as [Q|Q]; auto. apply Cminus_eq_0 in Q. subst. contradiction.
Qed.
Lemma roots_le cs (l : list C) : hd (RtoC 0) cs <> 0 -> NoDup l ->
  (forall z, In z l -> peval cs z = 0) -> (length l <= length cs - 1)%nat.
Proof.
  intros Hb Hd Hr. destruct cs as [|b t]; [now elim Hb|]. simpl. rewrite Nat.sub_0_r. eapply roots_le_aux; eauto.
Qed.
Lemma NoDup_INR n : NoDup (map (fun k => RtoC (INR k)) (seq 1 n)).
Proof.
  apply FinFun.Injective_map_NoDup; [|apply seq_NoDup]. intros x y E. apply RtoC_inj in E. now apply INR_eq.
Qed.

(** ** factorisations *)
Lemma splits_qd b c t r rs : splits (b :: c :: t) (r :: rs) -> splits (qd r b (c :: t)) rs.
Proof.
  intros S. assert (Z : peval (b :: c :: t) r = 0) by (rewrite S; simpl; ring).
  assert (A : forall x, x <> r -> peval (qd r b (c :: t)) x = b * prodC (map (fun s => x - s) rs)).
  { intros x Hx. assert (N : x - r <> 0) by (intros E; apply Hx; now apply Cminus_eq_0).
    pose proof (qd_spec r b (c :: t) x) as Q. rewrite Z, S in Q. simpl hd in Q. simpl map in Q. simpl prodC in Q.
    set (P := prodC (map (fun s => x - s) rs)) in *. set (G := peval (qd r b (c :: t)) x) in *.
    assert (K : (x - r) * (G - b * P) = 0).
    { transitivity ((x - r) * G + 0 - b * ((x - r) * P)). ring. rewrite <- Q. ring. }
    apply Cmult_integral in K. destruct K as [K|K]; [contradiction|]. now apply Cminus_eq_0. }
  intros z. simpl hd. destruct (Ceq_dec z r) as [->|N]; auto.
  set (g := fun x => peval (qd r b (c :: t)) x + (- b) * prodC (map (fun s => x - s) rs)).
  assert (G : g r = 0).
  { apply ccont_zero.
    - unfold g. apply ccont_plus. apply ccont_peval. apply ccont_mult. apply ccont_const. apply ccont_prod.
    - intros x Hx. unfold g. rewrite A by auto. ring. }
  unfold g in G. apply Cminus_eq_0. rewrite <- G. ring.
Qed.
Lemma splits_length_aux n : forall cs rs, length cs = S n -> hd (RtoC 0) cs <> 0 -> splits cs rs -> length rs = n.
Proof.
  induction n as [|n IH]; intros [|b [|c t]] rs Hn Hb S; try discriminate; simpl in Hb.
  - destruct rs as [|r rs]; auto. exfalso. apply Hb. pose proof (S r) as E. simpl in E.
    transitivity (b * 1 + 0). ring. rewrite E. ring.
  - destruct rs as [|r rs].
    + exfalso. set (l := map (fun k => RtoC (INR k)) (seq 1 (2 + length t))).
      assert (K : (length l <= length t)%nat).
      { apply (roots_le_aux (length t) b (qd 0 (b * 0 + c) t)); auto. apply qd_length. apply NoDup_INR.
        intros z Hz. pose proof (qd_spec 0 b (c :: t) z) as Q. rewrite !S in Q. cbn [hd map prodC] in Q.
        unfold l in Hz. apply in_map_iff in Hz. destruct Hz as (k & <- & Hk). apply in_seq in Hk.
        set (G := peval (qd 0 b (c :: t)) (RtoC (INR k))) in *.
        assert (E : RtoC (INR k) * G = 0).
        { transitivity ((INR k - 0) * G + b * 1 - b * 1). ring. rewrite <- Q. ring. }
        apply Cmult_integral in E. destruct E as [E|E]; auto. exfalso. apply RtoC_inj in E. apply (not_INR k 0) in E; auto. lia. }
      unfold l in K. rewrite map_length, seq_length in K. lia.
    + simpl. f_equal. simpl in Hn. apply (IH (qd r b (c :: t))). rewrite qd_length; simpl; lia. exact Hb. now apply splits_qd.
Qed.
Lemma splits_length cs rs : hd (RtoC 0) cs <> 0 -> splits cs rs -> length rs = (length cs - 1)%nat.
Proof.
  intros H S. destruct cs as [|b t]; [now elim H|]. eapply splits_length_aux; eauto. simpl; lia.
Qed.
Lemma splits_perm cs rs rs' : Permutation rs rs' -> splits cs rs -> splits cs rs'.
Proof.
  intros P S z. rewrite S. f_equal. apply prodC_perm. now apply Permutation_map.
Qed.
Lemma splits_unique_aux n : forall cs rs rs', length cs = S n -> hd (RtoC 0) cs <> 0 -> splits cs rs -> splits cs rs' -> Permutation rs rs'.
Proof.
  induction n as [|n IH]; intros cs rs rs' Hn Hb S S'.
  - pose proof (splits_length _ _ Hb S) as L. pose proof (splits_length _ _ Hb S') as L'. rewrite Hn in *. simpl in *.
    destruct rs; [|discriminate]. destruct rs'; [|discriminate]. auto.
  - pose proof (splits_length _ _ Hb S) as L. rewrite Hn in L. simpl in L. destruct rs as [|r rs]; [discriminate|].
    assert (Hin : In r rs'). { apply (splits_root cs); auto. apply (splits_root cs (r :: rs)); auto. now left. }
    destruct (in_split _ _ Hin) as (l1 & l2 & ->).
    assert (P : Permutation (l1 ++ r :: l2) (r :: l1 ++ l2)) by (symmetry; apply Permutation_middle).
    rewrite P. constructor. pose proof (splits_perm _ _ _ P S') as S2.
    destruct cs as [|b [|c t]]; try discriminate.
    apply (IH (qd r b (c :: t))); auto; try (now apply splits_qd). rewrite qd_length. simpl in *; lia.
Qed.
Lemma splits_unique cs rs rs' : hd (RtoC 0) cs <> 0 -> splits cs rs -> splits cs rs' -> Permutation rs rs'.
Proof.
  intros H. destruct cs as [|b t]; [now elim H|]. apply (splits_unique_aux (length t)); auto.
Qed.

(** ** polar form *)
Lemma unit_polar (c : C) : Cmod c = 1%R -> exists t, (- PI <= t <= PI)%R /\ c = cexpi t.
Proof.
  intros H. destruct c as [x y]. pose proof (Cmod_sq (x, y)) as E. rewrite H in E. simpl in E.
  assert (Hx : (-1 <= x <= 1)%R) by nra.
  destruct (acos_bound x) as [B1 B2].
  assert (S : sqrt (1 - x²) = Rabs y).
  { rewrite <- sqrt_Rsqr_abs. f_equal. unfold Rsqr. lra. }
  destruct (Rle_dec 0 y) as [Y|Y].
  - exists (acos x). split. lra. unfold cexpi. rewrite cos_acos, sin_acos, S, Rabs_pos_eq by auto. auto.
  - exists (- acos x)%R. split. lra. unfold cexpi. rewrite cos_neg, sin_neg, cos_acos, sin_acos, S, Rabs_left by lra.
    now rewrite Ropp_involutive.
Qed.
Lemma polar (c : C) : c <> 0 -> exists t, (- PI <= t <= PI)%R /\ c = RtoC (Cmod c) * cexpi t.
Proof.
  intros H. assert (P : (0 < Cmod c)%R) by now apply Cmod_gt_0.
  destruct (unit_polar (c / Cmod c)) as (t & B & E).
  - rewrite Cmod_div by (apply RtoC_neq0; lra). rewrite Cmod_R, Rabs_pos_eq by lra. field. lra.
  - exists t. split; auto. rewrite <- E. field. apply RtoC_neq0; lra.
Qed.
Lemma cexpi_pow t n : cexpi t ^ n = cexpi (INR n * t).
Proof.
  induction n as [|n IH]. simpl. rewrite Rmult_0_l, cexpi_0. reflexivity.
  simpl Cpow. rewrite IH, <- cexpi_add. f_equal. rewrite S_INR. ring.
Qed.
Lemma Croot (c : C) n : (0 < n)%nat -> c <> 0 -> exists u, u ^ n = c.
Proof.
  intros Hn Hc. assert (P : (0 < Cmod c)%R) by now apply Cmod_gt_0.
  assert (N : (0 < INR n)%R) by now apply lt_0_INR.
  destruct (polar c Hc) as (t & _ & E). exists (RtoC (Rpower (Cmod c) (/ INR n)) * cexpi (t / INR n)).
  assert (PM : forall (x y : C) k, (x * y) ^ k = x ^ k * y ^ k) by (intros x y k; induction k as [|k IH]; simpl; [ring|rewrite IH; ring]).
  rewrite PM, cexpi_pow, <- RtoC_pow.
  rewrite <- Rpower_pow by apply exp_pos. rewrite Rpower_mult. rewrite Rinv_l, Rpower_1 by lra.
  rewrite E at 2. f_equal. f_equal. field. lra.
Qed.

(** ** growth at infinity *)
Lemma Cmod_rev_triangle (x y : C) : (Cmod x - Cmod y <= Cmod (x + y))%R.
Proof.
  pose proof (Cmod_triangle (x + y) (- y)) as T. replace (x + y + - y) with x in T by ring. rewrite Cmod_opp in T. lra.
Qed.
Lemma poly_growth n   : forall (b : C) t, length t = S n -> b <> 0 -> forall M, (0 < M)%R ->
  exists R0, (0 < R0)%R /\ forall z, (R0 <= Cmod z)%R -> (M <= Cmod (peval (b :: t) z))%R.
Proof.
  induction n as [|n IH]; intros b t Hn Hb M HM.
  - destruct t as [|c [|]]; try discriminate. assert (P : (0 < Cmod b)%R) by now apply Cmod_gt_0.
    exists ((M + Cmod c) / Cmod b)%R. pose proof (Cmod_ge_0 c). split. apply Rdiv_lt_0_compat; lra.
    intros z Hz. replace (peval [b; c] z) with (b * z + c) by (simpl; ring).
    pose proof (Cmod_rev_triangle (b * z) c) as T. rewrite Cmod_mult in T.
    apply (Rmult_le_compat_l (Cmod b)) in Hz; [|lra].
    replace (Cmod b * ((M + Cmod c) / Cmod b))%R with (M + Cmod c)%R in Hz by (field; lra). lra.
  - destruct t as [|c t]; [discriminate|]. injection Hn as Hn.
    set (c0 := peval (b :: c :: t) 0). pose proof (Cmod_ge_0 c0).
    destruct (IH b (qd 0 (b * 0 + c) t)) with (M := (M + Cmod c0)%R) as (R0 & P0 & G); auto. now rewrite qd_length. lra.
    exists (Rmax R0 1). split. apply Rlt_le_trans with R0; auto. apply Rmax_l.
    intros z Hz. assert (Z0 : (R0 <= Cmod z)%R) by (eapply Rle_trans; [apply Rmax_l|exact Hz]).
    assert (Z1 : (1 <= Cmod z)%R) by (eapply Rle_trans; [apply Rmax_r|exact Hz]).
    rewrite (qd_spec 0). fold c0. simpl qd. specialize (G z Z0). set (q := peval (b :: qd 0 (b * 0 + c) t) z) in *.
    pose proof (Cmod_rev_triangle ((z - 0) * q) c0) as T. rewrite Cmod_mult in T. replace (z - 0) with z in T by ring. 
    replace (z - 0) with z by ring. nra.
Qed.

(** ** minimum of a continuous function on a square *)
Lemma Cmod_le_coords (x y : R) : (Cmod (x, y) <= Rabs x + Rabs y)%R.
Proof.
  replace ((x, y) : C) with (RtoC x + RtoC y * Ci) by (apply Ceq; simpl; ring).
  eapply Rle_trans. apply Cmod_triangle. rewrite Cmod_mult, !Cmod_R.
  replace (Cmod Ci) with 1%R. lra. unfold Cmod, Ci; simpl. replace (0 * (0 * 1) + 1 * (1 * 1))%R with 1%R by ring. now rewrite sqrt_1.
Qed.
Definition in_square (r : R) (z : C) : Prop := (- r <= fst z <= r)%R /\ (- r <= snd z <= r)%R.
Lemma square_min (f : C -> C) r : (0 < r)%R -> (forall z, ccont f z) ->
  exists z0, in_square r z0 /\ forall z, in_square r z -> (Cmod (f z0) <= Cmod (f z))%R.
Proof.
  intros Hr Hc.
  set (E := fun v => exists z, in_square r z /\ v = (- Cmod (f z))%R).
  assert (EB : bound E). { exists 0%R. intros v (z & _ & ->). pose proof (Cmod_ge_0 (f z)). lra. }
  assert (EN : exists v, E v). { exists (- Cmod (f 0))%R, (RtoC 0). split; auto. split; simpl; lra. }
  destruct (completeness E EB EN) as (m' & UB & LUB). set (m := (- m')%R).
  assert (Hm : forall z, in_square r z -> (m <= Cmod (f z))%R).
  { intros z Hz. unfold m. assert (- Cmod (f z) <= m')%R by (apply UB; exists z; auto). lra. }
  assert (Hinf : forall d, (0 < d)%R -> exists z, in_square r z /\ (Cmod (f z) < m + d)%R).
  { intros d Hd. destruct (Classical_Prop.classic (exists z, in_square r z /\ (Cmod (f z) < m + d)%R)) as [|N]; auto.
    exfalso. assert (m' <= m' - d)%R; [|lra]. apply LUB. intros v (z & Hz & ->).
    destruct (Rlt_le_dec (Cmod (f z)) (m + d)) as [L|L]. elim N; eauto. unfold m in L. lra. }
  destruct (Classical_Prop.classic (exists z0, in_square r z0 /\ Cmod (f z0) = m)) as [(z0 & H0 & Em)|N].
  { exists z0. split; auto. intros z Hz. rewrite Em. auto. }
  exfalso.
  assert (Hgt : forall z, in_square r z -> (m < Cmod (f z))%R).
  { intros z Hz. destruct (Rle_lt_or_eq_dec _ _ (Hm z Hz)) as [|Eq]; auto. elim N. exists z; auto. }
  assert (D : forall x y, exists d : posreal, in_square r (x, y) -> forall z, (Rabs (fst z - x) < d)%R -> (Rabs (snd z - y) < d)%R -> (m + d < Cmod (f z))%R).
  { intros x y. destruct (Classical_Prop.classic (in_square r (x, y))) as [I|I].
    2:{ exists (mkposreal 1 Rlt_0_1). intros; contradiction. }
    specialize (Hgt _ I). set (eps := ((Cmod (f (x, y)) - m) / 2)%R). assert (Pe : (0 < eps)%R) by (unfold eps; lra).
    destruct (Hc (x, y) eps Pe) as (dl & Pd & K).
    assert (Pm : (0 < Rmin (dl / 2) (eps / 2))%R) by (apply Rmin_pos; lra).
    exists (mkposreal _ Pm). simpl. intros _ z Z1 Z2.
    assert (A1 := Rmin_l (dl / 2) (eps / 2)). assert (A2 := Rmin_r (dl / 2) (eps / 2)).
    specialize (K (z - (x, y))). replace ((x, y) + (z - (x, y))) with z in K by (apply Ceq; simpl; ring).
    assert (Hk : (Cmod (z - (x, y)) < dl)%R).
    { assert (Ez : z - (x, y) = (fst z - x, snd z - y)%R) by (apply Ceq; simpl; ring). rewrite Ez.
      eapply Rle_lt_trans. apply Cmod_le_coords. lra. }
    specialize (K Hk).
    pose proof (Cmod_rev_triangle (f (x, y)) (f z - f (x, y))) as T. replace (f (x, y) + (f z - f (x, y))) with (f z) in T by ring.
    unfold eps in *. lra. }
  assert (D' : exists delta : R -> R -> posreal, forall x y, in_square r (x, y) -> forall z, (Rabs (fst z - x) < delta x y)%R -> (Rabs (snd z - y) < delta x y)%R -> (m + delta x y < Cmod (f z))%R).
  { set (Q := fun x y d => in_square r (x, y) -> forall z : C, (Rabs (fst z - x) < d)%R -> (Rabs (snd z - y) < d)%R -> (m + d < Cmod (f z))%R).
    set (F := fun x y d => (0 < d <= 1)%R /\ Q x y d).
    assert (Qm : forall x y d d', (d' <= d)%R -> Q x y d -> Q x y d').
    { intros x y d d' L H' I z Z1 Z2. specialize (H' I z ltac:(lra) ltac:(lra)). lra. }
    assert (FB : forall x y, bound (F x y)). { intros x y. exists 1%R. intros d (B & _). lra. }
    assert (FN : forall x y, exists d, F x y d).
    { intros x y. destruct (D x y) as (d & Hd). exists (Rmin 1 d). pose proof (cond_pos d). split.
      split. apply Rmin_pos; lra. apply Rmin_l. apply (Qm x y d). apply Rmin_r. exact Hd. }
    set (L := fun x y => proj1_sig (completeness (F x y) (FB x y) (FN x y))).
    assert (LP : forall x y, (0 < L x y)%R /\ Q x y (L x y / 2)%R).
    { intros x y. unfold L. destruct (completeness (F x y) (FB x y) (FN x y)) as (l & U & V). simpl.
      destruct (FN x y) as (d & Hd). assert (d <= l)%R by now apply U. destruct Hd as (Hd & _). split. lra.
      destruct (Classical_Prop.classic (exists d', F x y d' /\ (l / 2 <= d')%R)) as [(d' & (_ & Hd') & Ld)|N']. eapply Qm; eauto.
      exfalso. assert (l <= l / 2)%R; [|lra]. apply V. intros d' Hd'. destruct (Rle_lt_dec d' (l / 2)) as [|G]; auto.
      elim N'. exists d'. split; auto. lra. }
    assert (LP2 : forall x y, (0 < L x y / 2)%R) by (intros x y; destruct (LP x y); lra).
    exists (fun x y => mkposreal _ (LP2 x y)). intros x y. simpl. exact (proj2 (LP x y)). }
  destruct D' as (delta & HD).
  destruct (compactness_value_2d (- r) r (- r) r delta) as (d & Hd).
  destruct (Hinf d (cond_pos d)) as (z & (Hz1 & Hz2) & L).
  apply (Hd (fst z) (snd z) Hz1 Hz2). intros (u & v & Hu & Hv & K1 & K2 & K3).
  assert (I : in_square r (u, v)) by (split; auto).
  specialize (HD u v I z K1 K2). lra.
Qed.

(** ** descent *)
Lemma root_factor n : forall (b : C) t z0, length t = n -> b <> 0 ->
  exists k g, (forall z, ccont g z) /\ g z0 <> 0 /\ forall z, peval (b :: t) z = (z - z0) ^ k * g z.
Proof.
  induction n as [|n IH]; intros b t z0 Hn Hb.
  - destruct t; [|discriminate]. exists 0%nat, (fun _ => b). split. intros; apply ccont_const. split; auto. intros; simpl; ring.
  - destruct t as [|c t]; [discriminate|]. injection Hn as Hn.
    destruct (Ceq_dec (peval (b :: c :: t) z0) 0) as [E|E].
    + destruct (IH b (qd z0 (b * z0 + c) t) z0) as (k & g & Gc & G0 & G); auto. now rewrite qd_length.
      exists (S k), g. split; auto. split; auto. intros z. rewrite (qd_spec z0), E. simpl qd. rewrite G. simpl Cpow. ring.
    + exists 0%nat, (peval (b :: c :: t)). split. intros; apply ccont_peval. split; auto. intros; simpl; ring.
Qed.
Lemma Rpow_small t n : (0 < t < 1)%R -> (0 < t ^ n <= 1)%R.
Proof. intros H. induction n as [|n IH]; simpl. lra. nra. Qed.
Theorem fta (b : C) t : b <> 0 -> t <> [] -> exists z, peval (b :: t) z = 0.
Proof.
  intros Hb Ht. destruct t as [|c t]; [easy|].
  set (p := peval (b :: c :: t)). pose proof (Cmod_ge_0 (p 0)).
  destruct (poly_growth (length t) b (c :: t) eq_refl Hb (Cmod (p 0) + 1)%R ltac:(lra)) as (r & Pr & G).
  destruct (square_min p r Pr) as (z0 & I0 & Hmin). { intros; apply ccont_peval. }
  assert (Gmin : forall z, (Cmod (p z0) <= Cmod (p z))%R).
  { intros z. destruct (Rle_lt_dec r (Cmod z)) as [L|L].
    - specialize (G z L). fold p in G. assert (Cmod (p z0) <= Cmod (p 0))%R by (apply Hmin; split; simpl; lra). lra.
    - apply Hmin. pose proof (Rmax_Cmod z) as B. pose proof (Rmax_l (Rabs (fst z)) (Rabs (snd z))). pose proof (Rmax_r (Rabs (fst z)) (Rabs (snd z))).
      pose proof (Rabs_le_between (fst z) r) as [A1 _]. pose proof (Rabs_le_between (snd z) r) as [A2 _]. split; [apply A1|apply A2]; lra. }
  exists z0. fold p. destruct (Ceq_dec (p z0) 0) as [|Hp]; auto. exfalso.
  destruct (root_factor (length t) b (qd z0 (b * z0 + c) t) z0) as (k & g & Gc & G0 & Gf); auto. now rewrite qd_length.
  assert (Q : forall h, p (z0 + h) = p z0 + h ^ (S k) * g (z0 + h)).
  { intros h. unfold p at 1. rewrite (qd_spec z0). fold p. simpl qd. rewrite Gf. replace (z0 + h - z0) with h by ring. simpl Cpow. ring. }
  set (ca := - p z0 / g z0).
  assert (Hca : ca <> 0). { unfold ca, Cdiv. apply Cmult_neq_0. intros E. apply Hp. replace (p z0) with (- - p z0) by ring. rewrite E. ring. 
    intros E. apply C1_neq0. rewrite <- (Cinv_r (g z0)) by auto. rewrite E. ring. }
  destruct (Croot ca (S k)) as (u & Hu); auto. lia.
  assert (Hu0 : u <> 0). { intros E. apply Hca. rewrite <- Hu, E. simpl. ring. }
  assert (Pu : (0 < Cmod u)%R) by now apply Cmod_gt_0.
  assert (Pc : (0 < Cmod ca)%R) by now apply Cmod_gt_0.
  assert (Pp : (0 < Cmod (p z0))%R) by now apply Cmod_gt_0.
  assert (Pe : (0 < Cmod (p z0) / (2 * Cmod ca))%R) by (apply Rdiv_lt_0_compat; lra).
  destruct (Gc z0 _ Pe) as (dl & Pd & K).
  set (tt := Rmin (1/2) (dl / (2 * Cmod u))).
  assert (Ptt : (0 < tt)%R). { unfold tt. apply Rmin_pos. lra. apply Rdiv_lt_0_compat; lra. }
  assert (T1 : (tt <= 1/2)%R) by apply Rmin_l. assert (T2 : (tt <= dl / (2 * Cmod u))%R) by apply Rmin_r.
  specialize (K (RtoC tt * u)). rewrite Cmod_mult, Cmod_R, Rabs_pos_eq in K by lra.
  assert (Hk : (tt * Cmod u < dl)%R).
  { apply (Rmult_le_compat_r (Cmod u)) in T2; [|lra]. replace (dl / (2 * Cmod u) * Cmod u)%R with (dl / 2)%R in T2 by (field; lra). lra. }
  specialize (K Hk). set (dlt := g (z0 + RtoC tt * u) - g z0) in *.
  specialize (Gmin (z0 + RtoC tt * u)). rewrite Q in Gmin.
  assert (PM : forall (x y : C) j, (x * y) ^ j = x ^ j * y ^ j) by (intros x y j; induction j as [|j IH]; simpl; [ring|rewrite IH; ring]).
  rewrite PM, Hu, <- RtoC_pow in Gmin. set (tk := (tt ^ S k)%R) in *.
  assert (Htk : (0 < tk <= 1)%R) by (apply Rpow_small; lra).
  replace (p z0 + RtoC tk * ca * g (z0 + RtoC tt * u)) with (RtoC (1 - tk) * p z0 + RtoC tk * (ca * dlt)) in Gmin.
  2:{ replace (g (z0 + RtoC tt * u)) with (g z0 + dlt) by (unfold dlt; ring). rewrite RtoC_minus. unfold ca. field. auto. }
  pose proof (Cmod_triangle (RtoC (1 - tk) * p z0) (RtoC tk * (ca * dlt))) as T.
  rewrite !Cmod_mult, !Cmod_R, (Rabs_pos_eq (1 - tk)), (Rabs_pos_eq tk) in T by lra.
  assert (Kd : (Cmod ca * Cmod dlt < Cmod (p z0) / 2)%R).
  { apply (Rmult_lt_compat_l (Cmod ca)) in K; [|lra]. replace (Cmod ca * (Cmod (p z0) / (2 * Cmod ca)))%R with (Cmod (p z0) / 2)%R in K by (field; lra). lra. }
  assert (tk * (Cmod ca * Cmod dlt) < tk * (Cmod (p z0) / 2))%R by (apply Rmult_lt_compat_l; lra). nra.
Qed.
(** every polynomial with non-zero leading coefficient splits *)
Theorem splits_exists cs : hd (RtoC 0) cs <> 0 -> exists rs, splits cs rs.
Proof.
  remember (length cs) as n eqn:Hn. revert cs Hn. induction n as [|n IH]; intros cs Hn Hb.
  - destruct cs; [now elim Hb|discriminate].
  - destruct cs as [|b [|c t]]; [discriminate| |].
    + exists []. intros z. simpl. ring.
    + destruct (fta b (c :: t)) as (r & Er); auto; [easy|].
      destruct (IH (qd r b (c :: t))) as (rs & S); auto. rewrite qd_length. simpl in *; lia.
      exists (r :: rs). intros z. rewrite (qd_spec r), Er, S. simpl. ring.
Qed.
