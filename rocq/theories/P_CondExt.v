(** Proofs about the accuracy tests and the complete light-curve functions. *)
From Coq Require Import Reals List Bool Arith ZArith Lia Lra Permutation.
From Coquelicot Require Import Rcomplements Complex.
From Verif Require Import Base_R Base_List Base_C M_Utils M_Assembly M_Coeffs M_PointSource M_Limb M_Multipole
  M_MergeArea M_ExtSource M_CondExt S_Assembly S_PointSource P_Assembly P_Lens P_PointSource P_Multipole P_ExtSource.
Import ListNotations.
Local Open Scope R_scope.
Local Open Scope C_scope.

(** ** lists of results *)
Lemma mapM_nth {A B} (f : A -> res B) l ys d e : res_mapM f l = Ok ys ->
  forall i, (i < length l)%nat -> f (nth i l d) = Ok (nth i ys e).
Proof.
  revert ys; induction l as [|x t IH]; simpl; intros ys H i Hi. lia.
  destruct (f x) eqn:Q; simpl in H; [|discriminate]. destruct (res_mapM f t) eqn:Q2; simpl in H; [|discriminate].
  injection H as <-. destruct i; simpl; auto. apply IH; auto; lia.
Qed.
Lemma mapM_all_ok {A B} (f : A -> res B) (g : A -> B) l : (forall x, In x l -> f x = Ok (g x)) -> res_mapM f l = Ok (map g l).
Proof.
  induction l as [|x t IH]; simpl; intros H; auto. rewrite (H x) by auto. simpl. rewrite IH by auto. reflexivity.
Qed.

(** ** weighted sums *)
Lemma osum_nonneg l v : (forall x, In (Some x) l -> (0 <= x)%R) -> osum l = Some v -> (0 <= v)%R.
Proof.
  revert v; induction l as [|x t IH]; simpl; intros v H Q. injection Q as <-; lra.
  destruct x as [x|]; [|discriminate]. destruct (osum t) as [y|] eqn:Q2; [|discriminate]. simpl in Q. injection Q as <-.
  pose proof (IH y (fun z Hz => H z (or_intror Hz)) eq_refl). pose proof (H x (or_introl eq_refl)). lra.
Qed.
Lemma weighted_nonneg wt vals mask v : (forall b, (0 <= wt b)%R) -> (forall x, In (Some x) vals -> (0 <= x)%R) ->
  weighted wt vals mask = Some v -> (0 <= v)%R.
Proof.
  intros Hw Hv. apply osum_nonneg. intros x Hx. apply in_map_iff in Hx as ([o m] & Q & I). apply in_combine_l in I. cbn [fst snd] in *.
  destruct o as [o|]; [|discriminate]. simpl in Q. injection Q as <-. apply Rmult_le_pos; auto.
Qed.
Lemma mu_cusp_nonneg cl rho rm z x : mu_cusp cl rho rm z = Some x -> (0 <= x)%R.
Proof. unfold mu_cusp. destruct (_ || _ || _); [discriminate|]. intros Q; injection Q as <-. apply Rabs_pos. Qed.
Lemma b2R_nonneg b : (0 <= b2R b)%R. Proof. destruct b; simpl; lra. Qed.

(** an accepted position has a total multipole correction below c_m *)
Lemma proximity_delta cl c_m gamma c_f rm w z mask rho delta : (0 <= gamma)%R ->
  proximity_test cl c_m gamma c_f rm w z mask rho delta = true -> exists d, delta = Some d /\ (d < c_m)%R.
Proof.
  intros Hg H. unfold proximity_test in H. apply andb_prop in H as (_ & H).
  destruct (weighted b2R _ mask) as [mc|] eqn:Q; [|discriminate]. destruct delta as [d|]; [|discriminate].
  exists d; split; auto. apply Rltb_true in H.
  assert (0 <= mc)%R.
  { apply (weighted_nonneg _ _ _ _ b2R_nonneg) in Q; auto. intros x Hx. apply in_map_iff in Hx as (zi & Q2 & _).
    exact (mu_cusp_nonneg _ _ _ _ _ Q2). }
  pose proof (Rmult_le_pos gamma mc Hg H0). lra.
Qed.

(** ** multipole value against the point-source value *)
Lemma W2_det a e1 z : Rabs (mu0 (W_two a e1 z 2)) = (1 / Rabs (det_jac2 a e1 z))%R.
Proof.
  unfold mu0, W_two, det_jac2, wfac. cbn [fact Nat.sub pow INR].
  replace (Cmod (e1 / (Cconj z - a) ^ 2 + (1 - e1)%R / (Cconj z + a) ^ 2)) with
    (Cmod (RtoC ((-1) ^ 1 * INR 1) * (e1 / (z - a) ^ 2 + (1 - e1)%R / (z + a) ^ 2))).
  2: { rewrite Cmod_mult, Cmod_R. replace (Rabs ((-1) ^ 1 * INR 1)) with 1%R.
       2: { simpl. replace (-1 * 1 * 1)%R with (-(1))%R by ring. rewrite Rabs_Ropp, Rabs_R1. reflexivity. }
       rewrite Rmult_1_l. rewrite <- Cmod_conj. f_equal. now autorewrite with cconj. }
  simpl. unfold Rdiv. rewrite !Rmult_1_l. rewrite Rabs_inv. reflexivity.
Qed.
Lemma hex_sum_close W (d : C -> R) z mask rho u1 : (forall x, In x z -> Rabs (mu0 (W x 2%nat)) = (1 / Rabs (d x))%R) ->
  (Rabs (fst (hex_sum W z mask rho u1) - sum_inv_det d (z, mask)) <= snd (hex_sum W z mask rho u1))%R.
Proof.
  revert mask. induction z as [|x t IH]; intros mask H.
  - unfold hex_sum, sum_inv_det; simpl. rewrite Rminus_0_r, Rabs_R0. lra.
  - destruct mask as [|m mask]. { unfold hex_sum, sum_inv_det; simpl. rewrite Rminus_0_r, Rabs_R0. lra. }
    specialize (IH mask (fun y Hy => H y (or_intror Hy))). specialize (H x (or_introl eq_refl)).
    unfold hex_sum, sum_inv_det in *. cbn [map combine sumR fst snd] in *.
    destruct (cassan_of (W x) rho u1) as ((mu & dq) & dh) eqn:QC.
    assert (Emu : mu = mu0 (W x 2%nat)) by (unfold cassan_of, cassan in QC; cbv zeta in QC; injection QC; auto).
    rewrite <- H, <- Emu. destruct m.
    + rewrite !Rmult_1_l, Rmult_1_r.
      pose proof (Rabs_triang (mu + dq + dh - mu) 0). pose proof (Rabs_triang dq dh).
      assert (T1 : (Rabs (mu + dq + dh) <= Rabs mu + Rabs dq + Rabs dh)%R).
      { pose proof (Rabs_triang (mu + dq) dh). pose proof (Rabs_triang mu dq). lra. }
      assert (T2 : (Rabs mu <= Rabs (mu + dq + dh) + Rabs dq + Rabs dh)%R).
      { pose proof (Rabs_triang (mu + dq + dh) (- (dq + dh))). replace (mu + dq + dh + - (dq + dh))%R with mu in H2 by ring.
        rewrite Rabs_Ropp in H2. lra. }
      apply Rabs_le. apply Rabs_le_between in IH. lra.
    + rewrite !Rmult_0_l, Rmult_0_r. apply Rabs_le. apply Rabs_le_between in IH. lra.
Qed.

Section Solver.
Variable poly_roots : list C -> option (list C) -> list C.

Lemma binary_point_eq p a e1 q rho u1 w : p_a p = Some a -> p_e1 p = Some e1 ->
  binary_point poly_roots p a e1 q rho u1 w =
  (let '(z, mask) := images2 poly_roots a e1 w None in
   let bad := existsb (fun zi => at_pole (closures2 a e1) zi || Reqb (cond_J (closures2 a e1) zi) 0) z in
   let md := hex_sum (W_two a e1) z mask rho u1 in
   let delta := if bad then None else Some (snd md) in
   let test1 := proximity_test (closures2 a e1) 1e-2 0.02 4 1e-3 w z mask rho delta in
   Ok (if bad then None else Some (fst md), if Rltb q 0.01 then test1 && planetary_test 2 a e1 w rho else test1)).
Proof.
  intros Ea Ee. unfold binary_point, images_point_source. simpl. rewrite Ea, Ee. simpl.
  unfold hex_values, mag_hexadecapole. simpl. rewrite Ea, Ee. simpl.
  unfold caustics_proximity_test, planetary_caustic_test. simpl. rewrite Ea, Ee.
  destruct (existsb _ _); reflexivity.
Qed.
Lemma binary_point_close p a e1 q rho u1 w mu : p_a p = Some a -> p_e1 p = Some e1 ->
  binary_point poly_roots p a e1 q rho u1 w = Ok (mu, true) ->
  exists v, mu = Some v /\ (Rabs (v - sum_inv_det (det_jac2 a e1) (images2 poly_roots a e1 w None)) < 1 / 100)%R.
Proof.
  intros Ea Ee. rewrite (binary_point_eq p a e1 q rho u1 w Ea Ee). destruct (images2 poly_roots a e1 w None) as [z mask]. cbv zeta.
  intros H. apply (f_equal (fun r => match r with Ok x => x | _ => (None, false) end)) in H. cbv beta iota in H.
  apply pair_equal_spec in H as (Hm & Ht). 
  assert (T1 : proximity_test (closures2 a e1) 1e-2 0.02 4 1e-3 w z mask rho
     (if existsb (fun zi => at_pole (closures2 a e1) zi || Reqb (cond_J (closures2 a e1) zi) 0) z then None
      else Some (snd (hex_sum (W_two a e1) z mask rho u1))) = true).
  { destruct (Rltb q 0.01); auto. apply andb_prop in Ht. tauto. }
  apply proximity_delta in T1; [|lra]. destruct T1 as (dd & Q & L).
  destruct (existsb _ _); [discriminate|]. apply (f_equal (fun o => match o with Some x => x | None => 0%R end)) in Q; cbv beta iota in Q. subst dd. exists (fst (hex_sum (W_two a e1) z mask rho u1)). split; auto.
  eapply Rle_lt_trans; [apply hex_sum_close|]. intros x _. apply W2_det. lra.
Qed.

(** the integrators only read s and q *)
Lemma mag_full_params p cfg u1 dc rho w s q : p_s p = Some s -> p_q p = Some q -> forall a e1,
  mag_full poly_roots 2 (with_a_e1 p a e1) cfg u1 dc rho w =
  (if Reqb u1 0 then mag_uniform poly_roots 2 p cfg rho w else mag_limb_dark poly_roots 2 p cfg u1 dc rho w).
Proof. intros Es Eq a e1. unfold mag_full, mag_uniform, mag_limb_dark, ext_params. simpl. rewrite Es, Eq. reflexivity. Qed.

Lemma mag_binary_inv p cfg u1 dc mf chunk ws rho s q out : p_s p = Some s -> p_q p = Some q ->
  mag_binary poly_roots p cfg u1 dc mf chunk ws rho = Ok out ->
  let a := (0.5 * s)%R in let e1 := (q / (1 + q))%R in
  chunk <> 0%nat /\ length out = length ws /\ exists pts : list (option R * bool), length pts = length ws /\
    (forall i, (i < length ws)%nat ->
       binary_point poly_roots (with_a_e1 p a e1) a e1 q rho u1 (nth i ws (RtoC 0) - x_cm a q) = Ok (nth i pts (None, false)) /\
       expected_mag (fun w => if Reqb u1 0 then mag_uniform poly_roots 2 p cfg rho w else mag_limb_dark poly_roots 2 p cfg u1 dc rho w)
         (fun j => nth j ws (RtoC 0)) (fun j => Ok (fst (nth j pts (None, false)))) (fun j => snd (nth j pts (None, false)))
         (py_prefix_len mf (length ws)) i = Ok (nth i out None)).
Proof.
  intros Es Eq H a e1. unfold mag_binary in H. rewrite Es, Eq in H. fold a e1 in H.
  destruct (res_mapM _ ws) as [pts|] eqn:QP; [|discriminate]. simpl in H.
  destruct (assemble _ _ _ _ _ _ _ _) as [mags|] eqn:QA; [|discriminate]. simpl in H.
  assert (Hc : chunk <> 0%nat).
  { intros ->. unfold assemble, chunked_vmap in QA. simpl in QA. discriminate. }
  pose proof (res_mapM_length _ _ _ QP) as LP.
  destruct (assemble_spec (RtoC 0) (Ok None) (mag_full poly_roots 2 (with_a_e1 p a e1) cfg u1 dc rho) ws
     (map (fun r : option R * bool => Ok (fst r)) pts) (map snd pts) mf chunk Hc) as (mags' & QA' & LM & HM);
   [now rewrite map_length|now rewrite map_length|].
  rewrite QA in QA'. injection QA' as <-. pose proof (res_mapM_length _ _ _ H) as LO.
  split; auto. split; [congruence|]. exists pts. split; auto. intros i Hi. split.
  - rewrite (mapM_nth _ _ _ (RtoC 0) (None, false) QP i Hi). reflexivity.
  - rewrite <- (mapM_nth _ _ _ (Ok None) None H i) by lia. rewrite HM by auto.
    unfold expected_mag.
    assert (TE : forall j, nth j (map snd pts) false = snd (nth j pts (None, false))) by (intros j; exact (map_nth snd pts (None, false) j)).
    rewrite TE.
    replace (rejected_before (fun j => nth j (map snd pts) false) i) with (rejected_before (fun j => snd (nth j pts (None, false))) i).
    2: { unfold rejected_before. f_equal. apply filter_ext. intros j. now rewrite TE. }
    rewrite (nth_map_lt (fun r : option R * bool => Ok (fst r)) pts i (None, false) (Ok None)) by lia.
    rewrite (mag_full_params p cfg u1 dc rho _ s q Es Eq). reflexivity.
Qed.
(** with the whole budget, every value is the integrator's or within 0.01 of the point-source one *)
Lemma mag_binary_close p cfg u1 dc mf chunk ws rho s q out : p_s p = Some s -> p_q p = Some q ->
  (Z.of_nat (length ws) <= mf)%Z ->
  mag_binary poly_roots p cfg u1 dc mf chunk ws rho = Ok out ->
  length out = length ws /\ forall i, (i < length ws)%nat ->
    (if Reqb u1 0 then mag_uniform poly_roots 2 p cfg rho (nth i ws (RtoC 0))
     else mag_limb_dark poly_roots 2 p cfg u1 dc rho (nth i ws (RtoC 0))) = Ok (nth i out None) \/
    exists v m, nth i out None = Some v /\ mag_point_source poly_roots 2 p (nth i ws (RtoC 0)) = Ok m /\ (Rabs (v - m) < 1 / 100)%R.
Proof.
  intros Es Eq Hmf H. destruct (mag_binary_inv _ _ _ _ _ _ _ _ _ _ _ Es Eq H) as (_ & LO & pts & LP & HP). split; auto.
  intros i Hi. destruct (HP i Hi) as (B & X). unfold expected_mag in X. destruct (nth i pts (None, false)) as [mu t] eqn:QN. cbn [fst snd] in *.
  destruct t.
  - right. destruct (binary_point_close (with_a_e1 p (0.5 * s)%R (q / (1 + q))%R) (0.5 * s)%R (q / (1 + q))%R _ _ _ _ _ eq_refl eq_refl B) as (v & -> & L).
    apply (f_equal (fun r => match r with Ok x => x | _ => None end)) in X. cbv beta iota in X.
    exists v, (sum_inv_det (det_jac2 (0.5 * s)%R (q / (1 + q))%R) (images2 poly_roots (0.5 * s)%R (q / (1 + q))%R (nth i ws (RtoC 0) - x_cm (0.5 * s)%R q) None)).
    split; auto. split; auto. unfold mag_point_source. simpl. rewrite Es, Eq. reflexivity.
  - left. destruct (Nat.ltb_spec (rejected_before (fun j => snd (nth j pts (None, false))) i) (py_prefix_len mf (length ws))) as [_|L].
    exact X. exfalso. unfold py_prefix_len in L. destruct (Z.leb_spec 0 mf); [|lia].
    assert (rejected_before (fun j => snd (nth j pts (None, false))) i <= i)%nat.
    { unfold rejected_before. rewrite <- (seq_length i 0) at 2. generalize (seq 0 i). intros l; induction l as [|x l IHl]; simpl; auto. destruct (negb _); simpl; lia. }
    lia.
Qed.

(** ** smaller sources are accepted wherever larger ones are *)
Lemma abs_pow_mono x r r' n : (0 <= r' <= r)%R -> (Rabs (x * r' ^ n) <= Rabs (x * r ^ n))%R.
Proof.
  intros H. rewrite !Rabs_mult. apply Rmult_le_compat_l; [apply Rabs_pos|].
  rewrite !Rabs_pos_eq by (apply pow_le; lra). apply pow_incr; lra.
Qed.
Lemma weighted_mono wt (f g : C -> option R) z mask v : (forall b, (0 <= wt b)%R) ->
  (forall x y, f x = Some y -> exists y', g x = Some y' /\ (y' <= y)%R) ->
  weighted wt (map f z) mask = Some v -> exists v', weighted wt (map g z) mask = Some v' /\ (v' <= v)%R.
Proof.
  intros Hw H. unfold weighted. revert mask v. induction z as [|x z IH]; intros mask v Q.
  - exists v. split; auto; lra.
  - destruct mask as [|m mask]. { exists v; split; auto; lra. }
    cbn [map combine osum fst snd] in *. destruct (f x) as [y|] eqn:Qf; [|discriminate]. simpl in Q.
    destruct (H x y Qf) as (y' & -> & L). simpl.
    destruct (osum (map _ (combine (map f z) mask))) as [t|] eqn:Qt; [|discriminate]. simpl in Q. injection Q as <-.
    destruct (IH mask t Qt) as (t' & -> & L'). simpl. eexists; split; [reflexivity|]. pose proof (Rmult_le_compat_r (wt m) y' y (Hw m) L). lra.
Qed.
Lemma mu_cusp_mono cl rm rho rho' z y : (0 <= rho' <= rho)%R -> (0 <= rm)%R -> mu_cusp cl rho rm z = Some y ->
  exists y', mu_cusp cl rho' rm z = Some y' /\ (y' <= y)%R.
Proof.
  intros H Hr. unfold mu_cusp. destruct (_ || _ || _); [discriminate|]. intros Q.
  apply (f_equal (fun o => match o with Some x => x | None => 0%R end)) in Q; cbv beta iota in Q. subst y.
  eexists; split; [reflexivity|]. apply abs_pow_mono. lra.
Qed.
Lemma hex_delta_mono W z mask rho rho' u1 : (0 <= rho' <= rho)%R ->
  (snd (hex_sum W z mask rho' u1) <= snd (hex_sum W z mask rho u1))%R.
Proof.
  intros H. unfold hex_sum. cbn [snd]. revert mask. induction z as [|x z IH]; intros mask. simpl; lra.
  destruct mask as [|m mask]. simpl; lra. specialize (IH mask). cbn [map combine sumR fst snd].
  unfold cassan_of at 1 3 5 7. unfold cassan. cbv zeta. destruct m; [|lra].
  pose proof (abs_pow_mono (1 / 2 * mu2 (W x 2%nat) (W x 3%nat) (W x 4%nat) * (1 - 1 / 5 * (2 * u1 / (3 - u1)))) rho rho' 2 H) as Q1.
  pose proof (abs_pow_mono (1 / 24 * mu4 (W x 2%nat) (W x 3%nat) (W x 4%nat) (W x 5%nat) (W x 6%nat) * (1 - 11 / 35 * (2 * u1 / (3 - u1)))) rho rho' 4 H) as Q2.
  lra.
Qed.
Lemma proximity_mono cl cm gamma cf rm w z mask rho rho' d d' : (0 <= rho' <= rho)%R -> (0 <= rm)%R -> (0 <= gamma)%R -> (0 <= cf)%R -> (d' <= d)%R ->
  proximity_test cl cm gamma cf rm w z mask rho (Some d) = true -> proximity_test cl cm gamma cf rm w z mask rho' (Some d') = true.
Proof.
  intros H Hr Hg Hc Hd T. unfold proximity_test in *. apply andb_prop in T as (T1 & T2). apply andb_true_intro; split.
  - destruct (_ =? _)%nat; auto. destruct (weighted _ _ _); [|discriminate]. apply Rltb_true in T1. apply Rltb_true.
    pose proof (Rmult_le_compat_l cf (rho' + rm) (rho + rm) Hc). lra.
  - destruct (weighted b2R (map (mu_cusp cl rho rm) z) mask) as [mc|] eqn:Q; [|discriminate].
    destruct (weighted_mono b2R (mu_cusp cl rho rm) (mu_cusp cl rho' rm) z mask mc b2R_nonneg) as (mc' & -> & L); auto.
    intros x y. apply mu_cusp_mono; auto.
    apply Rltb_true in T2. apply Rltb_true. pose proof (Rmult_le_compat_l gamma mc' mc Hg L). lra.
Qed.
Lemma planetary_mono a e1 w rho rho' : (0 <= rho' <= rho)%R -> planetary_test 2 a e1 w rho = true -> planetary_test 2 a e1 w rho' = true.
Proof.
  intros H T. unfold planetary_test in *. cbv zeta in *. apply Rltb_true in T. apply Rltb_true.
  assert (rho' ^ 2 <= rho ^ 2)%R by (apply pow_incr; lra). lra.
Qed.
Lemma binary_point_mono p a e1 q rho rho' u1 w mu : p_a p = Some a -> p_e1 p = Some e1 -> (0 <= rho' <= rho)%R ->
  binary_point poly_roots p a e1 q rho u1 w = Ok (mu, true) -> exists mu', binary_point poly_roots p a e1 q rho' u1 w = Ok (mu', true).
Proof.
  intros Ea Ee Hr. rewrite !(binary_point_eq p a e1 q _ u1 w Ea Ee). destruct (images2 poly_roots a e1 w None) as [z mask]. cbv zeta.
  intros H. apply (f_equal (fun r => match r with Ok x => snd x | _ => false end)) in H. cbv beta iota in H. cbn [snd] in H.
  destruct (existsb _ z).
  - exfalso. assert (proximity_test (closures2 a e1) 1e-2 0.02 4 1e-3 w z mask rho None = true).
    { destruct (Rltb q 0.01); auto. apply andb_prop in H; tauto. }
    apply proximity_delta in H0; [|lra]. destruct H0 as (? & ? & _). discriminate.
  - eexists. f_equal. f_equal.
    assert (M1 : proximity_test (closures2 a e1) 1e-2 0.02 4 1e-3 w z mask rho (Some (snd (hex_sum (W_two a e1) z mask rho u1))) = true ->
                 proximity_test (closures2 a e1) 1e-2 0.02 4 1e-3 w z mask rho' (Some (snd (hex_sum (W_two a e1) z mask rho' u1))) = true).
    { apply proximity_mono; try lra. now apply hex_delta_mono. }
    destruct (Rltb q 0.01); auto. apply andb_prop in H as (T1 & T2). rewrite (M1 T1). simpl. exact (planetary_mono a e1 w rho rho' Hr T2).
Qed.
Lemma test_full_mono nl p rho rho' w : (0 <= rho' <= rho)%R -> test_full poly_roots nl p rho w = Ok true -> test_full poly_roots nl p rho' w = Ok true.
Proof.
  intros H. unfold test_full. destruct (p_e1 p) as [e1|] eqn:Ee; simpl; [|discriminate]. destruct (nl =? 2)%Z; [|discriminate].
  destruct (p_a p) as [a|] eqn:Ea; simpl; [|discriminate]. intros T.
  destruct (binary_point poly_roots p a e1 (e1 / (1 - e1)) rho 0 w) as [[mu t]|] eqn:Q; [|discriminate]. simpl in T.
  apply (f_equal (fun r => match r with Ok x => x | _ => false end)) in T. cbv beta iota in T. subst t.
  destruct (binary_point_mono p a e1 _ rho rho' 0 w mu Ea Ee H Q) as (mu' & ->). reflexivity.
Qed.
Lemma test_full_other nl p rho w e1 : p_e1 p = Some e1 -> nl <> 2%Z -> test_full poly_roots nl p rho w = Ok false.
Proof. intros Ee N. unfold test_full. rewrite Ee. simpl. apply Z.eqb_neq in N. now rewrite N. Qed.
End Solver.
